(** Model of shortcuts.py, of the setting KFUNC (_config.py 13), of iskfunc (kfun.py 357-363), and of the
    signatures of sources, processes and analytical functions.

    - Python objects: classes and functions with their signatures, and the kfunc classes made of them.
      Two objects are the same if they are made in the same way.
    - Values of parameters [pyv]: constants found in signatures, and any other object [PObj].  Floats and
      integers of the signatures are rational numbers.
    - Not modelled: names and docstrings of classes; the deletion of kfunc_all and kfunc_short (169), names that
      the model does not have; star imports bind all the names defined in infrastructure.py, integration.py and
      analytical.py, only those that shortcuts.py uses are listed. *)
From Coq Require Import String List Arith Bool ZArith QArith.
From Verif Require Import Base M_sde M_args M_kfun.
Import ListNotations.
Local Open Scope res_scope.

Inductive pyv := PNone | PNum (q : Q) | PTuple (l : list Q) | PText (s : string) | PName (s : string) | PObj (n : nat).
(** Python's equality *)
Fixpoint qs_eqb (l1 l2 : list Q) : bool :=
  match l1, l2 with
  | [], [] => true
  | x :: l1', y :: l2' => Qeq_bool x y && qs_eqb l1' l2'
  | _, _ => false
  end.
Definition pyv_eqb (a b : pyv) : bool :=
  match a, b with
  | PNone, PNone => true
  | PNum x, PNum y => Qeq_bool x y
  | PTuple l1, PTuple l2 => qs_eqb l1 l2
  | PText s, PText s' | PName s, PName s' => String.eqb s s'
  | PObj n, PObj m => Nat.eqb n m
  | _, _ => false
  end.

(** *** Signatures *)
Section Tables.
Local Open Scope string_scope.
Local Open Scope Q_scope.
Local Open Scope list_scope.
Definition n0 := PNum 0.  Definition n1 := PNum 1.  Definition n05 := PNum (1 # 2).  Definition n2 := PNum 2.
Definition nn := Some PNone.
Definition arg (n : string) : sparam pyv := mkP n PosOrKw None.
Definition opt (n : string) (d : pyv) : sparam pyv := mkP n PosOrKw (Some d).
Definition kw (n : string) (d : pyv) : sparam pyv := mkP n KwOnly (Some d).
(** a class with its own, or inherited, __init__ and __call__, and no __new__ *)
Definition plain_class (i c : list (sparam pyv)) : klass pyv := mkKlass false false true true i c.
(** [pr_q]: number of values sde receives after t; [pr_ids]: sources; then the signatures of source_dj (those
    of other sources are the same for all classes), init, sde, more *)
Record preset := mkPreset { pr_q : nat; pr_ids : list string; pr_dj : sig pyv;
                            pr_init : sig pyv; pr_sde : sig pyv; pr_more : sig pyv }.

(** sources: class, signatures of __init__ and __call__, infrastructure.py 1481-2600 *)
Definition source_call : list (sparam pyv) := [arg "self"; arg "t"; arg "dt"].   (* 1503, 1617, 2017 *)
Definition true_call : list (sparam pyv) := [arg "self"; arg "t"; opt "dt" PNone].   (* 2069, 2254 *)
Definition anti_init : list (sparam pyv) := [arg "self"; kw "paths" n2; kw "vshape" (PTuple []); kw "dtype" PNone; kw "rng" PNone; mkP
    "args" VarKw None].   (* 2057 *)
Definition source_classes : dict (klass pyv) :=
  [ ("wiener_source", plain_class [arg "self"; kw "paths" n1; kw "vshape" (PTuple []); kw "dtype" PNone; kw "rng" PNone; kw "corr" PNone; kw
      "rho" PNone] source_call);
    ("poisson_source", plain_class [arg "self"; kw "paths" n1; kw "vshape" (PTuple []); kw "dtype" (PName "int"); kw "rng" PNone; kw "lam"
        n1] source_call);
    ("cpoisson_source", plain_class [arg "self"; kw "paths" n1; kw "vshape" (PTuple []); kw "dtype" PNone; kw "rng" PNone; kw "dn" PNone; kw
        "ptype" (PName "int"); kw "lam" n1; kw "y" PNone] source_call);
    ("odd_wiener_source", plain_class anti_init true_call);
    ("even_poisson_source", plain_class anti_init true_call);
    ("even_cpoisson_source", plain_class anti_init true_call);
    ("true_wiener_source", plain_class [arg "self"; kw "paths" n1; kw "vshape" (PTuple []); kw "dtype" PNone; kw "rng" PNone; kw "corr"
        PNone; kw "rho" PNone; kw "rtol" (PText "max"); kw "t0" n0; kw "z0" n0] true_call);
    ("true_poisson_source", plain_class [arg "self"; kw "paths" n1; kw "vshape" (PTuple []); kw "dtype" (PName "int"); kw "rng" PNone; kw
        "lam" n1; kw "rtol" (PText "max"); kw "t0" n0; kw "z0" n0] true_call);
    ("true_cpoisson_source", plain_class [arg "self"; kw "paths" n1; kw "vshape" (PTuple []); kw "dtype" PNone; kw "rng" PNone; kw "rtol"
        (PText "max"); kw "t0" n0; kw "z0" n0; kw "dn" PNone; kw "ptype" (PName "int"); kw "lam" n1; kw "y" PNone] true_call) ].
(** processes: signature of SDE.__init__, integration.py 1081, and of paths_generator.__call__, 476 *)
Definition sde_init : list (sparam pyv) := [arg "self"; kw "paths" n1; kw "vshape" (PTuple []); kw "dtype" PNone; kw "rng" PNone; kw "steps"
    PNone; kw "i0" n0; kw "info" PNone; kw "getinfo" (PName "True"); kw "method" (PText "euler"); mkP "args" VarKw None].
Definition process_call : list (sparam pyv) := [arg "self"; arg "timeline"].
Definition process_names : list string := ["wiener_process"; "lognorm_process"; "ornstein_uhlenbeck_process"; "hull_white_process";
    "hull_white_1factor_process"; "cox_ingersoll_ross_process"; "full_heston_process"; "heston_process"; "jumpdiff_process";
    "merton_jumpdiff_process"; "kou_jumpdiff_process"].
(** functions of analytical.py; the hw1f functions are the oruh ones, 328-332 *)
Definition functions0 : dict (list (sparam pyv)) :=
  [ ("wiener_mean", [arg "t"; kw "x0" n0; kw "mu" n0; kw "sigma" n1]) (* 24 *);
    ("wiener_var", [arg "t"; kw "x0" n0; kw "mu" n0; kw "sigma" n1]) (* 41 *);
    ("wiener_std", [arg "t"; kw "x0" n0; kw "mu" n0; kw "sigma" n1]) (* 58 *);
    ("wiener_pdf", [arg "t"; arg "x"; kw "x0" n0; kw "mu" n0; kw "sigma" n1]) (* 74 *);
    ("wiener_cdf", [arg "t"; arg "x"; kw "x0" n0; kw "mu" n0; kw "sigma" n1]) (* 93 *);
    ("wiener_chf", [arg "t"; arg "u"; kw "x0" n0; kw "mu" n0; kw "sigma" n1]) (* 112 *);
    ("lognorm_mean", [arg "t"; kw "x0" n1; kw "mu" n0; kw "sigma" n1]) (* 133 *);
    ("lognorm_var", [arg "t"; kw "x0" n1; kw "mu" n0; kw "sigma" n1]) (* 149 *);
    ("lognorm_std", [arg "t"; kw "x0" n1; kw "mu" n0; kw "sigma" n1]) (* 165 *);
    ("lognorm_pdf", [arg "t"; arg "x"; kw "x0" n1; kw "mu" n0; kw "sigma" n1]) (* 180 *);
    ("lognorm_cdf", [arg "t"; arg "x"; kw "x0" n1; kw "mu" n0; kw "sigma" n1]) (* 199 *);
    ("lognorm_log_chf", [arg "t"; arg "u"; kw "x0" n1; kw "mu" n0; kw "sigma" n1]) (* 218 *);
    ("oruh_mean", [arg "t"; kw "x0" n0; kw "theta" n0; kw "k" n1; kw "sigma" n1]) (* 240 *);
    ("oruh_var", [arg "t"; kw "x0" n0; kw "theta" n0; kw "k" n1; kw "sigma" n1]) (* 257 *);
    ("oruh_std", [arg "t"; kw "x0" n0; kw "theta" n0; kw "k" n1; kw "sigma" n1]) (* 274 *);
    ("oruh_pdf", [arg "t"; arg "x"; kw "x0" n0; kw "theta" n0; kw "k" n1; kw "sigma" n1]) (* 290 *);
    ("oruh_cdf", [arg "t"; arg "x"; kw "x0" n0; kw "theta" n0; kw "k" n1; kw "sigma" n1]) (* 308 *);
    ("hw2f_mean", [arg "t"; kw "x0" (PTuple [0; 0]); kw "theta" (PTuple [0; 0]); kw "k" (PTuple [1; 1]); kw "sigma" (PTuple [1; 1]); kw
        "rho" n0]) (* 377 *);
    ("hw2f_var", [arg "t"; kw "x0" (PTuple [0; 0]); kw "theta" (PTuple [0; 0]); kw "k" (PTuple [1; 1]); kw "sigma" (PTuple [1; 1]); kw "rho"
        n0]) (* 398 *);
    ("hw2f_std", [arg "t"; kw "x0" (PTuple [0; 0]); kw "theta" (PTuple [0; 0]); kw "k" (PTuple [1; 1]); kw "sigma" (PTuple [1; 1]); kw "rho"
        n0]) (* 420 *);
    ("hw2f_pdf", [arg "t"; arg "x"; kw "x0" (PTuple [0; 0]); kw "theta" (PTuple [0; 0]); kw "k" (PTuple [1; 1]); kw "sigma" (PTuple [1; 1]);
        kw "rho" n0]) (* 439 *);
    ("hw2f_cdf", [arg "t"; arg "x"; kw "x0" (PTuple [0; 0]); kw "theta" (PTuple [0; 0]); kw "k" (PTuple [1; 1]); kw "sigma" (PTuple [1; 1]);
        kw "rho" n0]) (* 461 *);
    ("cir_mean", [arg "t"; kw "x0" n1; kw "theta" n1; kw "k" n1; kw "xi" n1]) (* 483 *);
    ("cir_var", [arg "t"; kw "x0" n1; kw "theta" n1; kw "k" n1; kw "xi" n1]) (* 500 *);
    ("cir_std", [arg "t"; kw "x0" n1; kw "theta" n1; kw "k" n1; kw "xi" n1]) (* 518 *);
    ("cir_pdf", [arg "t"; arg "x"; kw "x0" n1; kw "theta" n1; kw "k" n1; kw "xi" n1]) (* 534 *);
    ("heston_log_mean", [arg "t"; kw "x0" n1; kw "mu" n0; kw "sigma" n1; kw "y0" n1; kw "theta" n1; kw "k" n1; kw "xi" n1; kw "rho" n0]) (* 560 *);
    ("heston_log_var", [arg "t"; kw "x0" n1; kw "mu" n0; kw "sigma" n1; kw "y0" n1; kw "theta" n1; kw "k" n1; kw "xi" n1; kw "rho" n0]) (* 583 *);
    ("heston_log_std", [arg "t"; kw "x0" n1; kw "mu" n0; kw "sigma" n1; kw "y0" n1; kw "theta" n1; kw "k" n1; kw "xi" n1; kw "rho" n0]) (* 615 *);
    ("heston_log_chf", [arg "t"; arg "u"; kw "x0" n1; kw "mu" n0; kw "sigma" n1; kw "y0" n1; kw "theta" n1; kw "k" n1; kw "xi" n1; kw "rho"
        n0]) (* 636 *);
    ("heston_log_pdf", [arg "t"; arg "logx"; kw "x0" n1; kw "mu" n0; kw "sigma" n1; kw "y0" n1; kw "theta" n1; kw "k" n1; kw "xi" n1; kw
        "rho" n0]) (* 691 *);
    ("mjd_mean", [arg "t"; kw "x0" n1; kw "mu" n0; kw "sigma" n1; kw "lam" n1; kw "a" n0; kw "b" n1]) (* 724 *);
    ("mjd_log_chf", [arg "t"; arg "u"; kw "x0" n1; kw "mu" n0; kw "sigma" n1; kw "lam" n1; kw "a" n0; kw "b" n1]) (* 748 *);
    ("mjd_log_pdf", [arg "t"; arg "logx"; kw "x0" n1; kw "mu" n0; kw "sigma" n1; kw "lam" n1; kw "a" n0; kw "b" n1]) (* 781 *);
    ("kou_mean", [arg "t"; kw "x0" n1; kw "mu" n0; kw "sigma" n1; kw "lam" n1; kw "a" n05; kw "b" n05; kw "pa" n05]) (* 813 *);
    ("kou_log_chf", [arg "t"; arg "u"; kw "x0" n1; kw "mu" n0; kw "sigma" n1; kw "lam" n1; kw "a" n05; kw "b" n05; kw "pa" n05]) (* 839 *);
    ("kou_log_pdf", [arg "t"; arg "logx"; kw "x0" n1; kw "mu" n0; kw "sigma" n1; kw "lam" n1; kw "pa" n05; kw "a" n05; kw "b" n05]) (* 872 *);
    ("bsd1d2", [arg "k"; arg "t"; kw "x0" n1; kw "r" n0; kw "q" n0; kw "sigma" n1]) (* 906 *);
    ("bscall", [arg "k"; arg "t"; kw "x0" n1; kw "r" n0; kw "q" n0; kw "sigma" n1]) (* 934 *);
    ("bscall_delta", [arg "k"; arg "t"; kw "x0" n1; kw "r" n0; kw "q" n0; kw "sigma" n1]) (* 990 *);
    ("bsput", [arg "k"; arg "t"; kw "x0" n1; kw "r" n0; kw "q" n0; kw "sigma" n1]) (* 1006 *);
    ("bsput_delta", [arg "k"; arg "t"; kw "x0" n1; kw "r" n0; kw "q" n0; kw "sigma" n1]) (* 1023 *) ].
(** the statements of shortcuts.py: 49-71, 76-99, 111-166 *)
Definition full_stmts : list (string * string) := [("wiener_source", "wiener_source"); ("poisson_source", "poisson_source");
    ("cpoisson_source", "cpoisson_source"); ("odd_wiener_source", "odd_wiener_source"); ("even_poisson_source", "even_poisson_source");
    ("even_cpoisson_source", "even_cpoisson_source"); ("true_wiener_source", "true_wiener_source"); ("true_poisson_source",
    "true_poisson_source"); ("true_cpoisson_source", "true_cpoisson_source"); ("wiener_process", "wiener_process"); ("lognorm_process",
    "lognorm_process"); ("ornstein_uhlenbeck_process", "ornstein_uhlenbeck_process"); ("hull_white_process", "hull_white_process");
    ("hull_white_1factor_process", "hull_white_1factor_process"); ("cox_ingersoll_ross_process", "cox_ingersoll_ross_process");
    ("full_heston_process", "full_heston_process"); ("heston_process", "heston_process"); ("jumpdiff_process", "jumpdiff_process");
    ("merton_jumpdiff_process", "merton_jumpdiff_process"); ("kou_jumpdiff_process", "kou_jumpdiff_process")].
Definition short_stmts : list (string * string) := [("dw", "wiener_source"); ("dn", "poisson_source"); ("dj", "cpoisson_source"); ("odd_dw",
    "odd_wiener_source"); ("even_dn", "even_poisson_source"); ("even_dj", "even_cpoisson_source"); ("true_dw", "true_wiener_source");
    ("true_dn", "true_poisson_source"); ("true_dj", "true_cpoisson_source"); ("wiener", "wiener_process"); ("lognorm", "lognorm_process");
    ("oruh", "ornstein_uhlenbeck_process"); ("hwff", "hull_white_process"); ("hw1f", "hull_white_1factor_process"); ("cir",
    "cox_ingersoll_ross_process"); ("heston_xy", "full_heston_process"); ("heston", "heston_process"); ("jumpdiff", "jumpdiff_process");
    ("mjd", "merton_jumpdiff_process"); ("kou", "kou_jumpdiff_process")].
Definition an_stmts : list (string * Z * string) := [("wiener_mean", 1%Z, "wiener_mean"); ("wiener_var", 1%Z, "wiener_var"); ("wiener_std",
    1%Z, "wiener_std"); ("wiener_pdf", 2%Z, "wiener_pdf"); ("wiener_cdf", 2%Z, "wiener_cdf"); ("wiener_chf", 2%Z, "wiener_chf");
    ("lognorm_mean", 1%Z, "lognorm_mean"); ("lognorm_var", 1%Z, "lognorm_var"); ("lognorm_std", 1%Z, "lognorm_std"); ("lognorm_pdf", 2%Z,
    "lognorm_pdf"); ("lognorm_cdf", 2%Z, "lognorm_cdf"); ("lognorm_log_chf", 2%Z, "lognorm_log_chf"); ("oruh_mean", 1%Z, "oruh_mean");
    ("oruh_var", 1%Z, "oruh_var"); ("oruh_std", 1%Z, "oruh_std"); ("oruh_pdf", 2%Z, "oruh_pdf"); ("oruh_cdf", 2%Z, "oruh_cdf");
    ("hw1f_mean", 1%Z, "hw1f_mean"); ("hw1f_var", 1%Z, "hw1f_var"); ("hw1f_std", 1%Z, "hw1f_std"); ("hw1f_pdf", 2%Z, "hw1f_pdf");
    ("hw1f_cdf", 2%Z, "hw1f_cdf"); ("hw2f_mean", 1%Z, "hw2f_mean"); ("hw2f_var", 1%Z, "hw2f_var"); ("hw2f_std", 1%Z, "hw2f_std");
    ("hw2f_pdf", 2%Z, "hw2f_pdf"); ("hw2f_cdf", 2%Z, "hw2f_cdf"); ("cir_mean", 1%Z, "cir_mean"); ("cir_var", 1%Z, "cir_var"); ("cir_std",
    1%Z, "cir_std"); ("cir_pdf", 2%Z, "cir_pdf"); ("heston_log_mean", 1%Z, "heston_log_mean"); ("heston_log_var", 1%Z, "heston_log_var");
    ("heston_log_std", 1%Z, "heston_log_std"); ("heston_log_chf", 2%Z, "heston_log_chf"); ("heston_log_pdf", 2%Z, "heston_log_pdf");
    ("mjd_mean", 1%Z, "mjd_mean"); ("mjd_log_chf", 2%Z, "mjd_log_chf"); ("mjd_log_pdf", 2%Z, "mjd_log_pdf"); ("kou_mean", 1%Z, "kou_mean");
    ("kou_log_chf", 2%Z, "kou_log_chf"); ("kou_log_pdf", 2%Z, "kou_log_pdf"); ("bsd1d2", 2%Z, "bsd1d2"); ("bscall", 2%Z, "bscall");
    ("bscall_delta", 2%Z, "bscall_delta"); ("bsput", 2%Z, "bsput"); ("bsput_delta", 2%Z, "bsput_delta")].
(** signatures, without self, of the methods of the preset SDE classes: integration.py *)
Definition source_dt : sig pyv := [].   (* 1294 *)
Definition source_dw : sig pyv := [("dw", nn); ("corr", nn); ("rho", nn)].   (* 1311 *)
Definition source_dn : sig pyv := [("dn", nn); ("ptype", (Some (PName "int"))); ("lam", (Some n1))].   (* 1346 *)
Definition source_dj : sig pyv := [("dj", nn); ("dn", nn); ("ptype", (Some (PName "int"))); ("lam", (Some n1)); ("y", nn)].   (* 1383 *)
Definition merton_dj : sig pyv := [("dj", nn); ("dn", nn); ("ptype", (Some (PName "int"))); ("lam", (Some n1)); ("a", (Some n0)); ("b",
    (Some n1))].   (* 2707 *)
Definition kou_dj : sig pyv := [("dj", nn); ("dn", nn); ("ptype", (Some (PName "int"))); ("lam", (Some n1)); ("a", (Some n05)); ("b", (Some
    n05)); ("pa", (Some n05))].   (* 2743 *)
Definition presets : dict preset :=
  [ ("wiener_process", mkPreset 1 ["dt"; "dw"] source_dj [("s", None); ("out_x", None); ("x0", (Some n0))] [("t", None); ("x", None); ("mu",
      (Some n0)); ("sigma", (Some n1))] []);
    ("lognorm_process", mkPreset 1 ["dt"; "dw"] source_dj [("t", None); ("out_x", None); ("x0", (Some n1))] [("t", None); ("x", None);
        ("mu", (Some n0)); ("sigma", (Some n1))] []);
    ("ornstein_uhlenbeck_process", mkPreset 1 ["dt"; "dw"] source_dj [("s", None); ("out_x", None); ("x0", (Some n0))] [("s", None); ("x",
        None); ("theta", (Some n0)); ("k", (Some n1)); ("sigma", (Some n1))] []);
    ("hull_white_process", mkPreset 1 ["dt"; "dw"] source_dj [("s", None); ("out_x", None); ("x0", (Some n0))] [("s", None); ("x", None);
        ("theta", (Some n0)); ("k", (Some n1)); ("sigma", (Some n1))] [("factors", (Some n1))]);
    ("hull_white_1factor_process", mkPreset 1 ["dt"; "dw"] source_dj [("s", None); ("out_x", None); ("x0", (Some n0))] [("s", None); ("x",
        None); ("theta", (Some n0)); ("k", (Some n1)); ("sigma", (Some n1))] []);
    ("cox_ingersoll_ross_process", mkPreset 1 ["dt"; "dw"] source_dj [("t", None); ("out_x", None); ("x0", (Some n1))] [("s", None); ("x",
        None); ("theta", (Some n1)); ("k", (Some n1)); ("xi", (Some n1))] []);
    ("full_heston_process", mkPreset 2 ["dt"; "dw"] source_dj [("s", None); ("out_X", None); ("x0", (Some n1)); ("y0", (Some n1))] [("t",
        None); ("x", None); ("y", None); ("mu", (Some n0)); ("sigma", (Some n1)); ("theta", (Some n1)); ("k", (Some n1)); ("xi", (Some n1))]
        []);
    ("heston_process", mkPreset 2 ["dt"; "dw"] source_dj [("s", None); ("out_X", None); ("x0", (Some n1)); ("y0", (Some n1))] [("t", None);
        ("x", None); ("y", None); ("mu", (Some n0)); ("sigma", (Some n1)); ("theta", (Some n1)); ("k", (Some n1)); ("xi", (Some n1))] []);
    ("jumpdiff_process", mkPreset 1 ["dt"; "dw"; "dj"] source_dj [("t", None); ("out_x", None); ("x0", (Some n1))] [("s", None); ("x",
        None); ("mu", (Some n0)); ("sigma", (Some n1))] []);
    ("merton_jumpdiff_process", mkPreset 1 ["dt"; "dw"; "dj"] merton_dj [("t", None); ("out_x", None); ("x0", (Some n1))] [("s", None);
        ("x", None); ("mu", (Some n0)); ("sigma", (Some n1))] []);
    ("kou_jumpdiff_process", mkPreset 1 ["dt"; "dw"; "dj"] kou_dj [("t", None); ("out_x", None); ("x0", (Some n1))] [("s", None); ("x",
        None); ("mu", (Some n0)); ("sigma", (Some n1))] []) ].
End Tables.

(** *** Instances of preset processes: SDE.__init__, integration.py 1081-1113.  [ids]: the sources in the order
    they are iterated on.  The result is the dictionary of all parameters and their values. *)
Definition setups (p : preset) (id : string) : option (sig pyv) :=
  if String.eqb id "dt" then Some source_dt else
  if String.eqb id "dw" then Some source_dw else
  if String.eqb id "dn" then Some source_dn else
  if String.eqb id "dj" then Some (pr_dj p) else None.
(** the keyword-only parameters of a signature *)
Fixpoint kw_defaults (s : list (sparam pyv)) : dict pyv :=
  match s with
  | [] => []
  | p :: s' => match p_kind p, p_default p with
               | KwOnly, Some d => (p_name p, d) :: kw_defaults s'
               | _, _ => kw_defaults s'
               end
  end.
Definition instantiate (p : preset) (ids : list string) (kwargs : dict pyv) : res (dict pyv) :=
  let own := M_args.keys (kw_defaults sde_init) in
  let mine := filter (fun q => mem_str (fst q) own) kwargs in
  let rest := filter (fun q => negb (mem_str (fst q) own)) kwargs in
  r <- sde_args (fun _ => true) pyv_eqb (pr_q p) ids (setups p) (pr_init p) (pr_sde p) (pr_more p)
         (map (fun q => (fst q, Some (snd q))) rest) ;;
  Ok (dupdate (kw_defaults sde_init) mine ++ snd r).

(** *** Objects *)
Inductive pyobj :=
| OClass (name : string) (k : klass pyv)
| OFun (name : string) (s : list (sparam pyv))
| OKfunc (spec : kspec pyv) (wrapped : pyobj).
(** [iskfunc], kfun.py 357-363 *)
Definition iskfunc (o : pyobj) : bool := match o with OKfunc _ _ => true | _ => false end.
(** what kfunc finds: a kfunc is a class, with the signatures of the class it was made of *)
Fixpoint callable_of (o : pyobj) : callable pyv :=
  match o with
  | OClass _ k => CClass k
  | OFun _ s => CFun s
  | OKfunc _ w => match callable_of w with
                  | CClass k => CClass (mkKlass true (cls_new k) (cls_init k) (cls_call k) (init_sig k) (call_sig k))
                  | CFun s => CClass (mkKlass true false true true (init_sig (fun_klass s)) s)
                  end
  end.
(** kfunc(o), kfunc(nvar=n)(o) *)
Definition kfunc_cls (o : pyobj) : res pyobj :=
  f <- kfunc (Some (callable_of o)) None ;; s <- f (callable_of o) ;; Ok (OKfunc s o).
Definition kfunc_fun (n : Z) (o : pyobj) : res pyobj :=
  f <- kfunc None (Some n) ;; s <- f (callable_of o) ;; Ok (OKfunc s o).

(** *** The module *)
Definition class_objects : dict pyobj :=
  map (fun p => (fst p, OClass (fst p) (snd p))) source_classes ++
  map (fun n => (n, OClass n (plain_class sde_init process_call))) process_names.
(** hw1f_mean = oruh_mean and so on, analytical.py 328-332 *)
Definition fun_of (n m : string) : dict pyobj :=
  match lookup m functions0 with Some s => [(n, OFun m s)] | None => [] end.
Definition fun_objects : dict pyobj :=
  flat_map (fun p => fun_of (fst p) (fst p)) functions0 ++
  (fun_of "hw1f_mean" "oruh_mean" ++ fun_of "hw1f_var" "oruh_var" ++ fun_of "hw1f_std" "oruh_std" ++
   fun_of "hw1f_pdf" "oruh_pdf" ++ fun_of "hw1f_cdf" "oruh_cdf").
(** shortcuts.py 11-15 *)
Definition imported : dict pyobj := class_objects ++ fun_objects.

(** shortcuts.py 23-44: kfunc_all and kfunc_short; [kfunc_setting] is _config.KFUNC *)
Definition wrappers (kfunc_setting : pyv) : res ((pyobj -> res pyobj) * (pyobj -> res pyobj)) :=
  match kfunc_setting with
  | PText s => if String.eqb s "all" then Ok (kfunc_cls, Ok)
               else if String.eqb s "shortcuts" then Ok (Ok, kfunc_cls) else Err ValueError
  | PNone => Ok (Ok, Ok)
  | _ => Err ValueError
  end.
(** target = f(name) *)
Definition assign (f : pyobj -> res pyobj) (target name : string) (env : dict pyobj) : res (dict pyobj) :=
  match lookup name env with
  | None => Err AttributeError (* NameError *)
  | Some o => o' <- f o ;; Ok (dset target o' env)
  end.
Fixpoint assigns (l : list (string * string * (pyobj -> res pyobj))) (env : dict pyobj) : res (dict pyobj) :=
  match l with
  | [] => Ok env
  | (t, n, f) :: l' => env' <- assign f t n env ;; assigns l' env'
  end.
(** shortcuts.py 108 *)
Definition wraps_functions (kfunc_setting : pyv) : bool :=
  existsb (pyv_eqb kfunc_setting) [PText "all"; PText "shortcuts"].
Definition shortcuts (kfunc_setting : pyv) : res (dict pyobj) :=
  w <- wrappers kfunc_setting ;;
  e1 <- assigns (map (fun p => (fst p, snd p, fst w)) full_stmts) imported ;;
  e2 <- assigns (map (fun p => (fst p, snd p, snd w)) short_stmts) e1 ;;
  if wraps_functions kfunc_setting
  then assigns (map (fun p => (fst (fst p), snd p, kfunc_fun (snd (fst p)))) an_stmts) e2
  else Ok e2.
(** _config.py 13 *)
Definition KFUNC : pyv := PText "shortcuts".

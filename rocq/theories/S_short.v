(** Specification vocabulary for shortcuts, and for documented parameters. *)
From Coq Require Import Ascii String List Arith Bool ZArith QArith.
From Verif Require Import Base M_sde M_args M_kfun M_short.
Import ListNotations.

Section Doc.
Local Open Scope string_scope.
Local Open Scope Q_scope.
Local Open Scope list_scope.
(** full names and shortcuts, /repo/doc/apidoc.rst 149-177 *)
Definition doc_shortcuts : list (string * string) :=
  [ ("wiener_source", "dw"); ("poisson_source", "dn"); ("cpoisson_source", "dj");
    ("odd_wiener_source", "odd_dw"); ("even_poisson_source", "even_dn"); ("even_cpoisson_source", "even_dj");
    ("true_wiener_source", "true_dw"); ("true_poisson_source", "true_dn"); ("true_cpoisson_source", "true_dj");
    ("wiener_process", "wiener"); ("lognorm_process", "lognorm"); ("ornstein_uhlenbeck_process", "oruh");
    ("hull_white_process", "hwff"); ("hull_white_1factor_process", "hw1f"); ("cox_ingersoll_ross_process", "cir");
    ("full_heston_process", "heston_xy"); ("heston_process", "heston"); ("jumpdiff_process", "jumpdiff");
    ("merton_jumpdiff_process", "mjd"); ("kou_jumpdiff_process", "kou") ].

(** parameters of preset processes, as in the first lines of their docstrings, integration.py 2074-2753 *)
Definition documented : dict (dict pyv) :=
  [ ("wiener_process", [("paths", n1); ("vshape", (PTuple [])); ("dtype", PNone); ("rng", PNone); ("steps", PNone); ("i0", n0); ("info",
      PNone); ("getinfo", (PName "True")); ("method", (PText "euler")); ("x0", n0); ("mu", n0); ("sigma", n1); ("dw", PNone); ("corr",
      PNone); ("rho", PNone)]);
    ("lognorm_process", [("paths", n1); ("vshape", (PTuple [])); ("dtype", PNone); ("rng", PNone); ("steps", PNone); ("i0", n0); ("info",
        PNone); ("getinfo", (PName "True")); ("method", (PText "euler")); ("x0", n1); ("mu", n0); ("sigma", n1); ("dw", PNone); ("corr",
        PNone); ("rho", PNone)]);
    ("ornstein_uhlenbeck_process", [("paths", n1); ("vshape", (PTuple [])); ("dtype", PNone); ("rng", PNone); ("steps", PNone); ("i0", n0);
        ("info", PNone); ("getinfo", (PName "True")); ("method", (PText "euler")); ("x0", n0); ("theta", n0); ("k", n1); ("sigma", n1);
        ("dw", PNone); ("corr", PNone); ("rho", PNone)]);
    ("hull_white_process", [("paths", n1); ("vshape", (PTuple [])); ("dtype", PNone); ("rng", PNone); ("steps", PNone); ("i0", n0); ("info",
        PNone); ("getinfo", (PName "True")); ("method", (PText "euler")); ("factors", n1); ("x0", n0); ("theta", n0); ("k", n1); ("sigma",
        n1); ("dw", PNone); ("corr", PNone); ("rho", PNone)]);
    ("hull_white_1factor_process", [("paths", n1); ("vshape", (PTuple [])); ("dtype", PNone); ("rng", PNone); ("steps", PNone); ("i0", n0);
        ("info", PNone); ("getinfo", (PName "True")); ("method", (PText "euler")); ("x0", n0); ("theta", n0); ("k", n1); ("sigma", n1);
        ("dw", PNone); ("corr", PNone); ("rho", PNone)]);
    ("cox_ingersoll_ross_process", [("paths", n1); ("vshape", (PTuple [])); ("dtype", PNone); ("rng", PNone); ("steps", PNone); ("i0", n0);
        ("info", PNone); ("getinfo", (PName "True")); ("method", (PText "euler")); ("x0", n1); ("theta", n1); ("k", n1); ("xi", n1); ("dw",
        PNone); ("corr", PNone); ("rho", PNone)]);
    ("full_heston_process", [("paths", n1); ("vshape", (PTuple [])); ("dtype", PNone); ("rng", PNone); ("steps", PNone); ("i0", n0);
        ("info", PNone); ("getinfo", (PName "True")); ("method", (PText "euler")); ("x0", n1); ("mu", n0); ("sigma", n1); ("y0", n1);
        ("theta", n1); ("k", n1); ("xi", n1); ("dw", PNone); ("corr", PNone); ("rho", PNone)]);
    ("heston_process", [("paths", n1); ("vshape", (PTuple [])); ("dtype", PNone); ("rng", PNone); ("steps", PNone); ("i0", n0); ("info",
        PNone); ("getinfo", (PName "True")); ("method", (PText "euler")); ("x0", n1); ("mu", n0); ("sigma", n1); ("y0", n1); ("theta", n1);
        ("k", n1); ("xi", n1); ("dw", PNone); ("corr", PNone); ("rho", PNone)]);
    ("jumpdiff_process", [("paths", n1); ("vshape", (PTuple [])); ("dtype", PNone); ("rng", PNone); ("steps", PNone); ("i0", n0); ("info",
        PNone); ("getinfo", (PName "True")); ("method", (PText "euler")); ("x0", n1); ("mu", n0); ("sigma", n1); ("dw", PNone); ("corr",
        PNone); ("rho", PNone); ("dj", PNone); ("dn", PNone); ("ptype", (PName "int")); ("lam", n1); ("y", PNone)]);
    ("merton_jumpdiff_process", [("paths", n1); ("vshape", (PTuple [])); ("dtype", PNone); ("rng", PNone); ("steps", PNone); ("i0", n0);
        ("info", PNone); ("getinfo", (PName "True")); ("method", (PText "euler")); ("x0", n1); ("mu", n0); ("sigma", n1); ("dw", PNone);
        ("corr", PNone); ("rho", PNone); ("dj", PNone); ("dn", PNone); ("ptype", (PName "int")); ("lam", n1); ("a", n0); ("b", n1)]);
    ("kou_jumpdiff_process", [("paths", n1); ("vshape", (PTuple [])); ("dtype", PNone); ("rng", PNone); ("steps", PNone); ("i0", n0);
        ("info", PNone); ("getinfo", (PName "True")); ("method", (PText "euler")); ("x0", n1); ("mu", n0); ("sigma", n1); ("dw", PNone);
        ("corr", PNone); ("rho", PNone); ("dj", PNone); ("dn", PNone); ("ptype", (PName "int")); ("lam", n1); ("a", n05); ("b", n05); ("pa",
        n05)]) ].

(** "Analytical results are named according to the shortcut of the corresponding process", apidoc.rst 182-184:
    the shortcut is what comes before the first underscore; the two factors Hull-White process is a hull_white_process *)
Fixpoint before_underscore (s : string) : string :=
  match s with
  | EmptyString => EmptyString
  | String c s' => if Ascii.eqb c "_"%char then EmptyString else String c (before_underscore s')
  end.
Definition process_of (f : string) : option string :=
  let s := before_underscore f in
  if String.eqb s "hw2f" then Some "hull_white_process" else
  option_map fst (find (fun p => String.eqb (snd p) s) doc_shortcuts).
End Doc.

(** the class or function an object stands for *)
Definition meaning (o : pyobj) : pyobj := match o with OKfunc _ w => w | _ => o end.

(** the same parameter, as a default of an analytical function and of a process: a correlation of zero is
    no correlation, values of two factors are one value for each *)
Definition agree (k : string) (v w : pyv) : Prop :=
  v = w \/ (k = "rho"%string /\ v = PNum 0 /\ w = PNone) \/ (exists c, v = PTuple [c; c] /\ w = PNum c).

(** values of the keyword parameters in a call: those given, else the defaults *)
Definition call_value (defaults given : dict pyv) (k : string) : option pyv :=
  match lookup k defaults with
  | None => None
  | Some d => match lookup k given with Some v => Some v | None => Some d end
  end.

(** a function does not depend on the order keywords are given in *)
Definition any_order {V W : Type} (f : W -> list V -> dict V -> W * res V) : Prop :=
  forall w vars d1 d2, NoDup (map fst d1) -> NoDup (map fst d2) -> (forall k, lookup k d1 = lookup k d2) ->
    f w vars d1 = f w vars d2.

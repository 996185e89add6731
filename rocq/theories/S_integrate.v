(** Specifications for the setup of sources and for the integrate decorator. *)
From Coq Require Import String List Arith Bool ZArith Reals.
From Verif Require Import Base BaseOrd BaseNum BaseArr BaseNd BaseIdx M_paths M_process M_source S_source M_sde M_integrate.
Import ListNotations.

(** NumPy broadcasting of a shape to another: aligned at the end, each axis is equal or 1 *)
Definition broadcasts (a w : list nat) : Prop :=
  exists pre suf, w = pre ++ suf /\ Forall2 (fun x y => x = y \/ x = 1) a suf.

(** the source protocol, at single times: values that broadcast to vshape + (paths,) *)
Definition complies {V G A} (s : src (V := V) (G := G) (arr A)) (paths : nat) (vshape : list nat) : Prop :=
  forall t dt g, exists z g', s (ascalar t) (ascalar dt) g = (Ok z, g') /\ broadcasts (shp z) (vshape ++ [paths]).

(** a correlation matrix, or none, for the last axis of the values, at all times *)
Definition correlates (wshape : list nat) (c : M_source.param R) : Prop :=
  c = PNone \/ exists v M, wshape = v ++ [M] /\ forall t, exists m, intensity c t = Ok m /\ is_matrix M m.
(** an intensity, at all times *)
Definition intense (paths : nat) (wshape : list nat) (l : M_source.param R) : Prop :=
  forall t, exists L, intensity l t = Ok L /\ broadcasts (shp L) (wshape ++ [paths]) /\ forall r, inb (shp L) r -> (0 <= dat L r)%R.

(** *** the decorator *)
(** [f] has value v when evaluated for a test: without arguments, or else at (1., 1.) *)
Definition tested {T V} `{Num V} (tone : T) (f : pyfun T V) (v : sdeval V) : Prop :=
  pycall f [] [] = Ok v \/ ((forall v', pycall f [] [] <> Ok v') /\ pycall f [VT tone; VA (ascalar none)] [] = Ok v).
(** v is the value of one equation (q = 0), or of q > 0 equations, and [ids] are the differentials in it *)
Inductive shows {V} : sdeval V -> nat -> list string -> Prop :=
| shows_one d ids : (forall k, In k ids <-> exists c, In (k, c) d) -> shows (RDict d) 0 ids
| shows_more ds ids : ds <> [] -> (forall k, In k ids <-> exists d c, In d ds /\ In (k, c) d) ->
    shows (RSeq (map (@RDict V) ds)) (length ds) ids.
(** the values given to the parameters of a function, in order: [v] for the first ones, then by name *)
Definition by_name {T V} (ps : list (string * option (val T V))) (args : dict (arr V)) (vs : list (val T V)) : Prop :=
  Forall2 (fun p v => exists a, In (fst p, a) args /\ v = VA a) ps vs.

(** the same, with default values for the parameters not among the arguments *)
Definition by_name_or_default {T V} (ps : list (string * option (val T V))) (args : dict (arr V)) (vs : list (val T V)) : Prop :=
  Forall2 (fun p v => (exists a, In (fst p, a) args /\ v = VA a) \/ (~ (exists a, In (fst p, a) args) /\ snd p = Some v)) ps vs.

(** *** the sources of an SDE instance *)
(** an object given as a source, that fits, or a class whose instances do *)
Definition given_fits {V G A} (z : given_source (src (V := V) (G := G) (arr A))) (paths : nat) (wshape : list nat) : Prop :=
  (exists v s, z = GObject (Some (paths, v)) s /\ broadcasts v wshape /\ complies s paths v) \/
  (exists new s, z = GClass new /\ new paths wshape = Ok s /\ complies s paths wshape).
(** nothing to prevent the source [id] from being set up and used *)
Inductive ready {G} (a : src_args (V := R) (G := G)) (paths : nat) (wshape : list nat) : string -> Prop :=
| r_dt : ready a paths wshape "dt"
| r_dw c : a_dw a = GNone -> wiener_new wshape (a_corr a) (a_rho a) = Ok c -> correlates wshape c -> ready a paths wshape "dw"
| r_dw_given : given_fits (a_dw a) paths wshape -> ready a paths wshape "dw"
| r_dn l : a_dn a = GNone -> poisson_new paths wshape (a_lam a) = Ok l -> intense paths wshape l -> ready a paths wshape "dn"
| r_dn_given : given_fits (a_dn a) paths wshape -> ready a paths wshape "dn"
| r_dj l : a_dj a = GNone -> a_dn a = GNone -> poisson_new paths wshape (a_lam a) = Ok l -> intense paths wshape l ->
    ndindex (wshape ++ [paths]) <> [] -> ready a paths wshape "dj"
| r_dj_given : given_fits (a_dj a) paths wshape -> ready a paths wshape "dj".

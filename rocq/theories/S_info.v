(** Specification vocabulary for the optional diagnostics of an integration (C73). *)
From Coq Require Import String List Arith Bool ZArith.
From Verif Require Import Base BaseOrd BaseNum BaseArr M_paths M_sde.
Import ListNotations.

Section S.
Context {T : Type} {V : Type} {Wd I : Type}.
(** the same SDE and integrator, with the getinfo flag set to [b] *)
Definition set_getinfo (b : bool) (ig : integ T V Wd I) : integ T V Wd I :=
  mkInteg (ig_ids ig) (ig_src ig) (ig_A ig) (ig_w ig) (ig_init ig) (ig_log ig) (ig_let ig) b
          (ig_info_begin ig) (ig_info_next ig) (ig_info_store ig) (ig_info_end ig).

(** diagnostics that do not fail: [Inv] holds of what is stored in info during a pass along the output points tl *)
Record info_succeeds (ig : integ T V Wd I) (Inv : list T -> I -> Prop) : Prop := {
  is_begin : forall iv inf, Inv (iv_tt iv) (ig_info_begin ig iv inf);
  is_next : forall iv wd x inf, Inv (iv_tt iv) inf -> 1 <= iv_i iv < length (iv_tt iv) ->
      exists inf', ig_info_next ig iv wd x inf = Ok inf' /\ Inv (iv_tt iv) inf';
  is_store : forall tl inf, Inv tl inf -> Inv tl (ig_info_store ig inf);
  is_end : forall iv inf, Inv (iv_tt iv) inf -> exists inf', ig_info_end ig iv inf = Ok inf' }.

(** what a run gives, apart from diagnostics: the state of the world and the values, or the exception *)
Definition outcome {X : Type} (r : res ((Wd * I) * X)) : res (Wd * X) := rmap (fun p => (fst (fst p), snd p)) r.
End S.

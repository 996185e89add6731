(** Specification of simulated values of cir_process. *)
From Coq Require Import String List Arith ZArith Reals.
From Coquelicot Require Import Coquelicot.
From Verif Require Import Base BaseNum BaseArr BaseNd M_paths S_paths S_run M_process M_source S_source M_sde M_presets S_presets M_integrate S_integrate S_euler M_anti S_law S_gval S_tval.
Import ListNotations.
Local Open Scope R_scope.

(** X g i ix is the value at the i-th time of the timeline, of entry ix (component and path), that is computed by a
    cir_process with constant parameters theta, k, xi and initial value x0, from the state g of a generator of normal
    variates with law L; antithetic paths or not; the timeline starts from t0 and lasts T or less, with steps of length h
    or less, and no more than d steps *)
Definition cir_simulation {G : Type} (I : Type) (L : nat -> (G -> R) -> R) (X : G -> nat -> list nat -> R) (w : list nat)
           (x0 theta k xi : arr R) (timeline : list R) (t0 T h : R) (d : nat) : Prop :=
  exists normal mvnormal (anti : bool) c n paths vshape s (gi : bool) args pace_fn fuel (inf : I),
    w = (vshape ++ [paths])%list /\ noise_source L normal mvnormal anti INone INone c n paths vshape s /\
    const_arg args "theta" theta /\ const_arg args "k" k /\ const_arg args "xi" xi /\
    broadcasts (shp x0) w /\ broadcasts (shp theta) w /\ broadcasts (shp k) w /\ broadcasts (shp xi) w /\
    stepped timeline (pace_fn timeline) t0 T h d /\ (List.length timeline + List.length (pace_fn timeline) <= fuel)%nat /\
    forall g, exists s' xx,
      sde_call Rminus (cir_process (I := I) (at_step s) gi vshape paths x0 args) 0 pace_fn fuel (g, inf) [List.length timeline] timeline = Ok (s', xx) /\
      forall i ix, X g i ix = value_at (Ok (s', xx)) i ix.
(** the entry at ix of each array of parameters *)
Definition entry_values (ix : list nat) (x0 theta k xi : arr R) (vx vtheta vk vxi : R) : Prop :=
  bget x0 ix = vx /\ bget theta ix = vtheta /\ bget k ix = vk /\ bget xi ix = vxi.

(** Specification vocabulary for the accuracy of the Euler scheme. *)
From Coq Require Import String List Arith Bool ZArith Reals.
From Verif Require Import Base BaseOrd BaseNum BaseArr M_paths S_paths S_run M_sde S_sde M_presets S_presets S_integrate.
Import ListNotations.
Open Scope R_scope.

(** the points of the timeline and the target steps leave no gap longer than [h] within
    the range of the timeline *)
Definition fine (h : R) (timeline pc : list R) : Prop :=
  forall u v a b, In u timeline -> In v timeline -> u <= a -> b <= v -> a + h < b ->
    exists p, (In p timeline \/ In p pc) /\ a < p < b.

(** [x] and [y] differ by no more than [e], entry by entry *)
Definition within (w : list nat) (e : R) (x y : buf R) : Prop :=
  forall ix, inb w ix -> Rabs (x ix - y ix) <= e.

(** [f t] is Lipschitz with constant [L], entries being compared by the largest difference *)
Definition lipschitz (w : list nat) (L : R) (f : R -> buf R -> buf R) : Prop :=
  forall t x y e, within w e x y -> within w (L * e) (f t x) (f t y).

(** [X] solves X' = f t X + b W' between A and B, W being any path (with or without a derivative):
    X - b W has derivative f t X *)
Definition solves (w : list nat) (A B : R) (f : R -> buf R -> buf R) (b : arr R) (W : R -> list nat -> R)
           (X : R -> buf R) : Prop :=
  forall ix, inb w ix -> forall t, A <= t <= B ->
    derivable_pt_lim (fun s => X s ix - bget b ix * W s ix) t (f t (X t) ix).

(** an equation a dt + b dw, where a has the entries of [f t x] *)
Definition drift_noise (w : list nat) (sde : R -> arr R -> dict (arr R) -> res (sdeval R)) (args : dict (param R R))
           (f : R -> buf R -> buf R) (b : arr R) : Prop :=
  broadcasts (shp b) w /\
  forall t x, exists a,
    sde t (mkArr w x) (map (fun '(k, z) => (k, peval t z)) args) = Ok (RDict [("dt"%string, a); ("dw"%string, b)]) /\
    broadcasts (shp a) w /\ forall ix, inb w ix -> bget a ix = f t x ix.

(** np.linspace(a, b, n), n > 1: n points at equal distances, from a to b *)
Definition equally_spaced (linspace : R -> R -> nat -> list R) : Prop :=
  forall a b n i, (1 < n)%nat -> (i < n)%nat -> nth_error (linspace a b n) i = Some (a + INR i * ((b - a) / INR (n - 1))).

(** *** Expected values, for random initial states of the generator *)
(** the array drawn at the n-th call, starting from the state g, if draws have the shape s *)
Section Draws.
Context {G : Type}.
Variables (normal : list nat -> G -> res (arr R) * G) (s : list nat).
Fixpoint nth_state (n : nat) (g : G) : G := match n with 0%nat => g | S n => snd (normal s (nth_state n g)) end.
Definition nth_draw (n : nat) (g : G) (ix : list nat) : R :=
  match fst (normal s (nth_state n g)) with Ok z => dat z ix | Err _ => 0 end.
(** standard normal variates, as far as first and second moments go, at the first N calls: mean zero, variance one, draws
    at different calls uncorrelated *)
Definition white (N : nat) {Omega} (E : (Omega -> R) -> R) (g : Omega -> G) : Prop :=
  forall ix, inb s ix -> forall n, (n < N)%nat ->
    E (fun o => nth_draw n (g o) ix) = 0 /\
    forall m, (m < N)%nat -> E (fun o => nth_draw n (g o) ix * nth_draw m (g o) ix) = if Nat.eqb n m then 1 else 0.
End Draws.

(** entry ix at the i-th point of the timeline of what a call gives, 0 if there is none *)
Definition value_at {S} (r : res (S * list (option (buf R)))) (i : nat) (ix : list nat) : R :=
  match r with
  | Ok (_, xx) => match nth_error xx i with Some (Some y) => y ix | _ => 0 end
  | Err _ => 0
  end.

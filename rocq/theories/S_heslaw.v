(** Specification of simulated values of the Heston processes. *)
From Coq Require Import String List Arith ZArith Reals Permutation.
From Coquelicot Require Import Coquelicot.
From Verif Require Import Base BaseNum BaseArr BaseNd M_paths S_paths S_run M_process M_source S_source M_sde M_presets S_presets M_integrate S_integrate S_euler M_anti S_rv S_dist S_law S_gval S_tval.
Import ListNotations.
Local Open Scope R_scope.

(** *** generators *)
(** functions of two numbers that are continuous, and grow as exponentials at most *)
Definition moderate2 (V : R -> R -> R) : Prop :=
  (forall p, continuous (fun p : R * R => V (fst p) (snd p)) p) /\
  exists C c, forall x y, Rabs (V x y) <= C * exp (c * (Rabs x + Rabs y)).
(** the mean of V(x, y) is v, x and y being normal variates of mean 0, variance 1 and correlation r: these are
    x = r z + sqrt(1 - r^2) z' and y = z, z and z' being independent *)
Definition pair_mean (r : R) (V : R -> R -> R) (v : R) : Prop :=
  exists W, (forall z, mean_normal (fun z' => V (r*z + sqrt (1 - r*r)*z') z) (W z)) /\ mean_normal W v.
Section Pairs.
Context {G : Type}.
Variable L : nat -> (G -> R) -> R.
(** entries ix and jx of the array drawn are normal variates of correlation r, independent of the state left by the draw:
    if the mean of Phi, for any two values of these entries, is V of them, then the mean of all is that of V *)
Definition pair_law (draw : G -> res (arr R) * G) (ix jx : list nat) (r : R) : Prop :=
  forall d (Phi : R -> R -> G -> R) V v, moderate2 V -> (forall a b, L d (Phi a b) = V a b) -> pair_mean r V v ->
    L (S d) (fun g => match draw g with (Ok a, g') => Phi (dat a ix) (dat a jx) g' | (Err _, _) => 0 end) = v.
(** any two components of the same path *)
Definition normal_pairs (normal : list nat -> G -> res (arr R) * G) (v : list nat) (M n : nat) : Prop :=
  forall q i j p, inb v q -> (i < j < M)%nat -> (p < n)%nat -> pair_law (normal (v ++ [M; n])%list) (q ++ [i; p])%list (q ++ [j; p])%list 0.
Definition mvnormal_pairs (mvnormal : arr R -> list nat -> G -> res (arr R) * G) (M : nat) (c : nat -> nat -> R) (s : list nat) : Prop :=
  forall cov, shp cov = [M; M] -> (forall i j, (i < M)%nat -> (j < M)%nat -> dat cov [i; j] = c i j) ->
  forall q i j, inb s q -> (i < j < M)%nat -> pair_law (mvnormal cov s) (q ++ [i])%list (q ++ [j])%list (c i j).

(** s is the source made for values of shape vshape + (paths,), with the correlations c t that are set by corr and rho, or
    none; antithetic paths or not; n is the number of independent paths *)
Definition pair_source (normal : list nat -> G -> res (arr R) * G) (mvnormal : arr R -> list nat -> G -> res (arr R) * G)
           (anti : bool) (corr rho : input R) (c : R -> nat -> nat -> R) (n paths : nat) (vshape : list nat) (s : src (arr R)) : Prop :=
  is_law L /\ normal_ok normal /\ mvnormal_ok mvnormal /\
  (forall v M, vshape = (v ++ [M])%list ->
     if (match corr, rho with INone, INone => true | _, _ => false end) then normal_pairs normal v M n
     else forall t, mvnormal_pairs mvnormal M (c t) (v ++ [n])) /\
  correlated_at corr rho vshape c /\ paths = (if anti then 2*n else n)%nat /\
  source_dw normal mvnormal (given_dw normal mvnormal anti corr rho) corr rho paths vshape = Ok s.
End Pairs.

(** *** processes *)
(** the shape of the increments: N components of the price and, after them, N of the variance, N being the size of the last
    dimension of vshape, or 1 if there are no dimensions *)
Definition heston_vshape (vshape : list nat) : list nat :=
  match vshape with [] => [2%nat] | _ => (removelast vshape ++ [(2 * last vshape 0)%nat])%list end.
(** the correlation of the two increments of entry ix *)
Definition heston_corr (vshape : list nat) (c : nat -> nat -> R) (ix : list nat) : R :=
  match vshape with
  | [] => c 0%nat 1%nat
  | _ => let i := last (removelast ix) 0%nat in c i (last vshape 0 + i)%nat
  end.
(** prices and variances, as returned *)
Definition heston_values (full : bool) (vshape : list nat) (paths : nat) (xx : list (option (buf R))) (X Y : nat -> list nat -> R) : Prop :=
  forall i y, nth_error xx i = Some (Some y) ->
    if full then exists a b, full_heston_result vshape paths y = Ok (a, b) /\ forall ix, X i ix = dat a ix /\ Y i ix = dat b ix
    else forall ix, X i ix = dat (heston_result vshape paths y) ix.
(** X g i ix and Y g i ix are the price and the variance at the i-th time of the timeline, of entry ix (component and path),
    that are computed by a full_heston_process (if full; the price alone by a heston_process, otherwise) with constant
    parameters and initial values x0, y0, from the state g of a generator of normal variates with law L; r ix is the
    correlation of the increments of price and variance; antithetic paths or not; the timeline starts from t0 and lasts T or less, with
    steps of length h or less, and no more than d steps *)
Definition heston_simulation {G : Type} (full : bool) (L : nat -> (G -> R) -> R) (X Y : G -> nat -> list nat -> R) (w : list nat)
           (x0 y0 mu sigma theta k xi : arr R) (r : list nat -> R) (timeline : list R) (t0 T h : R) (d : nat) : Prop :=
  exists normal mvnormal (anti : bool) corr rho c n paths vshape s (set_order : list string -> list string) (gi : bool) args pace_fn fuel (inf : arr nat),
    w = (vshape ++ [paths])%list /\ pair_source L normal mvnormal anti corr rho c n paths (heston_vshape vshape) s /\
    (forall l, Permutation (set_order l) l) /\ (forall t ix, inb w ix -> r ix = heston_corr vshape (c t) ix) /\
    (const_arg args "mu" mu /\ const_arg args "sigma" sigma /\ const_arg args "theta" theta /\ const_arg args "k" k /\ const_arg args "xi" xi) /\
    (broadcasts (shp x0) w /\ broadcasts (shp y0) w /\ broadcasts (shp mu) w /\ broadcasts (shp sigma) w /\ broadcasts (shp theta) w /\ broadcasts (shp k) w /\ broadcasts (shp xi) w) /\
    stepped timeline (pace_fn timeline) t0 T h d /\ (List.length timeline + List.length (pace_fn timeline) <= fuel)%nat /\
    forall g, exists s' xx,
      sde_call Rminus ((if full then full_heston_process else heston_process) (at_step s) set_order gi vshape paths x0 y0 args) 0 pace_fn fuel (g, inf) [List.length timeline] timeline = Ok (s', xx) /\
      List.length xx = List.length timeline /\ heston_values full vshape paths xx (X g) (Y g).
(** the entry at ix of each array of parameters *)
Definition heston_entry (ix : list nat) (x0 y0 mu sigma theta k xi : arr R) (r : list nat -> R) (vx vy vmu vsigma vtheta vk vxi vr : R) : Prop :=
  bget x0 ix = vx /\ bget y0 ix = vy /\ bget mu ix = vmu /\ bget sigma ix = vsigma /\ bget theta ix = vtheta /\ bget k ix = vk /\ bget xi ix = vxi /\ r ix = vr.

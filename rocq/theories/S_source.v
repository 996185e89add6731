(** Specifications for stochasticity sources without memory. *)
From Coq Require Import List Arith Bool Lia ZArith Reals.
From Verif Require Import Base BaseNum BaseArr BaseNd BaseIdx M_process S_process M_source.
Import ListNotations.

(** [threaded f l g r g']: computing f for the items of l, one after the other, from generator state g, gives results r
    and leaves the generator in state g' *)
Inductive threaded {I B G} (f : I -> G -> res B * G) : list I -> G -> list (I * B) -> G -> Prop :=
| th_nil g : threaded f [] g [] g
| th_cons i l g b g1 r g2 : f i g = (Ok b, g1) -> threaded f l g1 r g2 -> threaded f (i :: l) g ((i, b) :: r) g2.

(** what the generator promises *)
Definition normal_ok {V G} (normal : list nat -> G -> res (arr V) * G) : Prop :=
  forall s g, exists z g', normal s g = (Ok z, g') /\ shp z = s.
Definition mvnormal_ok {V G} (mvnormal : arr V -> list nat -> G -> res (arr V) * G) : Prop :=
  forall M cov s g, shp cov = [M; M] -> exists z g', mvnormal cov s g = (Ok z, g') /\ shp z = s ++ [M].
(** parameters not negative, that broadcast to the requested size; counts are not negative *)
Definition poisson_ok {G} (poisson : arr R -> list nat -> G -> res (arr Z) * G) : Prop :=
  forall L s g,
    (can (shp L) s = true -> (forall ix, inb (shp L) ix -> (0 <= dat L ix)%R) -> exists n g', poisson L s g = (Ok n, g')) /\
    (forall n g', poisson L s g = (Ok n, g') -> shp n = s /\ forall ix, inb s ix -> (0 <= dat n ix)%Z).

(** the matrix a correlation is, with or without a paths axis *)
Definition is_matrix {V} (M : nat) (c : arr V) : Prop := shp c = [M; M] \/ shp c = [M; M; 1].
Definition entry {V} (c : arr V) (i j : nat) : V := match shp c with [_; _; _] => dat c [i; j; 0] | _ => dat c [i; j] end.

(** quadratic form of a matrix of 2n rows *)
Definition qform (n : nat) (c : arr R) (x : nat -> R) : R :=
  fold_right Rplus 0%R (map (fun i => fold_right Rplus 0%R (map (fun j => (x i * dat c [i; j] * x j)%R) (seq 0 n))) (seq 0 n)).
(** a correlation matrix without paths axis *)
Definition plain {V} (c : arr V) : arr V := match shp c with [a; b; _] => mkArr [a; b] (fun ix => dat c (ix ++ [0])) | _ => c end.
(** the middle of the time interval at an entry *)
Definition middle (t dt : arr R) (ix : list nat) : R := (bget t ix + bget dt ix/2)%R.
(** the intensity at a time *)
Definition intensity (lam : param R) (t : R) : res (arr R) :=
  match lam with PNone => Err TypeError | PArr a => Ok a | PFun f _ => f t | PProc p => Ok (interp p None (ascalar t)) end.
(** correlation number i *)
Definition rho_at {V} (rho : arr V) (i : nat) : V :=
  match shp rho with [] => dat rho [] | [_] => dat rho [i] | _ => dat rho [i; 0] end.
(** a number, a vector of n numbers, possibly with a paths axis *)
Definition is_vector {V} (n : nat) (rho : arr V) : Prop := (shp rho = [] /\ n = 1) \/ shp rho = [n] \/ shp rho = [n; 1].
(** what can be known about the shape of a parameter *)
Definition input_shape {V} `{Num V} (z : input V) : option (list nat) :=
  match z with
  | INone => None
  | IArr a => Some (shp a)
  | IFun f => match f none with Ok x => Some (shp x) | Err _ => None end
  | IProc p => Some (vshape p ++ [paths p])
  end.
(** what the rvs method of a distribution promises *)
Definition rvs_ok {V G} (rvs : V -> nat -> nat -> G -> res (arr V) * G) : Prop :=
  forall t m j g y g', rvs t m j g = (Ok y, g') -> shp y = [m; j].

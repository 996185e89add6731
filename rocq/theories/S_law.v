(** Specification of generators of random numbers, by the means of what is drawn, and of processes with independent
    increments. *)
From Coq Require Import List Arith ZArith Reals.
From Coquelicot Require Import Coquelicot.
From Verif Require Import Base BaseNum BaseArr BaseNd M_source M_rv S_rv M_analytical S_pdf S_euler.
Import ListNotations.
Local Open Scope R_scope.

(** product, and sum, over a list *)
Definition cprod {A} (f : A -> C) (l : list A) : C := fold_right Cmult 1%C (map f l).
Definition csum {A} (f : A -> C) (l : list A) : C := fold_right Cplus 0%C (map f l).
(** M gives the means of real functions: those of complex functions *)
Definition complex_mean {A} (M : (A -> R) -> R -> Prop) (f : A -> C) (z : C) : Prop :=
  M (fun x => fst (f x)) (fst z) /\ M (fun x => snd (f x)) (snd z).
(** the mean of f(n) is v, n being a Poisson variate of mean l *)
Definition mean_poisson (l : R) (f : Z -> R) (v : R) : Prop := is_series (fun n => poisson_prob l n * f (Z.of_nat n)) v.

Section Law.
Context {G : Type}.
Definition has_mean (E : (G -> R) -> R) (Phi : G -> C) (z : C) : Prop :=
  E (fun g => fst (Phi g)) = fst z /\ E (fun g => snd (Phi g)) = snd z.
(** [Phi] of what is drawn and of the state of the generator left by the draw *)
Definition after {A} (draw : G -> res A * G) (Phi : A -> G -> C) (g : G) : C :=
  match draw g with (Ok a, g') => Phi a g' | (Err _, _) => 0%C end.

(** [L d] is the mean over the states of a generator from which d more draws may be made. *)
Variable L : nat -> (G -> R) -> R.
(** The array drawn has entries independent of each other, and of the state left by the draw; the values of entries are
    in [sup], and M ix f z says that the mean of f(x) is z, x being the entry at ix: if the mean of Phi, for any array
    drawn, is the product of functions of the entries, then the mean of all is the product of the means. *)
Definition draws_law {A} (draw : G -> res (arr A) * G) (s : list nat) (sup : A -> Prop)
           (M : list nat -> (A -> C) -> C -> Prop) : Prop :=
  forall d Phi F m z,
    (forall a, shp a = s -> (forall ix, inb s ix -> sup (dat a ix)) ->
       has_mean (L d) (Phi a) (cprod (fun ix => F ix (dat a ix)) (ndindex s) * z)%C) ->
    (forall ix, inb s ix -> M ix (F ix) (m ix)) ->
    has_mean (L (S d)) (after draw Phi) (cprod m (ndindex s) * z)%C.

(** means depend on values only, and that of a constant is the constant *)
Definition is_law : Prop :=
  (forall d f h, (forall g, f g = h g) -> L d f = L d h) /\ (forall d c, L d (fun _ => c) = c).
Definition normal_law (normal : list nat -> G -> res (arr R) * G) (s : list nat) : Prop :=
  draws_law (normal s) s (fun _ => True) (fun _ => complex_mean mean_normal).
Definition uniform_law (uniform : list nat -> G -> res (arr R) * G) (s : list nat) : Prop :=
  draws_law (uniform s) s (fun _ => True) (fun _ => complex_mean mean_uniform).
Definition exp_law (expo : list nat -> G -> res (arr R) * G) (s : list nat) : Prop :=
  draws_law (expo s) s (fun _ => True) (fun _ => complex_mean mean_exp).
(** the means are the entries of l *)
Definition poisson_law (poisson : arr R -> list nat -> G -> res (arr Z) * G) (l : arr R) (s : list nat) : Prop :=
  draws_law (poisson l s) s (fun n => (0 <= n)%Z) (fun ix => complex_mean (mean_poisson (bget l ix))).
End Law.


(** *** processes with independent increments *)
(** exponents: exp(t psi(z)) is the mean of exp(z x), x being the increment in a time t; J(z) is the mean of exp(z y), y
    being a jump *)
Definition wiener_exponent (mu sigma : R) (z : C) : C := (RtoC mu * z + RtoC (sigma*sigma/2) * (z * z))%C.
Definition jump_exponent (lam : R) (J : C -> C) (z : C) : C := (RtoC lam * (J z - 1))%C.
(** N+1 values X 0, ..., X N at the times of a timeline, for each entry: the first is x0; increments between subsequent
    times, and those of different entries, are independent; psi gives their law.  Means of exponentials, times
    any constant k, at exponents for which D holds. *)
Definition levy_values {G} (E : (G -> R) -> R) (w : list nat) (psi : list nat -> C -> C) (D : C -> Prop)
           (x0 : list nat -> R) (timeline : list R) (X : G -> nat -> list nat -> R) : Prop :=
  (forall g ix, inb w ix -> X g 0%nat ix = x0 ix) /\
  forall (theta : list nat -> nat -> C) (k : C), (forall ix i, D (theta ix i)) ->
    let steps := seq 0 (length timeline - 1) in
    has_mean E (fun g => k * cexp (csum (fun ix => csum (fun i => theta ix i * RtoC (X g (S i) ix - X g i ix))%C steps) (ndindex w)))%C
      (k * cprod (fun ix => cprod (fun i => cexp (RtoC (nth (S i) timeline 0 - nth i timeline 0) * psi ix (theta ix i))%C) steps) (ndindex w))%C.
(** J of normal jumps, of mean a and standard deviation b *)
Definition normal_jump (a b : R) (z : C) : C := cexp (RtoC a * z + RtoC (b*b/2) * (z * z))%C.
(** J of double exponential jumps: up, with probability pa and mean a, or down, with mean -b; and the exponents at which
    it is finite *)
Definition double_jump (a b pa : R) (z : C) : C := (RtoC pa * / (1 - RtoC a * z) + RtoC (1 - pa) * / (1 + RtoC b * z))%C.
Definition double_domain (a b : R) (z : C) : Prop := a * fst z < 1 /\ - b * fst z < 1.

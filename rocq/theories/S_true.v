(** Specifications for sources with memory. *)
From Coq Require Import List Arith Bool Lia ZArith Reals Sorted.
From Verif Require Import Base BaseNum BaseArr BaseNd BaseIdx M_process S_process M_source S_source S_mc M_true.
Import ListNotations.
Local Open Scope R_scope.

Section Memory.
Context {Z B G : Type}.
Variable getvalue : Z -> arr B.
Variable new_outside : Z -> R -> R -> G -> res (Z * Z) * G.
Variable new_inside : Z -> Z -> R -> R -> R -> G -> res (Z * option Z) * G.
Variable rtol : R.
Variable zs : list nat.

(** what a subclass must respect: the generation of new values leaves the stored ones as they are and keeps shapes; new_inside
    declines to generate if and only if the values at the two sides are the same, according to a relation between
    values that holds only if they are equal, and in that case it does nothing else *)
Record disciplined (same : arr B -> arr B -> Prop) : Prop := {
  dis_outside : forall z t s g z' zn g', new_outside z t s g = (Ok (z', zn), g') -> shp (getvalue z) = zs ->
    getvalue z' = getvalue z /\ shp (getvalue zn) = zs;
  dis_inside : forall z1 z2 t1 t2 s g z1' o g', new_inside z1 z2 t1 t2 s g = (Ok (z1', o), g') ->
    shp (getvalue z1) = zs -> shp (getvalue z2) = zs ->
    getvalue z1' = getvalue z1 /\ match o with Some zn => shp (getvalue zn) = zs | None => same (getvalue z1) (getvalue z2) end;
  dis_same : forall z1 z2 t1 t2 s g, same (getvalue z1) (getvalue z2) -> new_inside z1 z2 t1 t2 s g = (Ok (z1, None), g);
  dis_equal : forall a b, same a b -> shp a = zs -> shp b = zs -> aeq a b }.

Variable sub : B -> B -> B.
Variable d : B.
(** a sequence of evaluations of the source, or of indexed references to it, successful or not; meanwhile the generator
    may be used by others *)
Inductive history : @memory R Z * G -> @memory R Z * G -> Prop :=
| h_nil st : history st st
| h_call t dt st r st1 st2 :
    true_call getvalue new_outside new_inside rtol sub d zs t dt st = (r, st1) -> history st1 st2 -> history st st2
| h_index key t dt st r st1 st2 :
    indexed_call getvalue new_outside new_inside rtol sub d zs key t dt st = (r, st1) -> history st1 st2 -> history st st2
| h_other m g g' st2 : history (m, g') st2 -> history (m, g) st2.
End Memory.

(** within relative tolerance *)
Definition close (rtol s t : R) : Prop := Rabs (s - t) <= rtol * Rabs t.
(** times for which the answer may change: those before all the stored ones, yet within tolerance of the last one *)
Definition fickle {Z} (rtol : R) (m : @memory R Z) (s : R) : Prop :=
  (forall t z, In (t, z) m -> s < t) /\ exists t z, last (map Some m) None = Some (t, z) /\ close rtol s t.
(** sources without such times, whatever is evaluated (the default t0 is 0, and the default rtol much less than 1) *)
Definition calm (rtol t0 : R) : Prop := rtol = 0 \/ (t0 = 0 /\ rtol < 1).
(** increasing times *)
Definition sorted_times {Z} (m : @memory R Z) : Prop := StronglySorted Rlt (map fst m).

(** what rng.binomial promises *)
Definition binomial_ok {G} (binomial : arr Z -> R -> list nat -> G -> res (arr Z) * G) : Prop :=
  forall n p s g k g', binomial n p s g = (Ok k, g') -> shp n = s -> shp k = s /\ forall ix, inb s ix -> (0 <= dat k ix <= dat n ix)%Z.

(** *** Brownian motion *)
(** covariance of a Brownian motion that starts at t0 and goes in both directions *)
Definition brownian_cov (t0 s t : R) : R :=
  if Rle_dec t0 s then if Rle_dec t0 t then Rmin (s - t0) (t - t0) else 0
  else if Rle_dec t0 t then 0 else Rmin (t0 - s) (t0 - t).
(** sum of c_i x_i, i < n *)
Definition lincomb (n : nat) (c x : nat -> R) : R := total (map (fun i => c i * x i) (seq 0 n)).
(** a correlation that does not depend on time: none, or a matrix of size the last dimension of vshape *)
Definition constant_corr (vshape : list nat) (corr : param R) : Prop :=
  corr = PNone \/ exists v M cov, vshape = v ++ [M] /\ corr = PArr cov /\ is_matrix M cov.
(** n draws, one after the other *)
Inductive drawn {A G} (f : G -> res A * G) : nat -> G -> (nat -> A) -> G -> Prop :=
| drawn_0 g x : drawn f 0 g x g
| drawn_S n g x g1 g2 : drawn f n g x g1 -> f g1 = (Ok (x n), g2) -> drawn f (S n) g x g2.
(** evaluations one after the other, whether or not they fail *)
Fixpoint run {A B S} (f : A -> S -> res B * S) (l : list A) (st : S) : list (res B) * S :=
  match l with
  | [] => ([], st)
  | a :: l => let (r, st1) := f a st in let (rs, st2) := run f l st1 in (r :: rs, st2)
  end.
(** arguments t, dt that broadcast *)
Definition well_shaped (c : arr R * option (arr R)) : Prop :=
  match snd c with None => True | Some dt => bshape (shp (fst c)) (shp dt) <> None end.

(** *** counting paths *)
Definition counts_le (zs : list nat) (a b : arr Z) : Prop := forall ix, inb zs ix -> (dat a ix <= dat b ix)%Z.
(** arguments rng.binomial accepts *)
Definition valid_trials (n : arr Z) (p : R) (s : list nat) : Prop := shp n = s /\ 0 < p < 1 /\ forall ix, inb s ix -> (0 <= dat n ix)%Z.
(** it does not fail with valid arguments *)
Definition binomial_total {G} (binomial : arr Z -> R -> list nat -> G -> res (arr Z) * G) : Prop :=
  forall n p s g, valid_trials n p s -> exists k g', binomial n p s g = (Ok k, g').
(** an intensity that can be computed at any time, not negative, that broadcasts to the shape of the source *)
Definition intensity_ok (zs : list nat) (lam : param R) : Prop :=
  forall t, exists L, intensity lam t = Ok L /\ can (shp L) zs = true /\ forall r, inb (shp L) r -> 0 <= dat L r.

(** *** probabilities *)
Definition poisson_pmf (a : R) (k : Z) : R := if (k <? 0)%Z then 0 else exp (- a) * a ^ Z.to_nat k / INR (fact (Z.to_nat k)).
Definition binomial_pmf (n : Z) (p : R) (k : Z) : R :=
  if ((0 <=? k) && (k <=? n))%Z then INR (fact (Z.to_nat n)) / (INR (fact (Z.to_nat k)) * INR (fact (Z.to_nat (n - k)))) * p ^ Z.to_nat k * (1 - p) ^ Z.to_nat (n - k) else 0.
Definition product (l : list R) : R := fold_right Rmult 1 l.
(** [W] is the probability of all that was drawn so far: each entry is drawn with the probability it should have *)
Definition tracks {G} (poisson : arr R -> list nat -> G -> res (arr Z) * G) (binomial : arr Z -> R -> list nat -> G -> res (arr Z) * G) (W : G -> R) : Prop :=
  (forall L s g n g', poisson L s g = (Ok n, g') -> W g' = W g * product (map (fun ix => poisson_pmf (bget L ix) (dat n ix)) (ndindex s))) /\
  (forall L s g e g', poisson L s g = (Err e, g') -> W g' = W g) /\
  (forall N p s g k g', binomial N p s g = (Ok k, g') -> W g' = W g * product (map (fun ix => binomial_pmf (dat N ix) p (dat k ix)) (ndindex s))) /\
  (forall N p s g e g', binomial N p s g = (Err e, g') -> W g' = W g).
(** the probability that a Poisson process of intensity [rate] has the increments of a list of times and counts *)
Fixpoint increments_prob (rate : R) (l : list (R * Z)) : R :=
  match l with
  | (s, n) :: ((t, n') :: _) as r => poisson_pmf (rate * (t - s)) (n' - n) * increments_prob rate r
  | _ => 1
  end.
(** the times and counts of an entry; the probability of the counts of all entries, independent of each other *)
Definition entry_path (m : list (R * arr Z)) (ix : list nat) : list (R * Z) := map (fun p => (fst p, dat (snd p) ix)) m.
Definition memory_prob (zs : list nat) (L : arr R) (m : list (R * arr Z)) : R := product (map (fun ix => increments_prob (bget L ix) (entry_path m ix)) (ndindex zs)).

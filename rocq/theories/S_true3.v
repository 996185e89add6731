(** Specifications for compound Poisson sources with memory. *)
From Coq Require Import List Arith Bool Lia ZArith Reals Sorted.
From Verif Require Import Base BaseNum BaseArr BaseNd BaseIdx M_process M_source M_true S_source S_mc S_true.
Import ListNotations.
Local Open Scope R_scope.

(** [jumps] has the jumps of each entry, in order; these are the arrays it is recorded as: for each number of jumps, in
    increasing order, an array with a row for each entry with that number of jumps *)
Definition with_jumps (zs : list nat) (jumps : list nat -> list R) (i : nat) : list (list nat) := filter (fun r => List.length (jumps r) =? i)%nat (ndindex zs).
Definition recorded (zs : list nat) (jumps : list nat -> list R) (ys : list (arr R)) : Prop :=
  Forall2 (fun i y => shp y = [List.length (with_jumps zs jumps i); i] /\ forall k r, nth_error (with_jumps zs jumps i) k = Some r -> row y [k] = jumps r)
    (filter (fun i => negb (List.length (with_jumps zs jumps i) =? 0)%nat) (seq 1 (list_max (map (fun r => List.length (jumps r)) (ndindex zs))))) ys.
(** values, recorded jumps and counts agree, between any two adjacent times; [J t] has the jumps between t and the next
    stored time.  [count t n]: dn(t) is n; [size x]: x may be the size of a jump *)
Definition accounts (zs : list nat) (count : R -> arr Z -> Prop) (size : R -> Prop) (m : list (R * @cstored R)) (J : R -> list nat -> list R) : Prop :=
  (forall l t1 j1 y1 t2 j2 y2 r, m = l ++ (t1, (j1, y1)) :: (t2, (j2, y2)) :: r ->
    exists ys n1 n2, y1 = Some ys /\ recorded zs (J t1) ys /\ count t1 n1 /\ count t2 n2 /\
      forall e, inb zs e -> dat j2 e = dat j1 e + total (J t1 e) /\ (dat n2 e - dat n1 e)%Z = Z.of_nat (List.length (J t1 e)) /\ List.Forall size (J t1 e)) /\
  (forall l t j y, m = l ++ [(t, (j, y))] -> y = None).
(** jumps between two stored times *)
Definition jumps_between {A} (m : list (R * A)) (J : R -> list nat -> list R) (a b : R) (e : list nat) : list R :=
  flat_map (fun p => if Rle_dec a (fst p) then if Rlt_dec (fst p) b then J (fst p) e else [] else []) m.

Section Histories.
Context {G : Type}.
Variable poisson : arr R -> list nat -> G -> res (arr Z) * G.
Variable binomial : arr Z -> R -> list nat -> G -> res (arr Z) * G.
Variable rvs : R -> nat -> nat -> G -> res (arr R) * G.
Variables (paths : nat) (vshape : list nat) (lam : param R) (dn_rtol rtol : R).
(** the source of counts, dn; the memory of a compound Poisson source includes its memory *)
Definition count_history := history (fun n : arr Z => n) (poisson_outside poisson paths vshape lam) (poisson_inside binomial) dn_rtol (vshape ++ [paths]) Z.sub 0%Z.
Definition count_at (st : list (R * arr Z) * G) (t : R) (n : arr Z) : Prop := true_poisson poisson binomial paths vshape lam dn_rtol (ascalar t) None st = (Ok n, st).
(** evaluations of the source, of indexed references to it, or of its dn, successful or not *)
Inductive chistory : list (R * @cstored R) * (list (R * arr Z) * G) -> list (R * @cstored R) * (list (R * arr Z) * G) -> Prop :=
| ch_nil st : chistory st st
| ch_call t dt st r st1 st2 : true_cpoisson poisson binomial rvs paths vshape lam dn_rtol rtol t dt st = (r, st1) -> chistory st1 st2 -> chistory st st2
| ch_index key t dt st r st1 st2 :
    indexed_call fst (cpoisson_out poisson binomial rvs paths vshape lam dn_rtol) (cpoisson_in poisson binomial paths vshape lam dn_rtol) rtol nsub 0 (vshape ++ [paths]) key t dt st = (r, st1) ->
    chistory st1 st2 -> chistory st st2
| ch_dn m d d' st2 : count_history d d' -> chistory (m, d') st2 -> chistory (m, d) st2.
(** values the distribution of jumps may give *)
Definition drawable (x : R) : Prop := exists tm m j g y g' ix, rvs tm m j g = (Ok y, g') /\ inb (shp y) ix /\ dat y ix = x.
End Histories.
(** the jumps of an entry whose size is not zero; the largest number of jumps of an entry *)
Definition effective (J : list nat -> list R) : list nat -> list R := fun e => filter (fun x => if Req_EM_T x 0 then false else true) (J e).
Definition most (zs : list nat) (J : list nat -> list R) : nat := list_max (map (fun e => List.length (J e)) (ndindex zs)).
(** the jumps up to a time when k have happened, and those after it *)
Definition before (k : list nat -> Z) (J : list nat -> list R) : list nat -> list R := fun e => firstn (Z.to_nat (k e)) (J e).
Definition after (k : list nat -> Z) (J : list nat -> list R) : list nat -> list R := fun e => skipn (Z.to_nat (k e)) (J e).

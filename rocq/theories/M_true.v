(** Model of stochasticity sources with memory, infrastructure.py 2157-2710.

    - The memory, two Python lists of times and values updated together, is one list of pairs.
    - What a subclass stores is in [Z]; its value (getvalue) is an array.  The method new_outside may change the stored value
      it is given (true_cpoisson_source does), so that it returns it along with the new one; the same for new_inside.
    - The generator is an abstract state, as in M_source; a source with memory is a computation whose state is the memory
      and the generator.
    - np.isclose, float conversions and times are over [V], that has no nan or infinity. *)
From Coq Require Import List Arith Bool ZArith.
From Verif Require Import Base BaseNum BaseArr BaseNd BaseIdx M_process M_source.
Import ListNotations.
Local Open Scope res_scope.

Section Memory.
Context {V : Type} {NV : Num V}.

(** *** bisect.bisect_right(t, s), standard library of Python *)
Fixpoint bisect_loop (fuel : nat) (t : list V) (s : V) (lo hi : nat) : nat :=
  match fuel with
  | O => lo
  | S fuel =>
      if lo <? hi then
        let mid := (lo + hi)/2 in
        if nlt s (nth mid t nzero) then bisect_loop fuel t s lo mid else bisect_loop fuel t s (S mid) hi
      else lo
  end.
Definition bisect_right (t : list V) (s : V) : nat := bisect_loop (length t) t s 0 (length t).
(** np.isclose(s, t, rtol=rtol, atol=0.) *)
Definition isclose (rtol s t : V) : bool := negb (nlt (nmul rtol (nabs t)) (nabs (nsub s t))).

(** *** true_source 2182-2330 *)
Context {Z B G : Type}.
Definition memory : Type := list (V * Z).
Variable getvalue : Z -> arr B.
(** new_outside z t s: z as left by the call, and the new value *)
Variable new_outside : Z -> V -> V -> @draws G (Z * Z).
(** new_inside z1 z2 t1 t2 s: z1 as left by the call, and the new value, or None *)
Variable new_inside : Z -> Z -> V -> V -> V -> @draws G (Z * option Z).
Variable rtol : V.

(** f 2278-2296 *)
Definition retrieve1 (s : V) : @draws (memory * G) (arr B) := fun '(m, g) =>
  let k := bisect_right (map fst m) s in
  match nth_error m (if k =? 0 then length m - 1 else k - 1) with
  | None => (Err IndexError, (m, g))
  | Some (tk, zk) =>
      if isclose rtol s tk then (Ok (getvalue zk), (m, g))
      else if k =? length m then
        match new_outside zk tk s g with
        | (Ok (zk', zn), g') => (Ok (getvalue zn), (firstn (k - 1) m ++ [(tk, zk'); (s, zn)], g'))
        | (Err e, g') => (Err e, (m, g'))
        end
      else match nth_error m k with
      | None => (Err IndexError, (m, g))
      | Some (t2, z2) =>
        if k =? 0 then
          match new_outside z2 t2 s g with
          | (Ok (z2', zn), g') => (Ok (getvalue zn), ((s, zn) :: (t2, z2') :: skipn 1 m, g'))
          | (Err e, g') => (Err e, (m, g'))
          end
        else
          match new_inside zk z2 tk t2 s g with
          | (Ok (zk', Some zn), g') => (Ok (getvalue zn), (firstn (k - 1) m ++ (tk, zk') :: (s, zn) :: skipn k m, g'))
          | (Ok (zk', None), g') => (Ok (getvalue z2), (firstn (k - 1) m ++ (tk, zk') :: skipn k m, g'))
          | (Err e, g') => (Err e, (m, g'))
          end
      end
  end.

(** _retrieve_old_or_generate_new 2268-2301; [z] is the shape vshape + (paths,), [d] what np.empty leaves *)
Definition retrieve (d : B) (z : list nat) (s : arr V) : @draws (memory * G) (arr B) :=
  dbind (each (fun i => dbind (retrieve1 (dat s i)) (fun x => dres (broadcast_to x z))) (ndindex (shp s)))
        (fun l => dret (assembled d (shp s) z l)).
(** __call__ 2256-2266 *)
Definition true_call (sub : B -> B -> B) (d : B) (z : list nat) (t : arr V) (dt : option (arr V)) : @draws (memory * G) (arr B) :=
  match dt with
  | None => retrieve d z t
  | Some dt =>
      dbind (dres (broadcast2 t dt)) (fun '(t, dt) =>
      dbind (dres (aop nadd t dt)) (fun s =>
      dbind (retrieve d z s) (fun x =>
      dbind (retrieve d z t) (fun y =>
      dres (aop sub x y)))))
  end.
(** source[vindex](t, dt), 2157-2179: the index (vindex, ..., :) is applied to the array of values, so that
    at least one dimension, the last one, is left to ":" *)
Definition indexed_call (sub : B -> B -> B) (d : B) (z : list nat) (key : list idx) (t : arr V) (dt : option (arr V)) :
  @draws (memory * G) (arr B) :=
  dbind (true_call sub d z t dt) (fun x => dres (if length key <? length (shp x) then index_arr x key else Err IndexError)).
(** __init__ 2226-2239, init 2306-2309: np.full(vshape + (paths,), z0); [stored] is what a subclass keeps for it *)
Definition true_new (stored : arr B -> Z) (z : list nat) (t0 : V) (z0 : arr B) : res memory :=
  x <- broadcast_to z0 z ;; Ok [(t0, stored x)].
(** t 2362-2369, size 2354-2360 *)
Definition stored_times (m : memory) : list V := map fst m.
Definition stored_size (getsize : Z -> nat) (m : memory) : nat := list_sum (map (fun p => getsize (snd p)) m).
End Memory.

Section Subclasses.
Context {V : Type} {NV : Num V} {G : Type}.

(** *** true_wiener_source 2440-2502 *)
Section Wiener.
Variable normal : list nat -> @draws G (arr V).
Variable mvnormal : arr V -> list nat -> @draws G (arr V).
(** np.linalg.inv of a square matrix *)
Variable inv : arr V -> res (arr V).
Variables (paths : nat) (vshape : list nat) (corr : param V) (t0 : V).
Definition nle (x y : V) : bool := negb (nlt y x).
Definition dw (c : param V) (t dt : V) : @draws G (arr V) :=
  wiener_call normal mvnormal paths vshape c (ascalar t) (ascalar dt).
(** [ddo]: sequencing of failures and draws *)
Definition wiener_outside (w : arr V) (t s : V) : @draws G (arr V * arr V) :=
  if (nle t0 t && nlt t s) || (nlt s t && nle t t0) then
    dbind (match param_call corr with
           | Some f => dbind (dres (f (ndiv (nadd t s) ntwo))) (fun c => dret (PArr c))
           | None => dret corr
           end) (fun c =>
    dbind (dw c t (nsub s t)) (fun d =>
    dbind (dres (aop nadd w d)) (fun w' => dret (w, w'))))
  else dfail AssertionError.
(** x @ y, two dimensional arrays *)
Definition matmul (x y : arr V) : res (arr V) :=
  match shp x, shp y with
  | [m; n], [n'; p] =>
      if n =? n' then Ok (mat m p (fun i j => nsum (map (fun k => nmul (dat x [i; k]) (dat y [k; j])) (seq 0 n))))
      else Err ValueError
  | _, _ => Err ValueError
  end.
(** np.linalg.inv takes the last two dimensions as matrices, one for each value of the others; a correlation process
    (shape (M, M, 1)) either fails here or, if M = 1, in np.einsum right after *)
Definition linalg_inv (x : arr V) : res (arr V) :=
  match shp x with
  | [m; n] => if m =? n then inv x else Err LinAlgError
  | [_; m; n] => if m =? n then Err ValueError else Err LinAlgError
  | _ => Err LinAlgError
  end.
(** np.einsum('ij,...jk->...ik', x, y) *)
Definition mult (x y : arr V) : res (arr V) :=
  match shp x, rev (shp y) with
  | [m; n], p :: n' :: r =>
      if n =? n' then
        Ok (mkArr (rev r ++ [m; p]) (fun ix =>
              let q := firstn (length r) ix in
              let i := nth (length r) ix 0 in
              let j := nth (S (length r)) ix 0 in
              nsum (map (fun k => nmul (dat x [i; k]) (dat y (q ++ [k; j]))) (seq 0 n))))
      else Err ValueError
  | _, _ => Err ValueError
  end.
(** _mult(Z, w1) + _mult(Id - Z, w2) + dw(0, 1), with dw.corr as set *)
Definition bridge_sum (Zm M1 : arr V) (w1 w2 : arr V) (C : arr V) : @draws G (arr V) :=
  dbind (dres (mult Zm w1)) (fun x =>
  dbind (dres (mult M1 w2)) (fun y =>
  dbind (dres (aop nadd x y)) (fun xy =>
  dbind (dw (PArr C) nzero none) (fun d => dres (aop nadd xy d))))).
Definition wiener_bridge (w1 w2 : arr V) (t1 t2 s : V) : @draws G (arr V) :=
  if (nle t0 t1 && nlt t1 s && nlt s t2) || (nlt t2 s && nlt s t1 && nle t1 t0) then
    let a := nsub s t1 in
    let b := nsub t2 s in
    match param_call corr with
    | Some f =>
        dbind (dres (f (ndiv (nadd t1 s) ntwo))) (fun ca =>
        dbind (dres (f (ndiv (nadd s t2) ntwo))) (fun cb =>
        let A := amap (fun x => nmul x a) ca in
        let B := amap (fun x => nmul x b) cb in
        dbind (dres (aop nadd A B)) (fun AB =>
        dbind (dres (linalg_inv AB)) (fun I =>
        dbind (dres (matmul B I)) (fun Zm =>
        dbind (dres (matmul Zm A)) (fun C =>
        dbind (dres (aop nsub (eye (nth 0 (shp A) 0)) Zm)) (fun M1 =>
        bridge_sum Zm M1 w1 w2 (amap (zmul (nsign a)) C))))))))
    | None =>
        let z := ndiv b (nadd a b) in
        dbind (dw corr nzero (nmul z a)) (fun d =>
        dbind (dres (aop nadd (amap (nmul z) w1) (amap (nmul (nsub none z)) w2))) (fun w =>
        dres (aop nadd w d)))
    end
  else dfail AssertionError.
Definition wiener_inside (w1 w2 : arr V) (t1 t2 s : V) : @draws G (arr V * option (arr V)) :=
  dbind (if nle t2 t0 then wiener_bridge w2 w1 t2 t1 s else wiener_bridge w1 w2 t1 t2 s)
        (fun w => dret (w1, Some w)).
End Wiener.

(** *** true_poisson_source 2536-2558 *)
Section Poisson.
Variable poisson : arr V -> list nat -> @draws G (arr Z).
(** rng.binomial(n, p, size) *)
Variable binomial : arr Z -> V -> list nat -> @draws G (arr Z).
Variables (paths : nat) (vshape : list nat) (lam : param V).
Definition poisson_outside (n : arr Z) (t s : V) : @draws G (arr Z * arr Z) :=
  dbind (poisson_call poisson paths vshape lam (ascalar t) (ascalar (nsub s t))) (fun d =>
  dbind (dres (aop Z.add n d)) (fun n' => dret (n, n'))).
(** (a == b).all() *)
Definition all_equal {B} (eqb : B -> B -> bool) (a b : arr B) : res bool :=
  e <- aop eqb a b ;; Ok (forallb (fun x => x) (ravel e)).
Definition poisson_inside (n1 n2 : arr Z) (t1 t2 s : V) : @draws G (arr Z * option (arr Z)) :=
  dbind (dres (all_equal Z.eqb n1 n2)) (fun eq =>
  if eq then dret (n1, None)
  else
    let p := ndiv (nsub s t1) (nsub t2 t1) in
    dbind (dres (aop Z.sub n2 n1)) (fun n =>
    dbind (binomial n p (shp n)) (fun k =>
    dbind (dres (aop Z.add n1 k)) (fun n' => dret (n1, Some n'))))).
End Poisson.
End Subclasses.

(** *** true_cpoisson_source 2598-2710 *)
Section Cpoisson.
Context {V : Type} {NV : Num V} {G : Type}.
(** values stored: j, and the jumps up to the next time *)
Definition cstored : Type := (arr V * option (list (arr V)))%type.
(** the counts dn(t) and dn(t, dt), and the jumps *)
Variable dn : V -> @draws G (arr Z).
Variable dnn : arr V -> arr V -> @draws G (arr Z).
Variable rvs : V -> nat -> nat -> @draws G (arr V).
Variables (paths : nat) (vshape : list nat).
Definition veqb (x y : V) : bool := negb (nlt x y) && negb (nlt y x).

(** the entries where dn_value == i, in order *)
Definition entries_with (n : arr Z) (i : nat) : list (list nat) :=
  filter (fun ix => (dat n ix =? Z.of_nat i)%Z) (ndindex (shp n)).
Definition counts_present (n : arr Z) (nmax : nat) : list nat :=
  filter (fun i => existsb (fun ix => (dat n ix =? Z.of_nat i)%Z) (ndindex (shp n))) (seq 1 nmax).
Definition last_size (y : arr V) : nat := last (shp y) 0.
(** the maximum of counts; empty arrays and negative sizes raise *)
Definition count_max (n : arr Z) : res nat :=
  m <- zmax (ravel n) ;; if (m <? 0)%Z then Err ValueError else Ok (Z.to_nat m).
(** _decode_y 2629-2642: yy[index, :i] = y for each y (assignment requires shape (number of entries, i)) *)
Definition decode_y (n : arr Z) (ys : list (arr V)) : res (arr V) :=
  nmax <- count_max n ;;
  if forallb (fun y => if list_eq_dec Nat.eq_dec (shp y) [length (entries_with n (last_size y)); last_size y] then true else false) ys
  then
    if list_eq_dec Nat.eq_dec (map last_size ys) (counts_present n nmax)
    then Ok (mkArr (shp n ++ [nmax]) (fun ix =>
               let r := removelast ix in
               let j := last ix 0 in
               match find (fun y => (dat n r =? Z.of_nat (last_size y))%Z) (rev ys) with
               | Some y => if j <? last_size y
                           then match position r (entries_with n (last_size y)) with Some k => dat y [k; j] | None => nzero end
                           else nzero
               | None => nzero
               end))
    else Err AssertionError
  else Err ValueError.
(** (yy != 0).sum(axis=-1) at r *)
Definition nonzeros (yy : arr V) (r : list nat) : nat :=
  length (filter (fun j => negb (veqb (dat yy (r ++ [j])) nzero)) (seq 0 (last (shp yy) 0))).
(** _encode_y 2644-2656 *)
Definition encode_y (n : arr Z) (yy : arr V) : res (list (arr V)) :=
  nmax <- count_max n ;;
  if nmax =? list_max (map (nonzeros yy) (ndindex (removelast (shp yy)))) then
    if forallb (fun i =>
         forallb (fun r => forallb (fun j => veqb (dat yy (r ++ [j])) nzero) (seq i (last (shp yy) 0 - i))) (entries_with n i))
         (counts_present n nmax)
    then Ok (map (fun i => let e := entries_with n i in
                           mkArr [length e; i] (fun ix => dat yy (nth (nth 0 ix 0) e [] ++ [nth 1 ix 0])))
                 (counts_present n nmax))
    else Err AssertionError
  else Err AssertionError.
(** new_outside 2658-2666 *)
Definition cpoisson_outside (z : cstored) (t s : V) : @draws G (cstored * cstored) :=
  dbind (cpoisson_call dnn rvs paths vshape (ascalar t) (ascalar (nsub s t))) (fun '(dj, _, y_new) =>
  dbind (dres (aop nadd (fst z) dj)) (fun j =>
  if nlt t s then dret ((fst z, Some y_new), (j, None)) else dret (z, (j, Some y_new)))).
(** new_inside 2668-2702.  The loop on i in range(dn_s_t1.max() + 1) sets, for the entries r where dn_s_t1 == i,
    yy1_updated[r, i:] = 0 and yy_new[r, :nmax - i] = yy1[r, i:] *)
Definition split_first (k : arr Z) (yy : arr V) : arr V :=
  mkArr (shp yy) (fun ix => if (dat k (removelast ix) <? 0)%Z then dat yy ix
                            else if last ix 0 <? Z.to_nat (dat k (removelast ix)) then dat yy ix else nzero).
Definition split_second (k : arr Z) (nmax : nat) (yy : arr V) : arr V :=
  mkArr (shp yy) (fun ix => if (dat k (removelast ix) <? 0)%Z then nzero
                            else let i := Z.to_nat (dat k (removelast ix)) in
                                 if last ix 0 <? nmax - i then dat yy (removelast ix ++ [last ix 0 + i]) else nzero).
Definition cpoisson_inside (z1 z2 : cstored) (t1 t2 s : V) : @draws G (cstored * option cstored) :=
  dbind (dres (all_equal veqb (fst z1) (fst z2))) (fun eq =>
  if eq then dret (z1, None)
  else
    dbind (dn t1) (fun n1 =>
    dbind (dn s) (fun ns =>
    dbind (dn t2) (fun n2 =>
    dbind (dres (aop Z.sub n2 n1)) (fun n21 =>
    dbind (dres (aop Z.sub ns n1)) (fun ns1 =>
    dbind (dres (aop Z.sub n2 ns)) (fun n2s =>
    dbind (dres (count_max n21)) (fun nmax =>
    dbind (match snd z1 with Some y1 => dres (decode_y n21 y1) | None => dfail TypeError end) (fun yy1 =>
    let yy1' := split_first ns1 yy1 in
    let yyn := split_second ns1 nmax yy1 in
    dbind (dres (encode_y ns1 yy1')) (fun y1' =>
    dbind (dres (encode_y n2s yyn)) (fun yn =>
    dbind (dres (aop nadd (fst z1) (mkArr (removelast (shp yy1)) (fun r => nsum (row yy1' r))))) (fun j =>
    dret ((fst z1, Some y1'), Some (j, Some yn)))))))))))))).
(** getsize 2706-2709 *)
Definition cgetsize (z : cstored) : nat :=
  size (shp (fst z)) + match snd z with None => 0 | Some ys => list_sum (map (fun y => size (shp y)) ys) end.
End Cpoisson.

(** *** the sources, from their parts *)
Section Sources.
Context {V : Type} {NV : Num V} {G : Type}.
Variable normal : list nat -> @draws G (arr V).
Variable mvnormal : arr V -> list nat -> @draws G (arr V).
Variable inv : arr V -> res (arr V).
Variable poisson : arr V -> list nat -> @draws G (arr Z).
Variable binomial : arr Z -> V -> list nat -> @draws G (arr Z).
Variable rvs : V -> nat -> nat -> @draws G (arr V).
Variables (paths : nat) (vshape : list nat).
Let zs := vshape ++ [paths].
Definition true_wiener (corr : param V) (t0 rtol : V) :=
  true_call (fun w : arr V => w) (wiener_outside normal mvnormal paths vshape corr t0) (wiener_inside normal mvnormal inv paths vshape corr t0)
            rtol nsub nzero zs.
Definition true_poisson (lam : param V) (rtol : V) :=
  true_call (fun n : arr Z => n) (poisson_outside poisson paths vshape lam) (poisson_inside binomial) rtol Z.sub 0%Z zs.
(** the underlying counts are part of the state *)
Definition with_memory {M A} (m : @draws G A) : @draws (M * G) A := fun '(mem, g) => let '(r, g') := m g in (r, (mem, g')).
Definition cpoisson_out (lam : param V) (dn_rtol : V) :=
  cpoisson_outside (fun t dt => true_poisson lam dn_rtol t (Some dt)) (fun t m j => with_memory (rvs t m j)) paths vshape.
Definition cpoisson_in (lam : param V) (dn_rtol : V) := cpoisson_inside (fun t => true_poisson lam dn_rtol (ascalar t) None).
Definition true_cpoisson (lam : param V) (dn_rtol rtol : V) :=
  true_call (fun z : cstored => fst z) (cpoisson_out lam dn_rtol) (cpoisson_in lam dn_rtol) rtol nsub nzero zs.
End Sources.

(** C18: the size of the memory of a source. *)
From Coq Require Import List Arith Bool Lia ZArith Reals Lra Sorted.
From Verif Require Import Base BaseNum BaseArr BaseNd BaseIdx M_process M_source M_true S_process S_source S_mc S_true L_nd L_true P_true.
Import ListNotations.
Local Open Scope R_scope.

Lemma sizes_sum {A} (f : A -> nat) k l : List.Forall (fun x => f x = k) l -> list_sum (map f l) = (length l * k)%nat.
Proof. induction 1 as [|x l E H IH]; cbn; [reflexivity|]. unfold list_sum in IH. rewrite E, IH. reflexivity. Qed.

(** a source that counts the entries of the values it keeps has, at any time, size equal to the number of stored times
    by the number of entries of a value: values are stored once per time, in full *)
Theorem C18_size {Z B G} getvalue new_outside new_inside rtol zs sub (d : B) same stored t0 z0 (m0 : list (R * Z)) (g0 : G) m g (getsize : Z -> nat) :
  disciplined getvalue new_outside new_inside zs same -> 0 <= rtol -> (forall x, getvalue (stored x) = x) -> true_new stored zs t0 z0 = Ok m0 ->
  history getvalue new_outside new_inside rtol zs sub d (m0, g0) (m, g) -> (forall z, getsize z = size (shp (getvalue z))) ->
  stored_size getsize m = (length (stored_times m) * size zs)%nat /\ (size zs <= stored_size getsize m)%nat.
Proof.
  intros Dis HR St Start H HS. destruct (hist_state getvalue new_outside new_inside rtol zs sub d same Dis HR stored St t0 z0 m0 g0 Start m g H) as [(NE & _ & F) _].
  assert (E : stored_size getsize m = (length (stored_times m) * size zs)%nat).
  { unfold stored_size, stored_times. rewrite map_length. apply sizes_sum. eapply List.Forall_impl; [|exact F]. intros p Hp. cbv beta in *. rewrite HS, Hp. reflexivity. }
  split; [exact E|]. rewrite E. unfold stored_times. rewrite map_length. destruct m; [congruence|]. cbn [length]. lia.
Qed.
Lemma ndindex_size s : length (ndindex s) = size s.
Proof.
  induction s as [|d s IH]; [reflexivity|]. cbn [ndindex size fold_right]. fold (size s). rewrite <- IH.
  assert (L : forall b, length (flat_map (fun i => map (cons i) (ndindex s)) (seq b d)) = (d * length (ndindex s))%nat); [|apply L].
  induction d as [|d IHd]; intro b; [reflexivity|]. cbn [seq flat_map]. rewrite app_length, map_length, IHd. reflexivity.
Qed.
(** compound Poisson sources count the numbers they keep: values, and all jumps *)
Theorem C18_compound_size (z : @cstored R) :
  cgetsize z = length (ravel (fst z) ++ match snd z with None => [] | Some ys => flat_map ravel ys end).
Proof.
  assert (A : forall x : arr R, length (ravel x) = size (shp x)) by (intro x; unfold ravel; rewrite map_length; apply ndindex_size).
  unfold cgetsize. rewrite app_length, A. f_equal. destruct (snd z) as [ys|]; [|reflexivity]. induction ys as [|y ys IH]; cbn [map flat_map]; [reflexivity|].
  rewrite app_length, A, <- IH. reflexivity.
Qed.

(** three stored times, values of shape (2,); a value of shape (2,) with arrays of 1 and of 2 jumps *)
Example C18_ex_size :
  stored_size (fun x : arr R => size (shp x)) (map (fun t => (t, mkArr [2%nat] (fun _ => t))) [0; 1; 2]) = 6%nat /\
  cgetsize (mkArr [2%nat] (fun _ => 0), Some [mkArr [1%nat; 1%nat] (fun _ => 1); mkArr [1%nat; 2%nat] (fun _ => 1)]) = 5%nat.
Proof. split; reflexivity. Qed.

Print Assumptions C18_size.
Print Assumptions C18_compound_size.

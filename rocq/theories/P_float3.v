(** Means cumulated with double precision numbers: C85. *)
From Coq Require Import String List Arith Bool ZArith Reals Lra Lia Permutation.
From Flocq Require Import IEEE754.BinarySingleNaN Core.
From Verif Require Import Base BaseNum BaseArr BaseNd BaseFloat M_float M_mc S_mc S_float S_float3 L_nd L_mc L_float L_float6.
Import ListNotations.
Local Open Scope R_scope.

(** The mean cumulated by any sequence of updates, sample by sample, is finite, and differs from the average of all
    values by at most (2 B + 12 k + 4) u P, for k samples of at most B values not larger than P. *)
Theorem C85_mean fexp flog auto_bins bins range v l n a :
  let NV := Num_float64 fexp flog in
  l <> [] -> batches v l -> mc_updates auto_bins 0 (mc_new bins range "all") l = ((n, a), Ok tt) ->
  exists mean, mc_mean a = Some mean /\ shp mean = v /\ forall ix, inb v ix -> n = length (all_values l ix) /\
    forall B P, values_up_to l ix B P -> INR n <= bpow radix2 52 -> (2 * INR B + 12 * INR (length l) + 4) * uu <= 1 ->
      is_finite (dat mean ix) = true /\
      Rabs (B2R (dat mean ix) - average (map B2R (all_values l ix))) <= mean_bound B (length l) P.
Proof.
  intros NV NE HB H.
  assert (I0 : has_means v 0 (mc_new bins range "all") (fun _ => (0%nat, nzero))) by (split; [reflexivity|]; split; intros; reflexivity).
  destruct (updates_mean auto_bins v l 0 _ n a _ HB I0 H) as ((_ & HN & HM) & H0 & _). specialize (H0 NE).
  destruct n as [|n']; [lia|]. set (n := S n') in *. destruct HM as (mean & EM & SM & DM). exists mean. split; [exact EM|]. split; [exact SM|].
  intros ix Hix. specialize (DM ix Hix). specialize (HN ix Hix). cbv beta in DM, HN.
  assert (EV : all_values l ix = concat (map (fun x => values x ix) l)) by (unfold all_values; apply flat_map_concat_map).
  assert (LEN : forall bs s, fst (fold_left cum_mean bs s) = (fst s + length (concat bs))%nat).
  { induction bs as [|b bs IH]; intro s; cbn [fold_left concat length]; [lia|]. rewrite IH, app_length. unfold cum_mean. cbn [fst]. lia. }
  split; [rewrite EV, <- HN, LEN; reflexivity|].
  intros B P (HL & HV & HP) HI HK.
  destruct (cum_accuracy fexp flog P B HP (length l) HK (map (fun x => values x ix) l) 0 f_zero [] 0) as (_ & A1 & A2).
  - rewrite map_length. lia.
  - intros b Hb. apply in_map_iff in Hb as (x & <- & Hx). unfold batches in HB. rewrite List.Forall_forall in HB. destruct (HB x Hx) as (m & Bm & Pm).
    pose proof (HL x Hx). rewrite (values_length v m x ix Bm) in *. split; [lia|]. intros z Hz. apply HV. unfold all_values. apply in_flat_map. eauto.
  - intros z [].
  - reflexivity.
  - reflexivity.
  - change (B2R f_zero) with 0. unfold average, total. simpl. unfold Rdiv. rewrite Rmult_0_l, Rminus_0_r, Rabs_R0.
    pose proof (P_pos P HP). pose proof uu_pos. pose proof (pos_INR B). apply Rmult_le_pos; [|lra]. apply Rmult_le_pos; lra.
  - exact (eq_rect_r (fun k => INR k <= _) HI HN).
  - rewrite map_length in A2. rewrite EV. unfold mean_bound. rewrite DM. split; [exact A1|exact A2].
Qed.

(** without histograms, updates with such samples are accepted *)
Theorem C85_accepted fexp flog auto_bins range v l : let NV := Num_float64 fexp flog in
  batches v l -> exists n a, mc_updates auto_bins 0 (mc_new BNone range "all") l = ((n, a), Ok tt).
Proof. intros NV HB. apply (updates_accepted auto_bins v l HB); auto. Qed.

Lemma total_perm l1 l2 : Permutation l1 l2 -> total l1 = total l2.
Proof. unfold total. induction 1; simpl; lra. Qed.
Lemma average_perm l1 l2 : Permutation l1 l2 -> average l1 = average l2.
Proof. intro H. unfold average. rewrite (total_perm _ _ H), (Permutation_length H). reflexivity. Qed.

(** Hence the means of the same values, in other samples or in other order, with samples along other axes or other
    settings of the histogram, differ at most by the sum of the bounds. *)
Theorem C85_grouping fexp flog auto1 auto2 bins1 bins2 range1 range2 v l1 l2 n1 n2 a1 a2 mean1 mean2 ix B1 B2 P :
  let NV := Num_float64 fexp flog in
  l1 <> [] -> l2 <> [] -> batches v l1 -> batches v l2 ->
  mc_updates auto1 0 (mc_new bins1 range1 "all") l1 = ((n1, a1), Ok tt) -> mc_updates auto2 0 (mc_new bins2 range2 "all") l2 = ((n2, a2), Ok tt) ->
  mc_mean a1 = Some mean1 -> mc_mean a2 = Some mean2 -> inb v ix -> Permutation (all_values l1 ix) (all_values l2 ix) ->
  values_up_to l1 ix B1 P -> values_up_to l2 ix B2 P -> INR n1 <= bpow radix2 52 ->
  (2 * INR B1 + 12 * INR (length l1) + 4) * uu <= 1 -> (2 * INR B2 + 12 * INR (length l2) + 4) * uu <= 1 ->
  n1 = n2 /\ Rabs (B2R (dat mean1 ix) - B2R (dat mean2 ix)) <= mean_bound B1 (length l1) P + mean_bound B2 (length l2) P.
Proof.
  intros NV N1 N2 HB1 HB2 H1 H2 E1 E2 Hix HP V1 V2 HN K1 K2.
  destruct (C85_mean fexp flog auto1 bins1 range1 v l1 n1 a1 N1 HB1 H1) as (m1 & F1 & _ & G1). rewrite E1 in F1. injection F1 as <-.
  destruct (C85_mean fexp flog auto2 bins2 range2 v l2 n2 a2 N2 HB2 H2) as (m2 & F2 & _ & G2). rewrite E2 in F2. injection F2 as <-.
  destruct (G1 ix Hix) as (L1 & A1). destruct (G2 ix Hix) as (L2 & A2). pose proof (Permutation_length HP) as HL.
  assert (EN : n1 = n2) by congruence. split; [exact EN|]. rewrite EN in HN.
  destruct (A1 B1 P V1 ltac:(rewrite EN; exact HN) K1) as [_ D1]. destruct (A2 B2 P V2 HN K2) as [_ D2].
  rewrite (average_perm _ _ (Permutation_map B2R HP)) in D1. set (c := average (map B2R (all_values l2 ix))) in *.
  replace (B2R (dat mean1 ix) - B2R (dat mean2 ix)) with ((B2R (dat mean1 ix) - c) + (c - B2R (dat mean2 ix))) by ring.
  eapply Rle_trans; [apply Rabs_triang|]. rewrite (Rabs_minus_sym c). lra.
Qed.

(** *** 0.1, 0.2, 0.3 at once, then 0.3, 0.2, 0.1 one by one; 0.1, 0.2, 0.6, 0.4 at once, and with 0.4 by itself *)
Definition tenths (k : Z) : float64 := f_div (f_int k) (f_int 10).
Definition vec (l : list float64) : arr float64 * Z := (mkArr [length l] (fun ix => nth (nth 0 ix 0%nat) l f_zero), 0%Z).
Definition no_auto (s : string) (l : list float64) (r : option (float64 * float64)) : res nat := Err ValueError.
Definition ex_updates (l : list (list Z)) :=
  mc_updates (NV := Num_float64 (fun x => x) (fun x => x)) no_auto 0 (mc_new BNone None "all") (map (fun b => vec (map tenths b)) l).
Definition ex_mean (l : list (list Z)) : nat * option SpecFloat.spec_float :=
  match ex_updates l with
  | ((n, a), Ok _) => (n, match mc_mean a with Some m => Some (B2SF (dat m [])) | None => None end)
  | _ => (0%nat, None)
  end.
Example C85_ex_runs : map ex_mean [[[1; 2; 3]]; [[3]; [2]; [1]]; [[1; 2; 6; 4]]; [[1; 2; 6]; [4]]]%Z =
  map (fun '(n, m, e) => (n, Some (SpecFloat.S754_finite false m e)))
    [(3%nat, 7205759403792795%positive, (-55)%Z); (3%nat, 7205759403792793%positive, (-55)%Z);
     (4%nat, 5854679515581645%positive, (-54)%Z); (4%nat, 5854679515581644%positive, (-54)%Z)].
Proof. vm_compute. reflexivity. Qed.
(** updates with the same values, differently grouped, do not give the same mean *)
Theorem C85_exact_refuted : ~ (forall l1 l2, concat l1 = concat l2 -> ex_mean l1 = ex_mean l2).
Proof. intro H. specialize (H [[1; 2; 6; 4]] [[1; 2; 6]; [4]] eq_refl)%Z. vm_compute in H. discriminate H. Qed.

Lemma tenth_of m e k : B2SF (tenths k) = SpecFloat.S754_finite false m e -> is_finite (tenths k) = true /\ B2R (tenths k) = IZR (Zpos m) * bpow radix2 e.
Proof. intro E. split; [rewrite <- is_finite_SF_B2SF, E; reflexivity|]. rewrite <- SF2R_B2SF, E. reflexivity. Qed.
(** the bound for the second run *)
Example C85_ex_bound : exists a mean, ex_updates [[3]; [2]; [1]]%Z = ((3%nat, a), Ok tt) /\ mc_mean a = Some mean /\ is_finite (dat mean []) = true /\
  Rabs (B2R (dat mean []) - (B2R (tenths 3) + B2R (tenths 2) + B2R (tenths 1)) / 3) <= 42 * uu.
Proof.
  set (l := map (fun b => vec (map tenths b)) [[3]; [2]; [1]]%Z).
  assert (HB : batches [] l). { repeat constructor; exists 1%nat; (split; [exists 0%nat; split; [reflexivity|split; reflexivity]|lia]). }
  assert (E : exists a, ex_updates [[3]; [2]; [1]]%Z = ((3%nat, a), Ok tt)) by (eexists; reflexivity). destruct E as (a & E).
  destruct (C85_mean _ _ no_auto BNone None [] l 3 a ltac:(discriminate) HB E) as (mean & EM & _ & G).
  destruct (G [] ltac:(constructor)) as (_ & D). exists a, mean. split; [exact E|]. split; [exact EM|].
  assert (EV : all_values l [] = [tenths 3; tenths 2; tenths 1]) by reflexivity.
  destruct (tenth_of 5404319552844595 (-54) 3 ltac:(vm_compute; reflexivity)) as [F3 V3].
  destruct (tenth_of 7205759403792794 (-55) 2 ltac:(vm_compute; reflexivity)) as [F2 V2].
  destruct (tenth_of 7205759403792794 (-56) 1 ltac:(vm_compute; reflexivity)) as [F1 V1].
  assert (U : uu <= /1024) by apply uu_small. assert (U0 := uu_pos).
  destruct (D 1%nat 1) as [D1 D2].
  - split; [intros x [<-|[<-|[<-|[]]]]; cbn; lia|]. split.
    + rewrite EV. intros z [<-|[<-|[<-|[]]]]; (split; [assumption|]); [rewrite V3|rewrite V2|rewrite V1]; cbn; rewrite Rabs_pos_eq by lra; lra.
    + change 1 with (bpow radix2 0). split; apply bpow_le; lia.
  - cbn. lra.
  - cbn. lra.
  - split; [exact D1|]. rewrite EV in D2. unfold mean_bound, average, total in D2. cbn [map fold_right length l] in D2.
    replace (INR 3) with 3 in D2 by (cbn; lra). replace (INR 1) with 1 in D2 by (cbn; lra).
    replace (B2R (tenths 3) + B2R (tenths 2) + B2R (tenths 1)) with (B2R (tenths 3) + (B2R (tenths 2) + (B2R (tenths 1) + 0))) by ring. eapply Rle_trans; [exact D2|]. lra.
Qed.

Print Assumptions C85_mean.
Print Assumptions C85_accepted.
Print Assumptions C85_grouping.
Print Assumptions C85_exact_refuted.

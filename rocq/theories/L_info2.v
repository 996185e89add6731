(** Lemmas on diagnostics: what is accumulated step by step; the diagnostics of the Heston and jump diffusion processes do not fail. *)
From Coq Require Import String List Arith Bool ZArith Lia Sorting.Sorted.
From Verif Require Import Base BaseOrd BaseNum BaseArr M_paths S_paths S_run L_ord L_paths L_paths8
  M_sde S_sde S_sdes L_sde L_sde2 L_sde3 L_sde4 L_pack L_sim M_presets S_presets L_presets L_sdes2 L_presets5 S_info L_info.
Import ListNotations.

Section Acc.
Context {T : Type} {TO : TOrd T} {TL : TOrdLaws T} {V : Type} {NV : Num V} {Wd I : Type}.
Variable tsub : T -> T -> V.
Variable ig : integ T V Wd I.
Hypothesis ON : ig_getinfo ig = true.
(** [R c a]: info c stores a, changed as [g] tells at each step made from a value x *)
Context {A : Type}.
Variables (R : I -> A -> Prop) (g : buf V -> A -> A) (a0 : A).
Hypothesis HB : forall iv inf, R (ig_info_begin ig iv inf) a0.
Hypothesis HN : forall iv wd x c c' a, ig_info_next ig iv wd x c = Ok c' -> R c a -> R c' (g x a).
Hypothesis HS : forall c a, R c a -> R (ig_info_store ig c) a.
Hypothesis HE : forall iv c c' a, ig_info_end ig iv c = Ok c' -> R c a -> R c' a.
Notation cb := (sde_cb tsub ig).
Definition folded (a : A) (l : list (T * buf V * Wd)) : A := fold_left (fun a e => g (snd (fst e)) a) (removelast l) a.

Lemma folded_cons a e l : l <> [] -> folded a (e :: l) = folded (g (snd (fst e)) a) l.
Proof. intro NE. unfold folded. destruct l; [congruence|]. reflexivity. Qed.
Lemma chain_ne wd t x todo wd' l : chain (next_step tsub ig) wd t x todo wd' l -> l <> [].
Proof. destruct 1; discriminate. Qed.
Lemma steps_folded rv tl grid todo : forall i wd c a t x wd' c' ys, R c a ->
  ref_steps cb rv tl grid i (wd, c) t x todo = Ok ((wd', c'), ys) ->
  exists l, chain (next_step tsub ig) wd t x todo wd' l /\ R c' (folded a l).
Proof using ON HN HS.
  induction todo as [|t' todo IH]; intros i wd c a t x wd' c' ys RC H; cbn [ref_steps] in H.
  - injection H as <- <- <-. exists [(t, x, wd)]. split; [constructor|exact RC].
  - destruct (cb_next cb _ _ _ _ _) as [[[[wd1 j1] tt] x1]|] eqn:E1; [|discriminate].
    cbn [cb_next sde_cb] in E1. unfold sde_next in E1. cbn [fst snd] in E1. rewrite ON in E1.
    destruct (euler_next tsub ig wd t t' x) as [[wd1' x1']|] eqn:EN; cbn [rbind] in E1; [|discriminate].
    destruct (ig_info_next ig _ _ _ _) as [j1'|] eqn:EI; cbn [rbind] in E1; [|discriminate].
    injection E1 as <- <- <- <-. assert (R1 := HN _ _ _ _ _ _ EI RC).
    destruct (memT t' tl).
    + destruct (cb_store cb _ _ _ _ _) as [[[wd2 j2] y]|] eqn:E2; [|discriminate].
      cbn [cb_store sde_cb] in E2. unfold sde_store in E2. cbn [fst snd] in E2. rewrite ON in E2.
      destruct (ig_let ig t' x1') as [y'|] eqn:EL; cbn [rbind] in E2; [|discriminate]. injection E2 as <- <- <-.
      destruct (ref_steps cb rv tl grid (S i) _ t' x1' todo) as [[[wd3 j3] ys3]|] eqn:ER; [|discriminate]. injection H as <- <- <-.
      destruct (IH _ _ _ _ _ _ _ _ _ (HS _ _ R1) ER) as (l & C & F). exists ((t, x, wd) :: l). split; [econstructor; eauto; exact EN|].
      rewrite folded_cons by (eapply chain_ne; eauto). exact F.
    + destruct (IH _ _ _ _ _ _ _ _ _ R1 H) as (l & C & F). exists ((t, x, wd) :: l). split; [econstructor; eauto; exact EN|].
      rewrite folded_cons by (eapply chain_ne; eauto). exact F.
Qed.
Lemma pass_folded rv tl grid wd c wd' c' ys : ref_pass cb rv tl grid (wd, c) = Ok ((wd', c'), ys) ->
  exists t todo x l, grid = t :: todo /\ ig_init ig t = Ok x /\ chain (next_step tsub ig) wd t (logi ig x) todo wd' l /\ R c' (folded a0 l).
Proof using ON HB HN HS HE.
  intro H. unfold ref_pass in H. destruct grid as [|t todo]; [discriminate|].
  destruct (cb_begin cb _ _ _) as [[[wd1 inf1] xw]|] eqn:EB; [|discriminate].
  cbn [cb_begin sde_cb] in EB. unfold sde_begin in EB. cbn [iv_steps iv_tt] in EB.
  destruct tl as [|t1 tl']; [discriminate|].
  destruct (teqb t t && teqb t t1) eqn:EA; [|discriminate].
  destruct (ig_init ig t) as [x|] eqn:EI; cbn [rbind] in EB; [|discriminate]. rewrite ON in EB. injection EB as <- <- <-.
  destruct (cb_store cb _ _ _ _ _) as [[[wd2 inf2] y]|] eqn:E2; [|discriminate].
  cbn [cb_store sde_cb] in E2. unfold sde_store in E2. cbn [fst snd] in E2. rewrite ON in E2.
  destruct (ig_let ig t _) as [y'|] eqn:EL; cbn [rbind] in E2; [|discriminate]. injection E2 as <- <- <-.
  destruct (ref_steps cb rv _ _ _ _ _ _ _) as [[[wd3 j3] ys3]|] eqn:ER; [|discriminate].
  destruct (cb_end cb _ _) as [[wd4 j4]|] eqn:EE; [|discriminate].
  cbn [cb_end sde_cb] in EE. unfold sde_end in EE. cbn [fst snd] in EE. rewrite ON in EE.
  destruct (ig_info_end ig _ j3) as [j5|] eqn:EF; cbn [rbind] in EE; [|discriminate].
  injection EE as <- <-. injection H as <- <- <-.
  destruct (steps_folded _ _ _ _ _ _ _ _ _ _ _ _ _ (HS _ _ (HB _ _)) ER) as (l & C & F). exists t, todo, x, l. split; auto. split; auto. split; [exact C|].
  exact (HE _ _ _ _ EF F).
Qed.
Theorem run_folded i0 pace_fn fuel wd inf (timeline : list T) p0 t0 wd' c' xx :
  valid_timeline timeline -> start_index (length timeline) i0 p0 -> nth_error timeline p0 = Some t0 ->
  length timeline + length (pace_fn timeline) <= fuel ->
  sde_call tsub ig i0 pace_fn fuel (wd, inf) [length timeline] timeline = Ok ((wd', c'), xx) ->
  exists rv grid wd1 t todo x l,
    (rv = false <-> goes_forth (length timeline) i0) /\ (~ (goes_back i0 /\ goes_forth (length timeline) i0) -> wd1 = wd) /\
    grid_spec rv timeline (pace_fn timeline) t0 grid /\ grid = t :: todo /\ ig_init ig t = Ok x /\
    chain (next_step tsub ig) wd1 t (logi ig x) todo wd' l /\ R c' (folded a0 l).
Proof using TL ON HB HN HS HE.
  intros V0 SI N0 HF H. rewrite (sde_call_ref _ _ _ _ _ _ _ p0 t0) in H by auto.
  destruct (call_refines_grid cb i0 (ig_getinfo ig) pace_fn fuel (wd, inf) timeline p0 t0 _ _ eq_refl eq_refl
    (sde_nonadaptive _ _) (sde_begin_fills _ _) V0 SI N0 HF) as (GB & GF & _ & _).
  set (gb := run_grid true timeline (pace_fn timeline) t0) in *.
  set (gf := run_grid false timeline (pace_fn timeline) t0) in *.
  unfold ref_run in H.
  assert (EBK : forall b, b = negb (i0 =? 0)%Z -> if b then goes_back i0 else ~ goes_back i0).
  { intros b ->. unfold goes_back. destruct (Z.eqb_spec i0 0); simpl; lia. }
  assert (EFO : forall b, b = ((i0 =? 0) || negb ((i0 =? -1) || (i0 =? Z.of_nat (length timeline) - 1)))%Z ->
     if b then goes_forth (length timeline) i0 else ~ goes_forth (length timeline) i0).
  { intros b ->. unfold goes_forth.
    destruct (Z.eqb_spec i0 0), (Z.eqb_spec i0 (-1)), (Z.eqb_spec i0 (Z.of_nat (length timeline) - 1)); simpl; lia. }
  specialize (EBK _ eq_refl). specialize (EFO _ eq_refl).
  set (bk := negb (i0 =? 0)%Z) in *.
  set (fo := ((i0 =? 0) || negb ((i0 =? -1) || (i0 =? Z.of_nat (length timeline) - 1)))%Z) in *.
  destruct (if bk then _ else _) as [[[wd1 inf1] yb]|] eqn:EB in H; [|discriminate].
  destruct (if fo then _ else _) as [[[wd2 inf2] yf]|] eqn:EF in H; [|discriminate].
  simpl in H. injection H as <- <- <-. destruct fo.
  - destruct (pass_folded false (skipn p0 timeline) gf wd1 inf1 wd2 inf2 yf EF) as (t & todo & x & l & E1 & E2 & E3 & E4).
    exists false, gf, wd1, t, todo, x, l. split; [tauto|]. split; [|auto].
    intro HN'. destruct bk; [tauto|]. injection EB as <- _ _. reflexivity.
  - injection EF as -> -> <-. destruct bk.
    + destruct (pass_folded true (rev (firstn (p0 + 1) timeline)) gb wd inf wd2 inf2 yb EB) as (t & todo & x & l & E1 & E2 & E3 & E4).
      exists true, gb, wd, t, todo, x, l. split; [split; [discriminate|tauto]|]. split; auto.
    + exfalso. unfold goes_forth, goes_back in *. lia.
Qed.
End Acc.

Section Presets.
Context {T : Type} {TO : TOrd T} {TL : TOrdLaws T} {V : Type} {NV : Num V} {Wd : Type}.

(** *** Heston *)
Section Heston.
Variables (vshape : list nat) (paths : nat).
Let addaxis := force_addaxis false vshape.
Let w := sdes_wshape 2 addaxis vshape ++ [paths].
Let vp := vshape ++ [paths].
Lemma heston_next_eq (iv : itervars T) (wd : Wd) (x : buf V) c : shp c = vp -> exists c', heston_info_next addaxis vshape w iv wd x c = Ok c' /\ shp c' = vp.
Proof.
  intro SC. unfold heston_info_next. destruct (unpack_ok addaxis vshape paths (packable_force false vshape) 2 (mkArr w x) eq_refl) as (ys & E & L & H).
  fold addaxis in E. rewrite E. cbn [rbind]. destruct ys as [|a [|b [|? ?]]]; try discriminate L.
  destruct (H 1 b eq_refl) as [SB _]. rewrite SB, SC. unfold vp. rewrite can_refl. eexists. split; [reflexivity|]. reflexivity.
Qed.
Lemma heston_next_get (iv : itervars T) (wd : Wd) (x : buf V) c c' ix : heston_info_next addaxis vshape w iv wd x c = Ok c' -> inb vp ix ->
  dat c' ix = dat c ix + if nlt (x (comp addaxis vshape 1 ix)) nzero then 1 else 0.
Proof.
  intros H HI. unfold heston_info_next in H. destruct (unpack_ok addaxis vshape paths (packable_force false vshape) 2 (mkArr w x) eq_refl) as (ys & E & L & HY).
  fold addaxis in E. rewrite E in H. cbn [rbind] in H. destruct ys as [|a [|b [|? ?]]]; try discriminate L.
  destruct (HY 1 b eq_refl) as [SB DB]. destruct (can _ _); [|discriminate]. injection H as <-. cbn [dat].
  rewrite (bget_self b ix) by (rewrite SB; exact HI). rewrite DB by exact HI. reflexivity.
Qed.
Lemma heston_info dw set_order gi (x0 y0 : arr V) (args : dict (param T V)) :
  info_succeeds (heston_process (Wd := Wd) dw set_order gi vshape paths x0 y0 args) (fun _ c => shp c = vp).
Proof.
  split; cbn [heston_process ig_info_begin ig_info_next ig_info_store ig_info_end]; auto.
  - intros. apply heston_next_eq; auto.
  - eauto.
Qed.
Lemma full_heston_info dw set_order gi (x0 y0 : arr V) (args : dict (param T V)) :
  info_succeeds (full_heston_process (Wd := Wd) dw set_order gi vshape paths x0 y0 args) (fun _ c => shp c = vp).
Proof.
  split; cbn [full_heston_process ig_info_begin ig_info_next ig_info_store ig_info_end]; auto.
  - intros. apply heston_next_eq; auto.
  - eauto.
Qed.
End Heston.

(** *** jump diffusions *)
Lemma jumpdiff_info tsub (dw dj : Wd -> T -> V -> res (Wd * arr V)) dn gi vshape paths (x0 : arr V) (args : dict (param T V)) :
  (forall wd n, dn wd = Some n -> can (shp n) (vshape ++ [paths]) = true) ->
  info_succeeds (jumpdiff_process tsub dw dj dn gi vshape paths x0 args) (fun tl j => length (jump_rate j) = length tl).
Proof.
  intro HD. split; cbn [jumpdiff_process ig_info_begin ig_info_next ig_info_store ig_info_end]; auto.
  - intros iv inf. unfold jd_info_begin. cbn [jump_rate]. apply map_length.
  - intros iv wd x inf L Hi. unfold jd_info_next. destruct (dn wd) as [n|] eqn:E; [|eauto].
    destruct (nth_error (iv_tt iv) (iv_i iv)) eqn:E1; [|apply nth_error_None in E1; lia].
    destruct (nth_error (iv_tt iv) (iv_i iv - 1)) eqn:E2; [|apply nth_error_None in E2; lia].
    destruct (nth_error (jump_rate inf) (iv_i iv - 1)) eqn:E3; [|apply nth_error_None in E3; lia].
    rewrite (HD _ _ E). eexists. split; [reflexivity|]. cbn [jump_rate]. rewrite upd_length. exact L.
  - intros iv inf L. unfold jd_info_end. destruct (Nat.ltb_spec 1 (length (iv_tt iv))) as [H|H]; [|eauto].
    destruct (nth_error (jump_rate inf) (length (jump_rate inf) - 2)) eqn:E; [eauto|]. apply nth_error_None in E. lia.
Qed.
(** *** classes that log nothing *)
Lemma no_info {I} (ig : integ T V Wd I) : ig_info_begin ig = no_info_begin -> ig_info_next ig = no_info_next -> ig_info_store ig = no_info_store -> ig_info_end ig = no_info_end ->
  info_succeeds ig (fun _ _ => True).
Proof. intros E1 E2 E3 E4. split; rewrite ?E1, ?E2, ?E3, ?E4; auto; intros; unfold no_info_next, no_info_end; eauto. Qed.
End Presets.

(** Linear differential equations on t > 0. *)
From Coq Require Import Reals Lra.
From Coquelicot Require Import Coquelicot.
Local Open Scope R_scope.

Lemma null_derive_const f : (forall t, 0 < t -> is_derive f t 0) -> forall s t, 0 < s -> s < t -> f s = f t.
Proof.
  intros H s t Hs Ht. destruct (MVT_gen f s t (fun _ => 0)) as (c & _ & E).
  - intros x. rewrite Rmin_left, Rmax_right by lra. intro Hx. apply H. lra.
  - intros x. rewrite Rmin_left, Rmax_right by lra. intro Hx. apply continuity_pt_filterlim.
    apply (ex_derive_continuous f). exists 0. apply H. lra.
  - lra.
Qed.

Lemma at_right_const_eq (f : R -> R) l t : 0 < t -> (forall s, 0 < s < t -> f s = f t) ->
  filterlim f (at_right 0) (locally l) -> f t = l.
Proof.
  intros Ht H L. apply (filterlim_locally_unique (F := at_right 0) (fun _ => f t)).
  - apply filterlim_const.
  - apply (filterlim_ext_loc f); auto. exists (mkposreal t Ht). intros s Hs H0. apply H.
    unfold ball in Hs; simpl in Hs; unfold AbsRing_ball, abs, minus, plus, opp in Hs; simpl in Hs.
    rewrite Ropp_0, Rplus_0_r, Rabs_pos_eq in Hs by lra. lra.
Qed.
Lemma filterlim_at_right (f : R -> R) x : continuous f x -> filterlim f (at_right x) (locally (f x)).
Proof.
  intro H. eapply filterlim_filter_le_1; [|exact H]. intros P HP. unfold at_right, within.
  eapply filter_imp; [|exact HP]. auto.
Qed.

Lemma ode_unique c h f g l :
  (forall t, 0 < t -> is_derive f t (c * f t + h t)) -> filterlim f (at_right 0) (locally l) ->
  (forall t, 0 < t -> is_derive g t (c * g t + h t)) -> filterlim g (at_right 0) (locally l) ->
  forall t, 0 < t -> f t = g t.
Proof.
  intros Df Lf Dg Lg t Ht. set (w := fun s => exp (- c * s) * (f s - g s)).
  assert (Dw : forall s, 0 < s -> is_derive w s 0).
  { intros s Hs. unfold w. pose proof (Df s Hs) as D1. pose proof (Dg s Hs) as D2.
    assert (E : is_derive (fun s => exp (- c * s)) s (- c * exp (- c * s))) by (auto_derive; auto; ring).
    evar_last. { apply (is_derive_mult _ _ _ _ _ E (is_derive_minus _ _ _ _ _ D1 D2)). intros; apply Rmult_comm. }
    unfold plus, mult, minus, plus, opp; simpl. ring. }
  assert (Lw : filterlim w (at_right 0) (locally 0)).
  { replace 0 with (1 * (l - l)) at 2 by ring. unfold w.
    eapply (filterlim_comp_2 (G := locally 1) (H := locally (l - l)) (fun s => exp (- c * s)) (fun s => f s - g s) Rmult).
    - replace 1 with (exp (- c * 0)) by (rewrite Rmult_0_r; apply exp_0).
      apply (filterlim_at_right (fun s => exp (- c * s))). apply (ex_derive_continuous (fun s => exp (- c * s))). auto_derive. auto.
    - apply (filterlim_comp_2 (G := locally l) (H := locally (- l)) f (fun s => - g s) Rplus); auto.
      + apply (filterlim_comp _ _ _ g Ropp _ (locally l)); [exact Lg|]. apply (filterlim_opp l).
      + apply (filterlim_plus l (- l)).
    - apply (filterlim_mult 1 (l - l)). }
  assert (E : w t = 0).
  { apply at_right_const_eq; auto. intros s Hs. apply null_derive_const; auto; lra. }
  unfold w in E. pose proof (exp_pos (- c * t)). apply Rmult_integral in E. lra.
Qed.

(** with the solution given in closed form, continuous at 0 *)
Lemma ode_solution c h f F :
  (forall t, 0 < t -> is_derive f t (c * f t + h t)) -> filterlim f (at_right 0) (locally (F 0)) ->
  (forall t, is_derive F t (c * F t + h t)) -> forall t, 0 < t -> f t = F t.
Proof.
  intros Df Lf DF t Ht. apply (ode_unique c h f F (F 0)); auto.
  apply filterlim_at_right. apply (ex_derive_continuous F). eexists. apply DF.
Qed.

Lemma filterlim_sub_sq (f g : R -> R) a b : filterlim f (at_right 0) (locally a) -> filterlim g (at_right 0) (locally b) ->
  filterlim (fun s => f s - g s ^2) (at_right 0) (locally (a - b^2)).
Proof.
  intros H1 H2. apply (filterlim_comp_2 (G := locally a) (H := locally (- b^2)) f (fun s => - g s ^2) Rplus); auto.
  - apply (filterlim_comp _ _ _ g (fun x => - x^2) _ (locally b)); [exact H2|].
    apply (ex_derive_continuous (fun x => - x^2)). auto_derive. auto.
  - apply (filterlim_plus a (- b^2)).
Qed.
Lemma nonneg_increasing f df : (forall t, is_derive f t (df t)) -> (forall t, 0 <= df t) -> f 0 = 0 ->
  forall t, 0 <= t -> 0 <= f t.
Proof.
  intros D P Z t Ht. destruct (Req_dec t 0) as [->|N]; [lra|].
  destruct (MVT_gen f 0 t df) as (c & _ & E).
  - intros; apply D.
  - intros. apply continuity_pt_filterlim, (ex_derive_continuous f). eexists; apply D.
  - assert (0 <= df c * (t - 0)) by (apply Rmult_le_pos; [apply P|lra]). lra.
Qed.

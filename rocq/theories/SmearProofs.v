(** * Radial consolidation: assembling profiles from pieces, and antiderivatives. *)
From Coq Require Import Reals List Lra Lia.
From Coquelicot Require Import Coquelicot.
From Verif Require Import Base SpecSmear.
Import ListNotations.
Local Open Scope R_scope.

Definition ww (n x : R) : R := (n^2 - x^2)^2 / (n^2 * x).

(** What a profile [F] over [a,b] with relative resistance [kp] = 1/k contributes. *)
Record good (n : R) (bs : list R) (kp F : R -> R) (a b m : R) : Prop := {
  g_cont : continuous_on (fun x => a <= x <= b) F;
  g_der : forall x, a < x < b -> ~ In x bs -> is_derive F x (kp x * (1 / x - x / n^2));
  g_mu : is_RInt (fun x => kp x * ww n x) a b m;
  g_mean : is_RInt (fun x => 2 * x * F x) a b
             ((b^2 - n^2) * F b - (a^2 - n^2) * F a + m)
}.

Lemma is_RInt_val (f : R -> R) a b (u v : R) : is_RInt f a b u -> u = v -> is_RInt f a b v.
Proof. intros H <-; exact H. Qed.

Lemma cont_on_glue (F : R -> R) a b c :
  a <= b <= c ->
  continuous_on (fun x => a <= x <= b) F -> continuous_on (fun x => b <= x <= c) F ->
  continuous_on (fun x => a <= x <= c) F.
Proof.
  intros Hab H1 H2 x Hx.
  apply filterlim_locally => eps.
  assert (L : a <= x <= b -> within (fun y => a <= y <= b) (locally x)
                 (fun y => ball (F x) eps (F y))).
  { intros Hi. exact (proj1 (filterlim_locally _ _) (H1 x Hi) eps). }
  assert (Rr : b <= x <= c -> within (fun y => b <= y <= c) (locally x)
                 (fun y => ball (F x) eps (F y))).
  { intros Hi. exact (proj1 (filterlim_locally _ _) (H2 x Hi) eps). }
  unfold within in *.
  destruct (Rtotal_order x b) as [Hb|[Hb|Hb]].
  - destruct (L ltac:(lra)) as [d1 Hd1].
    assert (Hp : 0 < Rmin d1 (b - x)).
    { apply Rmin_pos; [apply d1|lra]. }
    exists (mkposreal _ Hp). intros y Hy Hy2. apply Hd1; auto.
    + eapply ball_le; [|exact Hy]. apply Rmin_l.
    + assert (Rabs (y - x) < b - x).
      { eapply Rlt_le_trans; [exact Hy|]. cbn. apply Rmin_r. }
      apply Rabs_def2 in H. lra.
  - destruct (L ltac:(lra)) as [d1 Hd1]. destruct (Rr ltac:(lra)) as [d2 Hd2].
    assert (Hp : 0 < Rmin d1 d2).
    { apply Rmin_pos; [apply d1|apply d2]. }
    exists (mkposreal _ Hp). intros y Hy Hy2.
    destruct (Rle_dec y b).
    + apply Hd1; [|lra]. eapply ball_le; [|exact Hy]. apply Rmin_l.
    + apply Hd2; [|lra]. eapply ball_le; [|exact Hy]. apply Rmin_r.
  - destruct (Rr ltac:(lra)) as [d1 Hd1].
    assert (Hp : 0 < Rmin d1 (x - b)).
    { apply Rmin_pos; [apply d1|lra]. }
    exists (mkposreal _ Hp). intros y Hy Hy2. apply Hd1; auto.
    + eapply ball_le; [|exact Hy]. apply Rmin_l.
    + assert (Rabs (y - x) < x - b).
      { eapply Rlt_le_trans; [exact Hy|]. cbn. apply Rmin_r. }
      apply Rabs_def2 in H. lra.
Qed.

Lemma good_glue n bs kp F a b c m1 m2 :
  a <= b <= c -> (In b bs \/ a = b \/ b = c) ->
  good n bs kp F a b m1 -> good n bs kp F b c m2 -> good n bs kp F a c (m1 + m2).
Proof.
  intros Hab Hb [C1 D1 M1 A1] [C2 D2 M2 A2]. split.
  - eapply cont_on_glue; eauto.
  - intros x Hx Hn. destruct (Rtotal_order x b) as [H|[H|H]].
    + apply D1; [lra|auto].
    + destruct Hb as [Hb|Hb]; [subst; contradiction|].
      destruct Hb; subst; [lra|lra].
    + apply D2; [lra|auto].
  - apply (is_RInt_Chasles (V := R_NormedModule)) with b; auto.
  - eapply is_RInt_val.
    + apply (is_RInt_Chasles (V := R_NormedModule)) with b; eauto.
    + unfold plus; cbn. ring.
Qed.

Lemma good_point n bs kp F a : good n bs kp F a a 0.
Proof.
  split.
  - intros x Hx. apply filterlim_locally => eps. exists (mkposreal 1 Rlt_0_1).
    intros y _ Hy. replace y with x by lra. apply ball_center.
  - intros; lra.
  - apply (is_RInt_point (V := R_NormedModule)).
  - eapply is_RInt_val; [apply (is_RInt_point (V := R_NormedModule))|].
    unfold zero; cbn. ring.
Qed.

Lemma good_piece n bs kp F (kp0 phi L : R -> R) a b :
  0 < a -> a < b -> n <> 0 ->
  (forall x, a <= x <= b -> F x = phi x) ->
  (forall x, a < x < b -> kp x = kp0 x) ->
  (forall x, a <= x <= b -> continuous kp0 x) ->
  (forall x, a <= x <= b -> is_derive phi x (kp0 x * (1 / x - x / n^2))) ->
  (forall x, a <= x <= b -> is_derive L x (kp0 x * ww n x)) ->
  good n bs kp F a b (L b - L a).
Proof.
  intros Ha Hab Hn HF Hk Ck Hphi HL.
  assert (CW : forall x, a <= x <= b -> continuous (fun x => kp0 x * ww n x) x).
  { intros x Hx. apply (continuous_mult kp0 (ww n)); [apply Ck; auto|].
    unfold ww. apply (ex_derive_continuous (fun x => (n ^ 2 - x ^ 2) ^ 2 / (n ^ 2 * x))).
    auto_derive. repeat split; auto. apply Rmult_integral_contrapositive; split.
    - rewrite Rmult_1_r. apply Rmult_integral_contrapositive; split; auto. 
    - lra. }
  assert (IW : is_RInt (fun x => kp0 x * ww n x) a b (L b - L a)).
  { apply (is_RInt_derive L (fun x => kp0 x * ww n x)).
    - intros x Hx. rewrite Rmin_left, Rmax_right in Hx by lra. apply HL; lra.
    - intros x Hx. rewrite Rmin_left, Rmax_right in Hx by lra. apply CW; lra. }
  split.
  - intros x Hx. rewrite (HF x Hx).
    apply filterlim_ext_loc with phi.
    + unfold within. exists (mkposreal 1 Rlt_0_1). intros y _ Hy. symmetry; auto.
    + eapply filterlim_filter_le_1; [apply filter_le_within|].
      apply (ex_derive_continuous phi). eexists; apply Hphi; auto.
  - intros x Hx _. rewrite (Hk x Hx).
    apply is_derive_ext_loc with phi.
    + assert (Hp : 0 < Rmin (x - a) (b - x)) by (apply Rmin_pos; lra).
      exists (mkposreal _ Hp). intros y Hy.
      assert (H1 : Rabs (y - x) < x - a).
      { eapply Rlt_le_trans; [exact Hy|]. cbn. apply Rmin_l. }
      assert (H2 : Rabs (y - x) < b - x).
      { eapply Rlt_le_trans; [exact Hy|]. cbn. apply Rmin_r. }
      apply Rabs_def2 in H1, H2. symmetry; apply HF; lra.
    + apply Hphi; lra.
  - apply (is_RInt_ext (V := R_NormedModule)) with (fun x => kp0 x * ww n x); auto.
    intros x Hx. rewrite Rmin_left, Rmax_right in Hx by lra. rewrite Hk; auto.
  - apply (is_RInt_ext (V := R_NormedModule)) with (fun x => 2 * x * phi x).
    { intros x Hx. rewrite Rmin_left, Rmax_right in Hx by lra. rewrite HF; auto; lra. }
    rewrite !HF by lra.
    assert (D : is_RInt (fun x => 2 * x * phi x
                   + (x^2 - n^2) * (kp0 x * (1 / x - x / n^2))) a b
                 (minus ((fun x => (x^2 - n^2) * phi x) b) ((fun x => (x^2 - n^2) * phi x) a))).
    { apply (is_RInt_derive (fun x => (x^2 - n^2) * phi x)).
      - intros x Hx. rewrite Rmin_left, Rmax_right in Hx by lra.
        apply (is_derive_mult (fun x => x^2 - n^2) phi x (2 * x) _).
        + auto_derive; auto; ring.
        + apply Hphi; lra.
        + intros; apply Rmult_comm.
      - intros x Hx. rewrite Rmin_left, Rmax_right in Hx by lra.
        apply (continuous_plus (V := R_NormedModule)
                 (fun x => 2 * x * phi x) (fun x => (x^2 - n^2) * (kp0 x * (1 / x - x / n^2)))).
        + apply (continuous_mult (fun x => 2 * x) phi).
          * apply (ex_derive_continuous (fun x => 2 * x)). auto_derive; auto.
          * apply (ex_derive_continuous phi). eexists; apply Hphi; lra.
        + apply (continuous_mult (fun x => x^2 - n^2) (fun x => kp0 x * (1 / x - x / n^2))).
          * apply (ex_derive_continuous (fun x => x^2 - n^2)). auto_derive; auto.
          * apply (continuous_mult kp0 (fun x => 1 / x - x / n^2)); [apply Ck; lra|].
            apply (ex_derive_continuous (fun x => 1 / x - x / n^2)). auto_derive. lra. }
    pose proof (is_RInt_plus (V := R_NormedModule) _ _ _ _ _ _ D IW) as P.
    eapply is_RInt_val.
    + eapply is_RInt_ext; [|exact P].
      intros x Hx. rewrite Rmin_left, Rmax_right in Hx by lra.
      unfold plus; cbn -[pow]. unfold ww. field. split; [lra|auto].
    + unfold plus, minus, opp; cbn -[pow]. unfold Rminus. ring.
Qed.

(** From a good profile to the two specifications. *)
Lemma good_mu n bs k F m mu :
  good n bs (fun x => / k x) F 1 n m -> m = mu * (n^2 - 1) -> is_mu n k mu.
Proof.
  intros [_ _ M _] E. unfold is_mu. eapply is_RInt_val; [exact M|exact E].
Qed.

Lemma good_profile n bs k F mu uavg uw muw u :
  1 < n ->
  good n bs (fun x => / k x) F 1 n (mu * (n^2 - 1)) ->
  F 1 = 0 -> mu + muw <> 0 ->
  (forall x, u x = (uavg - uw) / (mu + muw) * (F x + muw) + uw) ->
  drain_profile n k bs uavg uw muw u.
Proof.
  intros Hn [C D M A] F1 Hm Hu. set (c := (uavg - uw) / (mu + muw)) in *.
  split.
  - intros x Hx. rewrite Hu.
    apply filterlim_ext with (fun x => c * (F x + muw) + uw); [intros; symmetry; apply Hu|].
    apply (filterlim_comp_2 (G := locally (c * (F x + muw))) (H := locally uw)).
    + apply (filterlim_comp _ _ _ F (fun y => c * (y + muw)) _ (locally (F x))).
      * apply C; auto.
      * apply (ex_derive_continuous (fun y => c * (y + muw)) (F x)). auto_derive; auto.
    + apply filterlim_const.
    + apply (filterlim_plus (V := R_NormedModule)).
  - exists c. split.
    + rewrite Hu, F1. ring.
    + intros x Hx Hb. apply is_derive_ext with (fun x => c * (F x + muw) + uw).
      { intros; symmetry; apply Hu. }
      evar_last.
      { apply (is_derive_plus (V := R_NormedModule) (fun x => c * (F x + muw)) (fun _ => uw)).
        - apply (is_derive_scal (fun x => F x + muw)).
          apply (is_derive_plus (V := R_NormedModule) F (fun _ => muw)).
          + apply D; auto.
          + apply (is_derive_const (V := R_NormedModule)).
        - apply (is_derive_const (V := R_NormedModule)). }
      unfold plus, zero; cbn -[pow]. ring.
  - assert (I2 : is_RInt (fun x => 2 * x * (c * muw + uw)) 1 n ((c * muw + uw) * (n^2 - 1))).
    { eapply is_RInt_val.
      - apply (is_RInt_derive (fun x => x^2 * (c * muw + uw)) (fun x => 2 * x * (c * muw + uw))).
        + intros x _. auto_derive; auto. ring.
        + intros x _. apply (ex_derive_continuous (fun x => 2 * x * (c * muw + uw))).
          auto_derive; auto.
      - unfold minus, plus, opp; cbn -[pow]. ring. }
    pose proof (is_RInt_scal (V := R_NormedModule) _ _ _ c _ A) as A2.
    pose proof (is_RInt_plus (V := R_NormedModule) _ _ _ _ _ _ A2 I2) as P.
    eapply is_RInt_val.
    + eapply is_RInt_ext; [|exact P]. intros x _.
      unfold plus, scal; cbn -[pow]; unfold mult; cbn -[pow]. rewrite Hu. ring.
    + unfold plus, scal; cbn -[pow]; unfold mult; cbn -[pow]. rewrite F1.
      unfold c. field. exact Hm.
Qed.

(** mu is positive. *)
Lemma ww_pos n x : 0 < n -> 0 < x -> 0 <= ww n x.
Proof.
  intros. unfold ww. apply Rle_mult_inv_pos; [apply pow2_ge_0|].
  apply Rmult_lt_0_compat; [apply pow_lt; auto|auto].
Qed.

Lemma is_mu_pos n k mu :
  1 < n -> (forall x, 1 < x < n -> 0 < k x) -> is_mu n k mu -> 0 <= mu.
Proof.
  intros Hn Hk H. unfold is_mu in H.
  assert (0 <= mu * (n^2 - 1)).
  { apply (is_RInt_ge_0 (fun x => / k x * ((n^2 - x^2)^2 / (n^2 * x))) 1 n _).
    - lra.
    - exact H.
    - intros x Hx. apply Rmult_le_pos.
      + left. apply Rinv_0_lt_compat, Hk; auto.
      + apply ww_pos; lra. }
  assert (0 < n^2 - 1) by nra.
  destruct (Rle_dec 0 mu); auto. exfalso.
  assert (mu * (n^2 - 1) < 0) by nra. lra.
Qed.

Lemma is_mu_unique n k m1 m2 : 1 < n -> is_mu n k m1 -> is_mu n k m2 -> m1 = m2.
Proof.
  intros Hn H1 H2. unfold is_mu in *.
  assert (m1 * (n^2 - 1) = m2 * (n^2 - 1)).
  { rewrite <- (is_RInt_unique (V := R_CompleteNormedModule) _ _ _ _ H1).
    apply (is_RInt_unique (V := R_CompleteNormedModule) _ _ _ _ H2). }
  assert (n^2 - 1 <> 0) by nra. eapply Rmult_eq_reg_r; eauto.
Qed.

Lemma is_mu_ext n k1 k2 mu :
  1 < n -> (forall x, 1 < x < n -> k1 x = k2 x) -> is_mu n k1 mu -> is_mu n k2 mu.
Proof.
  intros Hn E H. unfold is_mu in *. eapply is_RInt_ext; [|exact H].
  intros x Hx. rewrite Rmin_left, Rmax_right in Hx by lra. cbv beta. rewrite E; auto.
Qed.

(** Mu grows with the resistance, strictly positive. *)
Lemma is_mu_le n k1 k2 m1 m2 :
  1 < n -> (forall x, 1 < x < n -> 0 < k2 x <= k1 x) ->
  is_mu n k1 m1 -> is_mu n k2 m2 -> m1 <= m2.
Proof.
  intros Hn Hk H1 H2. unfold is_mu in *.
  assert (m1 * (n^2 - 1) <= m2 * (n^2 - 1)).
  { apply (is_RInt_le _ _ 1 n _ _ ltac:(lra) H1 H2). intros x Hx.
    apply Rmult_le_compat_r; [apply ww_pos; lra|].
    destruct (Hk x Hx). apply Rinv_le_contravar; auto. }
  assert (0 < n^2 - 1) by nra. nra.
Qed.

(** ** Antiderivatives on one piece *)
Section Anti.
Variable n : R.
Hypothesis Hn : 1 < n.

(** constant resistance *)
Definition phi_c (x : R) : R := ln x - x^2 / (2 * n^2).
Definition L_c (x : R) : R := n^2 * ln x - x^2 + x^4 / (4 * n^2).

Lemma phi_c_der K x : 0 < x -> is_derive (fun x => K * phi_c x) x (K * (1 / x - x / n^2)).
Proof. intros. unfold phi_c. auto_derive; [lra|]. field. lra. Qed.
Lemma L_c_der K x : 0 < x -> is_derive (fun x => K * L_c x) x (K * ww n x).
Proof. intros. unfold L_c, ww. auto_derive; [lra|]. field. lra. Qed.

(** resistance 1/x *)
Definition phi_i (x : R) : R := - 1 / x - x / n^2.
Definition L_i (x : R) : R := - n^2 / x - 2 * x + x^3 / (3 * n^2).
Lemma phi_i_der K x : 0 < x -> is_derive (fun x => K * phi_i x) x (K / x * (1 / x - x / n^2)).
Proof. intros. unfold phi_i. auto_derive; [lra|]. field. lra. Qed.
Lemma L_i_der K x : 0 < x -> is_derive (fun x => K * L_i x) x (K / x * ww n x).
Proof. intros. unfold L_i, ww. auto_derive; [lra|]. field. lra. Qed.

(** resistance 1/(al x + be) *)
Definition phi_l (al be x : R) : R :=
  1 / be * (ln x - ln (al * x + be)) - 1 / n^2 * (x / al - be / al^2 * ln (al * x + be)).
Definition L_l (al be x : R) : R :=
  n^2 / be * (ln x - ln (al * x + be)) - 2 * (x / al - be / al^2 * ln (al * x + be))
  + 1 / n^2 * (x^3 / (3 * al) - be * x^2 / (2 * al^2) + be^2 * x / al^3
               - be^3 / al^4 * ln (al * x + be)).
Lemma phi_l_der al be K x : al <> 0 -> be <> 0 -> 0 < x -> 0 < al * x + be ->
  is_derive (fun x => K * phi_l al be x) x (K / (al * x + be) * (1 / x - x / n^2)).
Proof. intros. unfold phi_l. auto_derive; [lra|]. field. repeat split; lra. Qed.
Lemma L_l_der al be K x : al <> 0 -> be <> 0 -> 0 < x -> 0 < al * x + be ->
  is_derive (fun x => K * L_l al be x) x (K / (al * x + be) * ww n x).
Proof. intros. unfold L_l, ww. auto_derive; [lra|]. field. repeat split; lra. Qed.
End Anti.

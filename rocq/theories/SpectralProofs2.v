(** Every generated closed form equals a difference of antiderivatives. *)
From Coq Require Import Reals Lra Lia.
From Verif Require Import IntegralsGen SpectralProofs.
Open Scope R_scope.

Lemma D2_eq mi mj : mi ^ 4 - 2 * mi ^ 2 * mj ^ 2 + mj ^ 4 = (mi ^ 2 - mj ^ 2) ^ 2. Proof. ring. Qed.
Lemma D2_eq' mi mj : mi ^ 4 - 2 * mj ^ 2 * mi ^ 2 + mj ^ 4 = (mi ^ 2 - mj ^ 2) ^ 2. Proof. ring. Qed.
Lemma D3_eq mi mj : mi ^ 6 - 3 * mi ^ 4 * mj ^ 2 + 3 * mi ^ 2 * mj ^ 4 - mj ^ 6 = (mi ^ 2 - mj ^ 2) ^ 3. Proof. ring. Qed.
Lemma D3_eq' mi mj : mi ^ 6 - 3 * mj ^ 2 * mi ^ 4 + 3 * mj ^ 4 * mi ^ 2 - mj ^ 6 = (mi ^ 2 - mj ^ 2) ^ 3. Proof. ring. Qed.
Lemma iD2 iQ mi mj : iQ * (mi ^ 2 - mj ^ 2) ^ 3 = 1 -> / (mi ^ 2 - mj ^ 2) ^ 2 = (mi ^ 2 - mj ^ 2) * iQ.
Proof.
  intros H. assert (mi ^ 2 - mj ^ 2 <> 0) by (intros C; rewrite C in H; cbn in H; lra).
  apply (Rmult_eq_reg_r ((mi ^ 2 - mj ^ 2) ^ 2)); [|apply pow_nonzero; auto].
  rewrite Rinv_l by (apply pow_nonzero; auto). rewrite <- H. ring.
Qed.
Lemma iD3 iQ mi mj : iQ * (mi ^ 2 - mj ^ 2) ^ 3 = 1 -> / (mi ^ 2 - mj ^ 2) ^ 3 = iQ.
Proof.
  intros H. assert (mi ^ 2 - mj ^ 2 <> 0) by (intros C; rewrite C in H; cbn in H; lra).
  apply (Rmult_eq_reg_r ((mi ^ 2 - mj ^ 2) ^ 3)); [|apply pow_nonzero; auto].
  rewrite Rinv_l by (apply pow_nonzero; auto). rewrite H. reflexivity.
Qed.

Ltac atoms :=
  repeat match goal with
  | |- context [sin ?x] => let s := fresh "s" in generalize (sin x); intros s
  | |- context [cos ?x] => let c := fresh "c" in generalize (cos x); intros c
  end.
Ltac off H := unfold F_ss, F_cc; cbv zeta; unfold Rdiv;
  rewrite ?D2_eq, ?D2_eq', ?D3_eq, ?D3_eq', ?pow_1, ?(iD2 _ _ _ H), ?(iD3 _ _ _ H); atoms; ring.
Ltac diag mi zt zb :=
  unfold F_s2, F_c2, G2;
  rewrite ?(Rmult_comm zt mi), ?(Rmult_comm zb mi), ?(cos2 (mi * zt)), ?(cos2 (mi * zb)); atoms; field; auto.

Section A.
Variables (a_slope at_ zt zb mi mj iQ : R).
Hypothesis Hm : mi <> 0.
Lemma af_sd : af_scalar_diag a_slope at_ zt zb mi = F_s2 (at_ - a_slope * zt) a_slope 0 mi zb - F_s2 (at_ - a_slope * zt) a_slope 0 mi zt.
Proof. unfold af_scalar_diag. diag mi zt zb. Qed.
Lemma af_vd : af_vectorized_diag a_slope at_ zt zb mi = F_s2 (at_ - a_slope * zt) a_slope 0 mi zb - F_s2 (at_ - a_slope * zt) a_slope 0 mi zt.
Proof. unfold af_vectorized_diag. diag mi zt zb. Qed.
Lemma DaDf_sd : DaDf_scalar_diag a_slope at_ zt zb mi =
  - mi ^ 2 * (F_c2 (at_ - a_slope * zt) a_slope 0 mi zb - F_c2 (at_ - a_slope * zt) a_slope 0 mi zt).
Proof. unfold DaDf_scalar_diag. diag mi zt zb. Qed.
Lemma DaDf_vd : DaDf_vectorized_diag a_slope at_ zt zb mi =
  - mi ^ 2 * (F_c2 (at_ - a_slope * zt) a_slope 0 mi zb - F_c2 (at_ - a_slope * zt) a_slope 0 mi zt).
Proof. unfold DaDf_vectorized_diag. diag mi zt zb. Qed.
Hypothesis HQ : iQ * (mi ^ 2 - mj ^ 2) ^ 3 = 1.
Lemma af_so : af_scalar_off a_slope at_ zt zb mi mj = F_ss (at_ - a_slope * zt) a_slope 0 iQ mi mj zb - F_ss (at_ - a_slope * zt) a_slope 0 iQ mi mj zt.
Proof. unfold af_scalar_off. off HQ. Qed.
Lemma af_vo : af_vectorized_off a_slope at_ zt zb mi mj = F_ss (at_ - a_slope * zt) a_slope 0 iQ mi mj zb - F_ss (at_ - a_slope * zt) a_slope 0 iQ mi mj zt.
Proof. unfold af_vectorized_off. off HQ. Qed.
Lemma DaDf_so : DaDf_scalar_off a_slope at_ zt zb mi mj =
  - (mi * mj) * (F_cc (at_ - a_slope * zt) a_slope 0 iQ mi mj zb - F_cc (at_ - a_slope * zt) a_slope 0 iQ mi mj zt).
Proof. unfold DaDf_scalar_off. off HQ. Qed.
Lemma DaDf_vo : DaDf_vectorized_off a_slope at_ zt zb mi mj =
  - (mi * mj) * (F_cc (at_ - a_slope * zt) a_slope 0 iQ mi mj zb - F_cc (at_ - a_slope * zt) a_slope 0 iQ mi mj zt).
Proof. unfold DaDf_vectorized_off. off HQ. Qed.
End A.

Section AB.
Variables (a_slope b_slope at_ bt zt zb mi mj iQ : R).
Let p0 := (at_ - a_slope * zt) * (bt - b_slope * zt).
Let p1 := (at_ - a_slope * zt) * b_slope + (bt - b_slope * zt) * a_slope.
Let p2 := a_slope * b_slope.
Hypothesis Hm : mi <> 0.
Lemma abf_sd : abf_scalar_diag a_slope b_slope at_ bt zt zb mi = F_s2 p0 p1 p2 mi zb - F_s2 p0 p1 p2 mi zt.
Proof. unfold abf_scalar_diag, p0, p1, p2. diag mi zt zb. Qed.
Lemma abf_vd : abf_vectorized_diag a_slope b_slope at_ bt zt zb mi = F_s2 p0 p1 p2 mi zb - F_s2 p0 p1 p2 mi zt.
Proof. unfold abf_vectorized_diag, p0, p1, p2. diag mi zt zb. Qed.
Lemma DDabDDf_sd : DDabDDf_scalar_diag a_slope b_slope at_ bt zt zb mi = mi ^ 4 * (F_s2 p0 p1 p2 mi zb - F_s2 p0 p1 p2 mi zt).
Proof. unfold DDabDDf_scalar_diag, p0, p1, p2. diag mi zt zb. Qed.
Lemma DDabDDf_vd : DDabDDf_vectorized_diag a_slope b_slope at_ bt zt zb mi = mi ^ 4 * (F_s2 p0 p1 p2 mi zb - F_s2 p0 p1 p2 mi zt).
Proof. unfold DDabDDf_vectorized_diag, p0, p1, p2. diag mi zt zb. Qed.

Definition PS := F_sin p0 p1 p2 0 mi.
Lemma ab_s : ab_scalar a_slope b_slope at_ bt zt zb mi = PS zb - PS zt.
Proof. unfold ab_scalar, PS, F_sin, P, P', P'', P3, p0, p1, p2.
  rewrite ?(Rmult_comm zt mi), ?(Rmult_comm zb mi). atoms. field. auto. Qed.
Lemma ab_v : ab_vectorized a_slope b_slope at_ bt zt zb mi = PS zb - PS zt.
Proof. unfold ab_vectorized, PS, F_sin, P, P', P'', P3, p0, p1, p2.
  rewrite ?(Rmult_comm zt mi), ?(Rmult_comm zb mi). atoms. field. auto. Qed.

Hypothesis HQ : iQ * (mi ^ 2 - mj ^ 2) ^ 3 = 1.
Lemma abf_so : abf_scalar_off a_slope b_slope at_ bt zt zb mi mj = F_ss p0 p1 p2 iQ mi mj zb - F_ss p0 p1 p2 iQ mi mj zt.
Proof. unfold abf_scalar_off, p0, p1, p2. off HQ. Qed.
Lemma abf_vo : abf_vectorized_off a_slope b_slope at_ bt zt zb mi mj = F_ss p0 p1 p2 iQ mi mj zb - F_ss p0 p1 p2 iQ mi mj zt.
Proof. unfold abf_vectorized_off, p0, p1, p2. off HQ. Qed.
Lemma DDabDDf_so : DDabDDf_scalar_off a_slope b_slope at_ bt zt zb mi mj =
  mi ^ 2 * mj ^ 2 * (F_ss p0 p1 p2 iQ mi mj zb - F_ss p0 p1 p2 iQ mi mj zt).
Proof. unfold DDabDDf_scalar_off, p0, p1, p2.
  rewrite ?(Rmult_comm zt mi), ?(Rmult_comm zb mi), ?(Rmult_comm zt mj), ?(Rmult_comm zb mj). off HQ. Qed.
Lemma DDabDDf_vo : DDabDDf_vectorized_off a_slope b_slope at_ bt zt zb mi mj =
  mi ^ 2 * mj ^ 2 * (F_ss p0 p1 p2 iQ mi mj zb - F_ss p0 p1 p2 iQ mi mj zt).
Proof. unfold DDabDDf_vectorized_off, p0, p1, p2. off HQ. Qed.
End AB.

Section ABC.
Variables (a_slope b_slope c_slope at_ bt ct zt zb mi : R).
Let p0 := (at_ - a_slope * zt) * (bt - b_slope * zt) * (ct - c_slope * zt).
Let p1 := (at_ - a_slope * zt) * (bt - b_slope * zt) * c_slope + (at_ - a_slope * zt) * b_slope * (ct - c_slope * zt)
          + a_slope * (bt - b_slope * zt) * (ct - c_slope * zt).
Let p2 := (at_ - a_slope * zt) * b_slope * c_slope + a_slope * (bt - b_slope * zt) * c_slope
          + a_slope * b_slope * (ct - c_slope * zt).
Let p3 := a_slope * b_slope * c_slope.
Hypothesis Hm : mi <> 0.
Lemma abc_s : abc_scalar a_slope b_slope c_slope at_ bt ct zt zb mi = F_sin p0 p1 p2 p3 mi zb - F_sin p0 p1 p2 p3 mi zt.
Proof. unfold abc_scalar, F_sin, P, P', P'', P3, p0, p1, p2, p3.
  rewrite ?(Rmult_comm zt mi), ?(Rmult_comm zb mi). atoms. field. auto. Qed.
Lemma abc_v : abc_vectorized a_slope b_slope c_slope at_ bt ct zt zb mi = F_sin p0 p1 p2 p3 mi zb - F_sin p0 p1 p2 p3 mi zt.
Proof. unfold abc_vectorized, F_sin, P, P', P'', P3, p0, p1, p2, p3.
  rewrite ?(Rmult_comm zt mi), ?(Rmult_comm zb mi). atoms. field. auto. Qed.
End ABC.

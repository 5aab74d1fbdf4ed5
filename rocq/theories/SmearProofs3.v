(** * Parabolic smear zone. *)
From Coq Require Import Reals List Lra Lia Bool.
From Coquelicot Require Import Coquelicot.
From Verif Require Import Base SmearModel SpecSmear SmearProofs SmearProofs2.
Import ListNotations.
Local Open Scope R_scope.

Definition F_parabolic (n s kap x : R) : R :=
  if Rltb x s then u_parabolic_part n s kap x else u_parabolic_undisturbed n s kap x.

Lemma ln_sqrt x : 0 < x -> ln (sqrt x) = ln x / 2.
Proof.
  intros H. rewrite <- (sqrt_sqrt x) at 2 by lra.
  rewrite ln_mult by (apply sqrt_lt_R0; auto). field.
Qed.

Section Par.
Variables (n s kap : R).
Hypotheses (Hn : 1 < n) (Hs : 1 < s <= n) (Hkap : 1 < kap).
Let A := sqrt (kap / (kap - 1)).
Let B := s / (s - 1).
Let C := 1 / (s - 1).

Lemma parA : A ^ 2 = kap / (kap - 1).
Proof.
  unfold A. rewrite <- Rsqr_pow2, Rsqr_sqrt; auto. apply Rle_mult_inv_pos; lra.
Qed.
Lemma parA1 : 1 < A.
Proof.
  unfold A. rewrite <- sqrt_1 at 1. apply sqrt_lt_1_alt. split; [lra|].
  apply Rmult_lt_reg_r with (kap - 1); [lra|]. field_simplify; lra.
Qed.
Lemma parB1 : 1 < B.
Proof. unfold B. apply Rmult_lt_reg_r with (s - 1); [lra|]. field_simplify; lra. Qed.
Lemma parC : C = B - 1.
Proof. unfold B, C. field. lra. Qed.
Lemma par_s : s = B / (B - 1).
Proof. unfold B. field. lra. Qed.
Lemma par_kap : kap = A^2 / (A^2 - 1).
Proof. rewrite parA. field. lra. Qed.
Lemma par_lnkap : ln kap = 2 * ln A - ln (A - 1) - ln (A + 1).
Proof.
  pose proof parA1. rewrite par_kap at 1. replace (A^2 - 1) with ((A-1) * (A+1)) by ring.
  rewrite ln_div; [|nra|nra]. rewrite ln_mult by lra.
  replace (A^2) with (A*A) by ring. rewrite ln_mult by lra. ring.
Qed.

Lemma good_parabolic kp :
  A ^ 2 - B ^ 2 <> 0 ->
  (forall x, 1 < x < s -> kp x = kap / ((kap - 1) * ((A - B + C * x) * (A + B - C * x)))) ->
  (forall x, s < x < n -> kp x = 1) ->
  forall mu, mu_p n s kap = Some mu ->
  good n [s] kp (F_parabolic n s kap) 1 n (mu * (n^2 - 1)) /\ F_parabolic n s kap 1 = 0.
Proof.
  intros HAB K1 K2 mu Hmu. unfold mu_p in Hmu. fold A B C in Hmu.
  rewrite Rltb_f in Hmu by lra.
  destruct (Reqb (A^2 - B^2) 0) eqn:Eq; [discriminate|].
  pose proof parA1 as HA1. pose proof parB1 as HB1. pose proof parC as HC.
  assert (HAmB : A - B <> 0) by nra.
  injection Hmu as Hmu.
  assert (Ls : ln (s / sqrt kap) = ln s - / 2 * ln kap).
  { rewrite ln_div; [|lra|apply sqrt_lt_R0; lra]. rewrite ln_sqrt by lra. field. }
  assert (Lk : ln (sqrt kap) = / 2 * ln kap) by (rewrite ln_sqrt by lra; field).
  assert (LA : ln ((A + 1) / (A - 1)) = ln (A + 1) - ln (A - 1)) by (apply ln_div; lra).
  assert (Cs : C * s = B) by (unfold B, C; field; lra).
  set (K := A / 2).
  set (c0 := - (K * phi_l n C (A - B) 1 + K * phi_l n (- C) (A + B) 1)).
  assert (E : mu * (n^2 - 1) =
    ((K * L_l n C (A - B) s + K * L_l n (- C) (A + B) s)
     - (K * L_l n C (A - B) 1 + K * L_l n (- C) (A + B) 1)) + (1 * L_c n n - 1 * L_c n s)).
  { rewrite <- Hmu. unfold L_l, L_c, K.
    replace (C * s + (A - B)) with A by lra. replace (- C * s + (A + B)) with A by lra.
    replace (C * 1 + (A - B)) with (A - 1) by lra.
    replace (- C * 1 + (A + B)) with (A + 1) by lra.
    rewrite Ls, Lk, LA, (ln_div n s), ln_1 by lra. rewrite par_lnkap.
    pose proof par_s as Es. revert Es. rewrite HC.
    generalize (ln n) (ln s) (ln A) (ln (A - 1)) (ln (A + 1)).
    intros l1 l2 l3 l4 l5 Es.
    clear - HA1 HB1 HAmB HAB Hn Es. clearbody A B. subst s.
    assert (A <> B) by (intros ->; lra).
    field. repeat split; try lra. apply n2 in Hn; lra. }
  assert (Lr1 : forall x, 1 <= x <= s -> 0 < A - B + C * x /\ 0 < A + B - C * x).
  { intros x Hx. assert (0 < C) by lra. assert (C * 1 <= C * x <= C * s).
    { split; apply Rmult_le_compat_l; lra. } split; lra. }
  assert (F1 : F_parabolic n s kap 1 = 0).
  { unfold F_parabolic. rewrite Rltb_t by lra. unfold u_parabolic_part. fold A B C.
    replace ((A + B - C * 1) / (A + 1)) with 1 by (rewrite HC; field; lra).
    replace ((A - B + C * 1) / (A - 1)) with 1 by (rewrite HC; field; lra).
    rewrite ln_1. ring. }
  assert (Fs : u_parabolic_undisturbed n s kap s =
    K * phi_l n C (A - B) s + K * phi_l n (- C) (A + B) s + c0).
  { unfold u_parabolic_undisturbed, c0, K, phi_l. fold A B C.
    replace (C * s + (A - B)) with A by lra. replace (- C * s + (A + B)) with A by lra.
    replace (C * 1 + (A - B)) with (A - 1) by lra.
    replace (- C * 1 + (A + B)) with (A + 1) by lra.
    replace (s / s) with 1 by (field; lra).
    rewrite LA, ln_1, par_lnkap. rewrite <- parA.
    pose proof par_s as Es. revert Es. rewrite HC.
    generalize (ln s) (ln A) (ln (A - 1)) (ln (A + 1)).
    intros l2 l3 l4 l5 Es.
    clear - HA1 HB1 HAmB HAB Hn Es. clearbody A B. subst s.
    field. repeat split; lra. }
  assert (F1' : forall x, 1 <= x <= s -> F_parabolic n s kap x =
    K * phi_l n C (A - B) x + K * phi_l n (- C) (A + B) x + c0).
  { intros x Hx. unfold F_parabolic. destruct (Req_dec x s) as [->|Hne].
    { rewrite Rltb_f by lra. exact Fs. }
    rewrite Rltb_t by lra. destruct (Lr1 x Hx) as [P1 P2].
    unfold u_parabolic_part, c0, K, phi_l. fold A B C.
    replace (C * x + (A - B)) with (A - B + C * x) by ring.
    replace (- C * x + (A + B)) with (A + B - C * x) by ring.
    replace (C * 1 + (A - B)) with (A - 1) by lra.
    replace (- C * 1 + (A + B)) with (A + 1) by lra.
    rewrite !ln_div by lra. rewrite ln_1, <- parA.
    generalize (ln x) (ln (A - B + C * x)) (ln (A + B - C * x)) (ln (A - 1)) (ln (A + 1)).
    intros l1 l2 l3 l4 l5. rewrite HC.
    clear - HA1 HB1 HAmB HAB Hn. clearbody A B.
    field. repeat split; lra. }
  split; [|exact F1].
  rewrite E. apply good_glue with s; [lra|left; left; reflexivity| |].
  - assert (CC : - C <> 0) by lra.
    assert (CC2 : C <> 0) by lra.
    assert (q1 : 0 < C * 1 + (A - B)) by lra.
    assert (q2 : 0 < C * s + (A - B)) by lra.
    assert (q3 : 0 < - C * 1 + (A + B)) by lra.
    assert (q4 : 0 < - C * s + (A + B)) by lra.
    apply piece_ll with C (A - B) K (- C) (A + B) K c0; auto; try lra.
    intros x Hx. destruct (Lr1 x ltac:(lra)) as [P1 P2]. rewrite K1 by auto.
    unfold K. rewrite Rmult_comm with (r1 := kap - 1).
    replace (kap / ((A - B + C * x) * (A + B - C * x) * (kap - 1)))
      with ((kap / (kap - 1)) / ((A - B + C * x) * (A + B - C * x)))
      by (field; repeat split; lra).
    rewrite <- parA. field. repeat split; lra.
  - apply piece_c with 1 (- ln s + s^2 / (2 * n^2) + u_parabolic_undisturbed n s kap s); auto; try lra.
    intros x Hx. unfold F_parabolic. rewrite Rltb_f by lra.
    unfold u_parabolic_undisturbed, phi_c. fold A B C.
    rewrite (ln_div x s), (ln_div s s) by lra. ring_simplify. field. lra.
Qed.
End Par.

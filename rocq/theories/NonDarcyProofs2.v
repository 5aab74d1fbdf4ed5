(** * The binomial series *)
From Coq Require Import Reals List Bool Arith Lia Lra.
From Coquelicot Require Import Coquelicot.
From Verif Require Import Base NonDarcyModel NonDarcyProofs PropsNonDarcy.
Local Open Scope R_scope.

Section B.
Variable a : R.
Hypothesis Ha : 0 < a < 1.
Notation b := (coeff a).
Lemma coeff_bound j : Rabs (b j) <= 1.
Proof.
  induction j as [|j IH]; [cbn; rewrite Rabs_R1; lra|]. cbn [coeff]. unfold Rdiv. rewrite Rmult_assoc, Rabs_mult. assert (P := pos_INR j). assert (Rabs ((INR j - a) * / INR (S j)) <= 1).
  { rewrite Rabs_mult, (Rabs_pos_eq (/ INR (S j))) by (apply Rlt_le, Rinv_0_lt_compat, lt_0_INR; lia). rewrite S_INR. apply (Rmult_le_reg_r (INR j + 1)); [lra|]. rewrite Rmult_assoc, Rinv_l by lra. unfold Rabs. destruct (Rcase_abs _); lra. }
  assert (Q := Rabs_pos (b j)). assert (Q2 := Rabs_pos ((INR j - a) * / INR (S j))). nra.
Qed.
Lemma radius : Rbar_le 1 (CV_radius b).
Proof.
  apply (CV_radius_bounded b). exists 1. intros j. rewrite pow1, Rmult_1_r. apply coeff_bound.
Qed.
Lemma inside x : Rabs x < 1 -> Rbar_lt (Rabs x) (CV_radius b).
Proof. intros H. eapply Rbar_lt_le_trans; [|exact radius]. exact H. Qed.
Lemma series_ode x : Rabs x < 1 -> (1 - x) * PSeries (PS_derive b) x = - a * PSeries b x.
Proof.
  intros H. assert (ED : ex_pseries (PS_derive b) x) by (apply CV_radius_inside; rewrite CV_radius_derive; apply inside; exact H).
  replace ((1 - x) * PSeries (PS_derive b) x) with (PSeries (PS_derive b) x - x * PSeries (PS_derive b) x) by ring. rewrite <- PSeries_incr_1. rewrite <- PSeries_minus; [|exact ED|apply ex_pseries_incr_1; exact ED]. rewrite <- PSeries_scal.
  apply PSeries_ext. intros j. unfold PS_minus, PS_plus, PS_opp, PS_scal, PS_incr_1, PS_derive, plus, opp, scal; cbn -[INR]. unfold mult; cbn -[INR]. destruct j as [|j].
  - cbn. unfold zero; cbn. field.
  - cbn [coeff]. assert (P := pos_INR j). rewrite !S_INR. field. lra.
Qed.
Lemma binomial x : 0 <= x < 1 -> PSeries b x = Rpower (1 - x) a.
Proof.
  intros Hx. assert (H0 : PSeries b 0 = 1) by (rewrite PSeries_0; reflexivity).
  destruct (Req_dec x 0) as [->|N0]; [rewrite H0; replace (1 - 0) with 1 by ring; unfold Rpower; rewrite ln_1, Rmult_0_r, exp_0; reflexivity|].
  assert (D : forall t, 0 <= t <= x -> is_derive (fun t => PSeries b t * Rpower (1 - t) (- a)) t 0).
  { intros t Ht. assert (T : Rabs t < 1) by (rewrite Rabs_pos_eq; lra). replace 0 with (PSeries (PS_derive b) t * Rpower (1 - t) (- a) + PSeries b t * (a * Rpower (1 - t) (- a - 1))).
    - apply (is_derive_mult (PSeries b) (fun t => Rpower (1 - t) (- a))); [apply is_derive_PSeries, inside; exact T| |intros; apply Rmult_comm].
      replace (a * Rpower (1 - t) (- a - 1)) with (scal (- (1)) (- a * Rpower (1 - t) (- a - 1))) by (unfold scal; cbn; unfold mult; cbn; ring). apply (is_derive_comp (fun z => Rpower z (- a)) (fun t => 1 - t)); [apply is_derive_Reals, derivable_pt_lim_power; lra|].
      auto_derive; auto.
    - replace (- a - 1) with (- a + - (1)) by ring. rewrite Rpower_plus. assert (O := series_ode t T).
      replace (Rpower (1 - t) (- (1))) with (/ (1 - t)) by (rewrite Rpower_Ropp, Rpower_1 by lra; reflexivity). replace (PSeries (PS_derive b) t) with (- a * PSeries b t / (1 - t)); [field; lra|]. rewrite <- O. field. lra. }
  assert (Q := eq_is_derive (fun t => PSeries b t * Rpower (1 - t) (- a)) 0 x D ltac:(lra)). cbv beta in Q. rewrite H0, Rminus_0_r in Q. assert (P1 : Rpower 1 (- a) = 1) by (unfold Rpower; rewrite ln_1, Rmult_0_r, exp_0; reflexivity). rewrite P1, Rpower_Ropp in Q.
  assert (Z := exp_pos (a * ln (1 - x))). fold (Rpower (1 - x) a) in Z. apply (Rmult_eq_reg_r (/ Rpower (1 - x) a)); [|apply Rinv_neq_0_compat; lra]. rewrite <- Q. field. lra.
Qed.
Lemma partial_limit x : 0 <= x < 1 -> is_lim_seq (partial_sum a x) (Rpower (1 - x) a).
Proof.
  intros Hx. rewrite <- binomial by exact Hx. apply (is_lim_seq_incr_1 (partial_sum a x)). assert (E : ex_pseries b x) by (apply CV_radius_inside, inside; rewrite Rabs_pos_eq; lra).
  assert (C := PSeries_correct b x E). apply (is_lim_seq_ext (sum_n (fun k => scal (pow_n x k) (b k)))); [|exact C].
  intros j. induction j as [|j IH].
  - rewrite sum_O. cbn. unfold scal, one; cbn. unfold mult; cbn. ring.
  - rewrite sum_Sn, IH, pow_n_pow. change (partial_sum a x (S j) + x ^ S j * b (S j) = partial_sum a x (S j) + b (S j) * x ^ S j). ring.
Qed.
End B.

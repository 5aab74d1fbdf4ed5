(** * Rational bounds for ln 10 from the series of atanh: ln 10 = 6 atanh(1/3) + 2 atanh(1/9) *)
From Coq Require Import Reals List Lia Lra.
From Coquelicot Require Import Coquelicot.
Open Scope R_scope.

(** 2 (x + x^3/3 + ... + x^(2n-1)/(2n-1)) *)
Fixpoint atn (n : nat) (x : R) : R :=
  match n with 0%nat => 0 | S k => atn k x + 2 * x^(2*k+1) / INR (2*k+1) end.
Fixpoint datn (n : nat) (x : R) : R :=
  match n with 0%nat => 0 | S k => datn k x + 2 * x^(2*k) end.

Lemma atn_derive : forall n x, is_derive (atn n) x (datn n x).
Proof.
  induction n as [|n IH]; intros x; cbn [atn datn].
  - apply (is_derive_const (K := R_AbsRing) (V := R_NormedModule)).
  - apply (is_derive_plus (K := R_AbsRing) (V := R_NormedModule)); [apply IH|].
    replace (2 * n + 1)%nat with (S (2 * n)) by lia.
    assert (HI : INR (S (2 * n)) <> 0) by (apply not_0_INR; lia).
    generalize dependent (2 * n)%nat. intros k HI. unfold Rdiv. clear IH.
    assert (D : is_derive (fun t : R => t ^ S k) x (INR (S k) * x ^ k)).
    { auto_derive; auto. change (match k with 0%nat => 1 | S _ => INR k + 1 end) with (INR (S k)). ring. }
    apply (is_derive_ext (fun t => scal (2 * / INR (S k)) (t ^ S k))).
    { intros t. change (2 * / INR (S k) * t ^ S k = 2 * t ^ S k * / INR (S k)). ring. }
    replace (2 * x ^ k) with (scal (2 * / INR (S k)) (INR (S k) * x ^ k)).
    + apply (is_derive_scal (fun t => t ^ S k)). exact D.
    + change (2 * / INR (S k) * (INR (S k) * x ^ k) = 2 * x ^ k). field. exact HI.
Qed.
Lemma datn_sum : forall n x, (1 - x^2) * datn n x = 2 * (1 - x^(2*n)).
Proof.
  induction n as [|n IH]; intros x; cbn [datn].
  - cbn. ring.
  - rewrite Rmult_plus_distr_l, IH. replace (2 * S n)%nat with (2 * n + 2)%nat by lia. rewrite pow_add. ring.
Qed.
Definition lnq (x : R) : R := ln ((1 + x) / (1 - x)).
Lemma lnq_derive : forall x, -1 < x < 1 -> is_derive lnq x (2 / (1 - x^2)).
Proof.
  intros x Hx. unfold lnq. auto_derive.
  - split; [lra|]. split; [|auto]. apply Rdiv_lt_0_compat; lra.
  - field. repeat split; nra.
Qed.
Lemma lnq_lower : forall n x, 0 < x < 1 -> atn n x <= lnq x.
Proof.
  intros n x Hx.
  destruct (MVT_gen (fun t => lnq t - atn n t) 0 x (fun t => 2 / (1 - t^2) - datn n t)) as (c & Hc & E).
  - intros t Ht. rewrite Rmin_left, Rmax_right in Ht by lra.
    apply (is_derive_minus (K := R_AbsRing) (V := R_NormedModule)); [apply lnq_derive; lra|apply atn_derive].
  - intros t Ht. rewrite Rmin_left, Rmax_right in Ht by lra.
    apply continuity_pt_filterlim. apply (ex_derive_continuous (V := R_NormedModule) (fun t => lnq t - atn n t) t).
    eexists. apply (is_derive_minus (K := R_AbsRing) (V := R_NormedModule)); [apply lnq_derive; lra|apply atn_derive].
  - rewrite Rmin_left, Rmax_right in Hc by lra.
    assert (Z : lnq 0 - atn n 0 = 0).
    { unfold lnq. replace ((1 + 0) / (1 - 0)) with 1 by field. rewrite ln_1.
      assert (G : forall k, atn k 0 = 0).
      { induction k as [|k IH]; cbn [atn]; auto. rewrite IH, pow_i by lia. unfold Rdiv. ring. }
      rewrite G. ring. }
    rewrite Z in E.
    assert (0 <= 2 / (1 - c^2) - datn n c).
    { assert (0 < 1 - c^2) by nra.
      replace (datn n c) with (2 * (1 - c^(2*n)) / (1 - c^2)) by (rewrite <- datn_sum; field; lra).
      replace (2 / (1 - c^2) - 2 * (1 - c^(2*n)) / (1 - c^2)) with (2 * c^(2*n) / (1 - c^2)) by (field; lra).
      apply Rmult_le_pos; [apply Rmult_le_pos; [lra|apply pow_le; lra]|]. left. apply Rinv_0_lt_compat. auto. }
    nra.
Qed.
(** the derivative is at most 2 t^(2n) / (1 - x^2) on [0, x]; compare with that of K t^(2n+1) *)
Lemma lnq_upper : forall n x, 0 < x < 1 ->
  lnq x <= atn n x + 2 * x^(2*n+1) / (INR (2*n+1) * (1 - x^2)).
Proof.
  intros n x Hx.
  assert (HI : 0 < INR (2*n+1)) by (apply lt_0_INR; lia). assert (Hq : 0 < 1 - x^2) by nra.
  set (K := 2 / (INR (2*n+1) * (1 - x^2))).
  assert (HK : forall t, is_derive (fun t => K * t^(2*n+1)) t (2 / (1 - x^2) * t^(2*n))).
  { intros t. unfold K. revert HI. replace (2 * n + 1)%nat with (S (2 * n)) by lia.
    generalize (2 * n)%nat. intros k HI.
    assert (D : is_derive (fun t : R => t ^ S k) t (INR (S k) * t ^ k)).
    { auto_derive; auto. change (match k with 0%nat => 1 | S _ => INR k + 1 end) with (INR (S k)). ring. }
    replace (2 / (1 - x^2) * t ^ k) with (2 / (INR (S k) * (1 - x^2)) * (INR (S k) * t ^ k)).
    + apply (is_derive_scal (fun t => t ^ S k)). exact D.
    + field. split; lra. }
  destruct (MVT_gen (fun t => atn n t + K * t^(2*n+1) - lnq t) 0 x
     (fun t => datn n t + 2 / (1 - x^2) * t^(2*n) - 2 / (1 - t^2))) as (c & Hc & E).
  - intros t Ht. rewrite Rmin_left, Rmax_right in Ht by lra.
    apply (is_derive_minus (K := R_AbsRing) (V := R_NormedModule)); [|apply lnq_derive; lra].
    apply (is_derive_plus (K := R_AbsRing) (V := R_NormedModule)); [apply atn_derive|apply HK].
  - intros t Ht. rewrite Rmin_left, Rmax_right in Ht by lra.
    apply continuity_pt_filterlim. apply (ex_derive_continuous (V := R_NormedModule) (fun t => atn n t + K * t^(2*n+1) - lnq t) t).
    eexists. apply (is_derive_minus (K := R_AbsRing) (V := R_NormedModule)); [|apply lnq_derive; lra].
    apply (is_derive_plus (K := R_AbsRing) (V := R_NormedModule)); [apply atn_derive|apply HK].
  - rewrite Rmin_left, Rmax_right in Hc by lra.
    assert (Z : atn n 0 + K * 0^(2*n+1) - lnq 0 = 0).
    { unfold lnq. replace ((1 + 0) / (1 - 0)) with 1 by field. rewrite ln_1.
      assert (G : forall k, atn k 0 = 0).
      { induction k as [|k IH]; cbn [atn]; auto. rewrite IH, pow_i by lia. unfold Rdiv. ring. }
      rewrite G, pow_i by lia. ring. }
    rewrite Z in E.
    assert (0 <= datn n c + 2 / (1 - x^2) * c^(2*n) - 2 / (1 - c^2)).
    { assert (0 < 1 - c^2) by nra.
      replace (datn n c) with (2 * (1 - c^(2*n)) / (1 - c^2)) by (rewrite <- datn_sum; field; lra).
      replace (2 * (1 - c^(2*n)) / (1 - c^2) + 2 / (1 - x^2) * c^(2*n) - 2 / (1 - c^2))
        with (2 * c^(2*n) * (/ (1 - x^2) - / (1 - c^2))) by (field; lra).
      apply Rmult_le_pos; [apply Rmult_le_pos; [lra|apply pow_le; lra]|].
      assert (/ (1 - c^2) <= / (1 - x^2)) by (apply Rinv_le_contravar; nra). lra. }
    assert (EK : 2 * x^(2*n+1) / (INR (2*n+1) * (1 - x^2)) = K * x^(2*n+1)) by (unfold K; field; lra).
    rewrite EK. nra.
Qed.
Lemma ln10_split : ln 10 = 3 * lnq (1/3) + lnq (1/9).
Proof.
  unfold lnq. replace ((1 + 1/3) / (1 - 1/3)) with 2 by field. replace ((1 + 1/9) / (1 - 1/9)) with (10/8) by field.
  replace 10 with (2 * (2 * (2 * (10/8)))) at 1 by field.
  rewrite !ln_mult by lra. ring.
Qed.
Lemma ln10_bounds : 23025850929940456 / 10^16 < ln 10 < 23025850929940457 / 10^16.
Proof.
  rewrite ln10_split.
  pose proof (lnq_lower 17 (1/3)) as L1. pose proof (lnq_lower 9 (1/9)) as L2.
  pose proof (lnq_upper 17 (1/3)) as U1. pose proof (lnq_upper 9 (1/9)) as U2.
  specialize (L1 ltac:(lra)). specialize (L2 ltac:(lra)). specialize (U1 ltac:(lra)). specialize (U2 ltac:(lra)).
  cbn [atn Nat.mul Nat.add] in *. rewrite !INR_IZR_INZ in *. cbn [Z.of_nat Pos.of_succ_nat Pos.succ] in *.
  lra.
Qed.
Print Assumptions ln10_bounds.

From Coq Require Import Reals List Arith Lia Lra.
From Coquelicot Require Import Coquelicot.
From Verif Require Import Base TerzaghiModel SpecTerzaghi TerzaghiProofs TerzaghiProofs2 PropsTerzaghi ConstitutiveModel LnBounds XieModel SpecXie XieProofs XieProofs2 XieProofs3.
Import ListNotations.
Local Open Scope R_scope.

(** ** Interpolation in a table of an increasing function *)
Section Interp.
Variables (g : R -> R) (p : nat -> R).
Hypothesis Hp : forall i, p i < p (S i).
Hypothesis Hgm : forall s t, s < t -> g s < g t.
Lemma g_lt_inv s t : g s < g t -> s < t.
Proof using Hgm. intros L. destruct (Rtotal_order s t) as [|[->|L']]; [auto|lra|]. pose proof (Hgm _ _ L'). lra. Qed.
Lemma interp_bracket tau n k : p k <= tau ->
  let t := interp_from (g tau) (g (p k)) (p k) (map (fun i => (g (p i), p i)) (seq (S k) n)) in
  (tau < p (k + n)%nat /\ exists i, p i <= tau < p (S i) /\ p i <= t < p (S i)) \/ (p (k + n)%nat <= tau /\ t = p (k + n)%nat).
Proof using Hp Hgm.
  revert k. induction n as [|n IH]; intros k Hk; cbn [seq map interp_from].
  - rewrite Nat.add_0_r. right. auto.
  - destruct (Rltb (g tau) (g (p (S k)))) eqn:L.
    + apply Rltb_true in L. left. pose proof (g_lt_inv _ _ L) as L'. split.
      * assert (Q : forall j, p (S k) <= p (S k + j)%nat).
        { induction j as [|j IHj]; [rewrite Nat.add_0_r; lra|]. rewrite Nat.add_succ_r. pose proof (Hp (S k + j)%nat). lra. }
        pose proof (Q n). replace (k + S n)%nat with (S k + n)%nat by lia. lra.
      * exists k. split; [split; auto|].
        assert (g (p k) <= g tau) by (destruct Hk as [Hk|<-]; [left; apply Hgm; auto|lra]).
        pose proof (Hp k) as P. pose proof (Hgm _ _ P) as P2.
        assert (0 <= (g tau - g (p k)) / (g (p (S k)) - g (p k)) < 1).
        { split; [apply Rdiv_le_0_compat; lra|]. apply (Rmult_lt_reg_r (g (p (S k)) - g (p k))); [lra|]. unfold Rdiv. rewrite Rmult_assoc, Rinv_l by lra. lra. }
        replace ((p (S k) - p k) / (g (p (S k)) - g (p k)) * (g tau - g (p k))) with ((p (S k) - p k) * ((g tau - g (p k)) / (g (p (S k)) - g (p k)))) by (field; lra). nra.
    + apply Rltb_false in L. assert (p (S k) <= tau).
      { destruct (Rle_lt_dec (p (S k)) tau) as [|L']; auto. pose proof (Hgm _ _ L'). lra. }
      pose proof (IH (S k) H) as I. replace (k + S n)%nat with (S k + n)%nat by lia. exact I.
Qed.
End Interp.

Section Table.
Variable X : xie.
Hypothesis Hd : 0 < x_dTv X.
Definition tp (i : nat) : R := / 10000 / x_dTv X * pow10 (INR i * (5 / 499)).
Lemma ln10_pos : 0 < ln 10.
Proof using. rewrite <- ln_1. apply ln_increasing; lra. Qed.
Lemma pow10_plus a b : pow10 (a + b) = pow10 a * pow10 b.
Proof using. unfold pow10. rewrite Rmult_plus_distr_l. apply exp_plus. Qed.
Lemma pow10_log x : 0 < x -> pow10 (log10 x) = x.
Proof using. intros Hx. unfold pow10, log10. pose proof ln10_pos. replace (ln 10 * (ln x / ln 10)) with (ln x) by (field; lra). apply exp_ln; auto. Qed.
Lemma log10_diff : log10 (10 / x_dTv X) - log10 (/ 10000 / x_dTv X) = 5.
Proof using Hd.
  unfold log10. pose proof ln10_pos as P. replace (ln (10 / x_dTv X)) with (5 * ln 10 + ln (/ 10000 / x_dTv X)).
  - field. lra.
  - replace (10 / x_dTv X) with (10 ^ 5 * (/ 10000 / x_dTv X)) by (field; lra). rewrite ln_mult; [|apply pow_lt; lra|apply Rdiv_lt_0_compat; lra].
    rewrite ln_pow by lra. cbn [INR]. ring.
Qed.
Lemma t_interp_eq : t_interp X = map tp (seq 0 500).
Proof using Hd.
  unfold t_interp, logspace, linspace. rewrite map_map. apply map_ext. intros i. unfold tp. rewrite log10_diff, pow10_plus, pow10_log by (apply Rdiv_lt_0_compat; lra).
  f_equal. f_equal. replace (INR (500 - 1)) with 499; [auto|]. change (500 - 1)%nat with 499%nat. rewrite INR_IZR_INZ. reflexivity.
Qed.
Definition tr : R := pow10 (5 / 499).
Lemma tp_S i : tp (S i) = tr * tp i.
Proof using. unfold tp, tr. rewrite S_INR. replace ((INR i + 1) * (5 / 499)) with (5 / 499 + INR i * (5 / 499)) by field. rewrite pow10_plus. ring. Qed.
Lemma tr_bounds : 1 < tr <= 1 + 24 / 1000.
Proof using.
  unfold tr, pow10. pose proof ln10_pos as P. pose proof ln10_bounds as [_ B].
  assert (B2 : ln 10 < 2303 / 1000) by (eapply Rlt_trans; [exact B|]; apply (Rmult_lt_reg_r (10^16)); [apply pow_lt; lra|]; unfold Rdiv at 1; rewrite Rmult_assoc, Rinv_l by (apply pow_nonzero; lra); lra).
  assert (Q : 0 < ln 10 * (5 / 499) < 2308 / 100000) by (split; nra).
  split; [rewrite <- exp_0; apply exp_increasing; lra|].
  set (x := ln 10 * (5 / 499)) in *. pose proof (exp_ineq1 (- x) ltac:(lra)) as I. pose proof (exp_pos x) as Px.
  assert (EE : exp x * exp (- x) = 1) by (rewrite <- exp_plus, Rplus_opp_r; apply exp_0). nra.
Qed.
Lemma tp_pos i : 0 < tp i.
Proof using Hd. unfold tp. apply Rmult_lt_0_compat; [apply Rdiv_lt_0_compat; lra|apply exp_pos]. Qed.
Lemma tp_up i : tp i < tp (S i).
Proof using Hd. rewrite tp_S. pose proof (tp_pos i). pose proof tr_bounds. nra. Qed.
Lemma tp_0 : tp 0 = / 10000 / x_dTv X.
Proof using. unfold tp, pow10. cbn [INR]. rewrite Rmult_0_l, Rmult_0_r, exp_0. ring. Qed.
Lemma tp_499 : tp 499 = 10 / x_dTv X.
Proof using Hd. unfold tp. replace (INR 499 * (5 / 499)) with 5.
  - unfold pow10. replace (ln 10 * 5) with (ln (10 ^ 5)) by (rewrite ln_pow by lra; cbn [INR]; ring). rewrite exp_ln by (apply pow_lt; lra). field. lra.
  - rewrite INR_IZR_INZ. change (IZR (Z.of_nat 499)) with 499. field.
Qed.
(** The time found for the value of an increasing function. *)
Lemma table_time (g : R -> R) tau : (forall s t, s < t -> g s < g t) ->
  exists t, np_interp (g tau) (map g (t_interp X)) (t_interp X) = Ok t /\
   (tau <= / 10000 / x_dTv X -> t = / 10000 / x_dTv X) /\
   (10 / x_dTv X <= tau -> t = 10 / x_dTv X) /\
   (/ 10000 / x_dTv X <= tau <= 10 / x_dTv X -> Rabs (t - tau) <= 24 / 1000 * tau).
Proof using Hd.
  intros Hgm. rewrite t_interp_eq, map_map.
  unfold np_interp. change (seq 0 500) with (0%nat :: seq 1 499). cbn [map combine].
  replace (combine (map (fun x => g (tp x)) (seq 1 499)) (map tp (seq 1 499))) with (map (fun i => (g (tp i), tp i)) (seq 1 499)).
  2:{ generalize (seq 1 499). intros l. induction l as [|i l IH]; cbn; [auto|rewrite IH; auto]. }
  assert (L0 : tp 0 < tp 499).
  { rewrite tp_0, tp_499. unfold Rdiv. apply Rmult_lt_compat_r; [apply Rinv_0_lt_compat; auto|lra]. }
  eexists. split; [reflexivity|]. rewrite <- tp_0, <- tp_499.
  destruct (Rltb (g tau) (g (tp 0))) eqn:B.
  - apply Rltb_true in B. pose proof (g_lt_inv g Hgm _ _ B). repeat split; intros; lra.
  - apply Rltb_false in B. assert (P0 : tp 0 <= tau).
    { destruct (Rle_lt_dec (tp 0) tau) as [|L']; auto. pose proof (Hgm _ _ L'). lra. }
    destruct (Req_dec tau (tp 0)) as [E0|N0].
    { change (seq 1 499) with (1%nat :: seq 2 498). cbn [map interp_from]. rewrite E0. pose proof (Hgm _ _ (tp_up 0)) as G.
      replace (Rltb (g (tp 0)) (g (tp 1))) with true by (symmetry; apply Rltb_true; auto).
      replace (tp 0 + (tp 1 - tp 0) / (g (tp 1) - g (tp 0)) * (g (tp 0) - g (tp 0))) with (tp 0) by (field; lra).
      split; [|split]; intros; try lra. rewrite Rminus_diag_eq, Rabs_R0 by auto. pose proof (tp_pos 0). lra. }
    pose proof (interp_bracket g tp tp_up Hgm tau 499 0 P0) as I. cbv zeta in I.
    set (t := interp_from _ _ _ _) in *. clearbody t. change (0 + 499)%nat with 499%nat in I.
    destruct I as [(L & i & (I1 & I2) & I3 & I4)|[L It]].
    + assert (Rabs (t - tau) <= 24 / 1000 * tau).
      { pose proof (tp_S i) as TS. pose proof (tp_pos i). pose proof tr_bounds as TB. apply Rabs_le. split; nra. }
      split; [|split]; [intros A; exfalso; apply N0; apply Rle_antisym; [exact A|exact P0]|intros A; exfalso; exact (Rlt_not_le _ _ L A)|intros _; auto].
    + rewrite It. split; [|split]; [intros A; exfalso; apply N0; apply Rle_antisym; [exact A|exact P0]|reflexivity|intros [_ A]]. assert (Et : tau = tp 499) by (apply Rle_antisym; [exact A|exact L]). rewrite Et, Rminus_diag_eq, Rabs_R0 by auto. pose proof (tp_pos 499). nra.
Qed.
End Table.

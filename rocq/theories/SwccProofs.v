(** * Proofs about soil water characteristic curves *)
From Coq Require Import Reals List ZArith Lia Lra Bool.
From Coquelicot Require Import Coquelicot.
From Verif Require Import Base ConstitutiveModel SwccModel.
Import ListNotations.
Open Scope R_scope.

Lemma fpow_pos x y : 0 < x -> fpow x y = Rpower x y.
Proof. intros H. unfold fpow. destruct (Reqb x 0) eqn:E; auto. apply Reqb_true in E. lra. Qed.
Lemma fpow_0 y : fpow 0 y = 0.
Proof. unfold fpow. destruct (Reqb 0 0) eqn:E; auto. apply Reqb_false in E. lra. Qed.
Lemma Rpower_gt0 x y : 0 < Rpower x y. Proof. apply exp_pos. Qed.
Lemma fpow_ge0 x y : 0 <= fpow x y.
Proof. unfold fpow. destruct (Reqb x 0); [lra|left; apply Rpower_gt0]. Qed.
Lemma Rpower_lt_l x y n : 0 < n -> 0 < x < y -> Rpower x n < Rpower y n.
Proof. intros Hn (Hx & Hy). unfold Rpower. apply exp_increasing. apply Rmult_lt_compat_l; auto. apply ln_increasing; auto. Qed.
Lemma fpow_lt x y n : 0 < n -> 0 <= x < y -> fpow x n < fpow y n.
Proof.
  intros Hn (Hx & Hy). rewrite (fpow_pos y) by lra. destruct Hx as [Hx|<-].
  - rewrite fpow_pos by auto. apply Rpower_lt_l; auto.
  - rewrite fpow_0. apply Rpower_gt0.
Qed.
Lemma fpow_1 y : fpow 1 y = 1.
Proof. rewrite fpow_pos by lra. unfold Rpower. rewrite ln_1, Rmult_0_r, exp_0. reflexivity. Qed.
Lemma ln_gt0 x : 1 < x -> 0 < ln x. Proof. intros. rewrite <- ln_1. apply ln_increasing; lra. Qed.
Lemma ln_ge1 x : exp 1 <= x -> 1 <= ln x.
Proof. intros [H|<-]; [|rewrite ln_exp; lra]. left. rewrite <- (ln_exp 1) at 1. apply ln_increasing; auto. apply exp_pos. Qed.

(** ** The correction *)
Lemma corr_pos c psir psi : 0 < psir -> 0 <= psi -> match c with None => psi < million | Some v => 0 < v end -> 0 < corr c psir psi.
Proof.
  intros Hr Hp H. destruct c as [v|]; [exact H|]. unfold corr.
  assert (0 <= psi / psir) by (apply Rmult_le_pos; [auto|left; apply Rinv_0_lt_compat; auto]).
  assert (psi / psir < million / psir) by (apply Rmult_lt_compat_r; auto; apply Rinv_0_lt_compat; auto).
  assert (L : 0 < ln (1 + million / psir)) by (apply ln_gt0; lra).
  assert (ln (1 + psi / psir) < ln (1 + million / psir)) by (apply ln_increasing; lra).
  assert (ln (1 + psi / psir) / ln (1 + million / psir) < 1); [|lra]. apply (Rmult_lt_reg_r (ln (1 + million / psir))); auto. unfold Rdiv. rewrite Rmult_assoc, Rinv_l by lra. lra.
Qed.
Lemma corr_decr c psir x y : 0 < psir -> 0 <= x -> x < y -> match c with None => corr c psir y < corr c psir x | Some _ => corr c psir y = corr c psir x end.
Proof.
  intros Hr Hx Hy. destruct c as [v|]; [reflexivity|]. unfold corr.
  assert (0 <= x / psir) by (apply Rmult_le_pos; [auto|left; apply Rinv_0_lt_compat; auto]).
  assert (x / psir < y / psir) by (apply Rmult_lt_compat_r; auto; apply Rinv_0_lt_compat; auto).
  assert (0 < million / psir) by (apply Rmult_lt_0_compat; [unfold million; lra|apply Rinv_0_lt_compat; auto]).
  assert (L : 0 < ln (1 + million / psir)) by (apply ln_gt0; lra).
  assert (ln (1 + x / psir) < ln (1 + y / psir)) by (apply ln_increasing; lra).
  assert (ln (1 + x / psir) / ln (1 + million / psir) < ln (1 + y / psir) / ln (1 + million / psir)); [|lra].
  apply Rmult_lt_compat_r; auto. apply Rinv_0_lt_compat; auto.
Qed.
Lemma corr_end psir : 0 < psir -> corr None psir million = 0.
Proof.
  intros Hr. unfold corr. assert (0 < million / psir) by (apply Rmult_lt_0_compat; [unfold million; lra|apply Rinv_0_lt_compat; auto]).
  assert (L : 0 < ln (1 + million / psir)) by (apply ln_gt0; lra). field. lra.
Qed.
Lemma corr_start psir : corr None psir 0 = 1.
Proof. unfold corr. unfold Rdiv at 2. rewrite Rmult_0_l, Rplus_0_r, ln_1. unfold Rdiv. ring. Qed.

(** ** Fredlund and Xing *)
Section FredlundXing.
Variable s : FX.
Hypothesis Ha : 0 < fx_a s.
Hypothesis Hr : 0 < fx_psir s.
Let a := fx_a s. Let n := fx_n s. Let m := fx_m s. Let ws := fx_ws s. Let psir := fx_psir s.
Lemma fx_base psi : 1 <= ln (exp 1 + fpow (psi / a) n).
Proof using. apply ln_ge1. pose proof (fpow_ge0 (psi / a) n). lra. Qed.
Theorem fx_derivative psi : 0 < psi -> is_derive (fx_w s) psi (fx_dw s psi).
Proof using Ha Hr.
  intros Hp. pose proof (fx_base psi) as HB.
  assert (D0 : forall x, 0 < x -> 0 < x / a) by (intros x Hx; apply Rmult_lt_0_compat; auto; apply Rinv_0_lt_compat; auto).
  set (f := fun psi => match fx_corr s with None => 1 - ln (1 + psi / psir) / ln (1 + million / psir) | Some c => c end * ws * exp (- m * ln (ln (exp 1 + exp (n * ln (psi / a)))))).
  assert (EF : forall x, 0 < x -> fx_w s x = f x).
  { intros x Hx. unfold fx_w, f, corr. fold a n m ws psir. pose proof (fx_base x). rewrite (fpow_pos (ln _)) by lra. rewrite fpow_pos by (apply D0; auto).
    unfold Rdiv at 1. replace (- m * ln (ln (exp 1 + exp (n * ln (x / a))))) with (- (m * ln (ln (exp 1 + exp (n * ln (x / a)))))) by ring. rewrite exp_Ropp. destruct (fx_corr s); reflexivity. }
  apply (is_derive_ext_loc f).
  { exists (mkposreal _ Hp). intros y Hy. symmetry. apply EF. unfold ball in Hy; cbn in Hy; unfold AbsRing_ball, abs, minus, plus, opp in Hy; cbn in Hy. apply Rabs_def2 in Hy. lra. }
  assert (P1 : 0 < psi / psir) by (apply Rmult_lt_0_compat; auto; apply Rinv_0_lt_compat; auto).
  assert (P2 : 0 < ln (1 + million / psir)) by (apply ln_gt0; assert (0 < million / psir) by (apply Rmult_lt_0_compat; [unfold million; lra|apply Rinv_0_lt_compat; auto]); lra).
  assert (HX : 0 < psi / a) by auto. set (X := exp (n * ln (psi / a))). assert (X0 : 0 < X) by apply exp_pos.
  assert (E1 : 0 < exp 1) by apply exp_pos. rewrite (fpow_pos (psi / a)) in HB by auto. change (1 <= ln (exp 1 + X)) in HB.
  unfold fx_dw. fold a n m ws psir. rewrite !(fpow_pos (psi / a)) by auto. unfold Rpower at 1. 
  replace (Rpower (psi / a) n) with X by reflexivity. rewrite (Rplus_comm X (exp 1)). rewrite (fpow_pos (ln _)) by lra. unfold Rpower.
  set (Lg := ln (exp 1 + X)) in *. unfold f. change (psi * / psir) with (psi / psir) in *.
  destruct (fx_corr s) as [c|].
  - auto_derive.
    + change (psi * / a) with (psi / a). fold X. fold Lg. repeat split; auto; lra.
    + change (psi * / a) with (psi / a). fold X. fold Lg. field. repeat split; try lra. intros E; fold a in Ha; lra. 
  - auto_derive.
    + change (psi * / a) with (psi / a). change (psi * / psir) with (psi / psir). fold X. fold Lg. repeat split; auto; lra.
    + change (psi * / a) with (psi / a). change (psi * / psir) with (psi / psir). fold X. fold Lg. rewrite (Rplus_comm 1 (psi / psir)).
      field. fold a in Ha. fold psir in Hr. repeat split; try lra; try (intros E; lra).
Qed.
Hypothesis Hn : 0 < n.
Hypothesis Hm : 0 < m.
Hypothesis Hws : 0 < ws.
(** where the curve is meant to be used *)
Let usable psi : Prop := 0 <= psi /\ match fx_corr s with None => psi <= million | Some c => 0 < c end.
Lemma fx_den_ge1 psi : 1 <= fpow (ln (exp 1 + fpow (psi / a) n)) m.
Proof using Hm.
  pose proof (fx_base psi) as [H|<-]; [|rewrite fpow_1; lra]. left. apply Rle_lt_trans with (fpow 1 m); [rewrite fpow_1; lra|]. apply fpow_lt; auto. split; lra.
Qed.
Lemma fx_den_incr x y : 0 <= x -> x < y -> fpow (ln (exp 1 + fpow (x / a) n)) m < fpow (ln (exp 1 + fpow (y / a) n)) m.
Proof using Ha Hn Hm.
  intros Hx Hy. pose proof (fx_base x). apply fpow_lt; auto. split; [lra|]. pose proof (fpow_ge0 (x / a) n). pose proof (exp_pos 1).
  apply ln_increasing; [lra|]. apply Rplus_lt_compat_l. apply fpow_lt; auto. split; [apply Rmult_le_pos; auto; left; apply Rinv_0_lt_compat; auto|].
  apply Rmult_lt_compat_r; auto. apply Rinv_0_lt_compat; auto.
Qed.
Theorem fx_decreasing x y : usable x -> usable y -> x < y -> fx_w s y < fx_w s x.
Proof using Ha Hr Hn Hm Hws.
  intros (Ux & Cx) (Uy & Cy) L. unfold fx_w. fold a n m ws psir. pose proof (fx_den_ge1 x) as D1. pose proof (fx_den_incr x y Ux L) as D2.
  set (dx := fpow (ln (exp 1 + fpow (x / a) n)) m) in *. set (dy := fpow (ln (exp 1 + fpow (y / a) n)) m) in *.
  assert (I : / dy < / dx) by (apply Rinv_lt_contravar; [apply Rmult_lt_0_compat; lra|auto]). assert (0 < / dy) by (apply Rinv_0_lt_compat; lra).
  assert (C1 : 0 < corr (fx_corr s) psir x) by (apply corr_pos; auto; destruct (fx_corr s); auto; lra).
  assert (C2 : corr (fx_corr s) psir y <= corr (fx_corr s) psir x) by (pose proof (corr_decr (fx_corr s) psir x y Hr Ux L) as C; destruct (fx_corr s); lra).
  unfold Rdiv. apply Rle_lt_trans with (corr (fx_corr s) psir x * ws * / dy).
  - apply Rmult_le_compat_r; [lra|]. apply Rmult_le_compat_r; lra.
  - apply Rmult_lt_compat_l; auto. apply Rmult_lt_0_compat; auto.
Qed.
Theorem fx_start : fx_corr s = None -> fx_w s 0 = ws.
Proof using Ha.
  intros E. unfold fx_w. rewrite E, corr_start. fold a. replace (0 / a) with 0 by (unfold Rdiv; ring). rewrite fpow_0, Rplus_0_r, ln_exp, fpow_1. unfold ws. field.
Qed.
Theorem fx_end : fx_corr s = None -> fx_w s million = 0.
Proof using Hr. intros E. unfold fx_w. rewrite E, corr_end by auto. unfold Rdiv. ring. Qed.
Theorem fx_slope_negative psi : 0 < psi -> match fx_corr s with None => psi <= million | Some c => 0 < c end -> fx_dw s psi < 0.
Proof using Ha Hr Hn Hm Hws.
  intros Hp U. assert (D0 : 0 < psi / a) by (apply Rmult_lt_0_compat; auto; apply Rinv_0_lt_compat; auto).
  pose proof (fx_base psi) as HB. unfold fx_dw. fold a n m ws psir. rewrite (fpow_pos (psi / a)) in * by auto. rewrite (Rplus_comm (Rpower (psi / a) n)) in *.
  rewrite (fpow_pos (ln _)) by lra. pose proof (Rpower_gt0 (psi / a) n). pose proof (exp_pos 1). set (Lg := ln (exp 1 + Rpower (psi / a) n)) in *. pose proof (Rpower_gt0 Lg (- m)).
  assert (T : 0 < m * n * ws * Rpower (psi / a) n * Rpower Lg (- m) / (psi * (exp 1 + Rpower (psi / a) n) * Lg)).
  { apply Rmult_lt_0_compat; [repeat apply Rmult_lt_0_compat; auto|]. apply Rinv_0_lt_compat. repeat apply Rmult_lt_0_compat; lra. }
  set (T0 := m * n * ws * Rpower (psi / a) n * Rpower Lg (- m) / (psi * (exp 1 + Rpower (psi / a) n) * Lg)) in *.
  assert (N : psi * (exp 1 + Rpower (psi / a) n) * Lg <> 0) by (intros E; assert (0 < psi * (exp 1 + Rpower (psi / a) n) * Lg) by (repeat apply Rmult_lt_0_compat; lra); lra).
  destruct (fx_corr s) as [c|] eqn:Ec.
  - match goal with |- ?e < 0 => replace e with (- (c * T0)) by (unfold T0; unfold Rdiv; ring) end. assert (0 < c * T0) by (apply Rmult_lt_0_compat; auto). lra.
  - assert (P1 : 0 < psi / psir) by (apply Rmult_lt_0_compat; auto; apply Rinv_0_lt_compat; auto).
    assert (P3 : 0 < million / psir) by (apply Rmult_lt_0_compat; [unfold million; lra|apply Rinv_0_lt_compat; auto]).
    assert (P2 : 0 < ln (1 + million / psir)) by (apply ln_gt0; lra).
    assert (C : 0 <= 1 - ln (psi / psir + 1) / ln (1 + million / psir)).
    { destruct U as [U|U]; [left; rewrite Rplus_comm; apply (corr_pos None psir psi); auto; lra|]. rewrite U, Rplus_comm. right. symmetry. apply (corr_end psir). auto. }
    assert (T2 : 0 < ws * Rpower Lg (- m) / (psir * (psi / psir + 1) * ln (1 + million / psir))).
    { apply Rmult_lt_0_compat; [apply Rmult_lt_0_compat; auto|]. apply Rinv_0_lt_compat. repeat apply Rmult_lt_0_compat; auto; lra. }
    match goal with |- ?e - ?g < 0 => replace e with (- ((1 - ln (psi / psir + 1) / ln (1 + million / psir)) * T0)) by (unfold T0; unfold Rdiv; ring) end.
    assert (0 <= (1 - ln (psi / psir + 1) / ln (1 + million / psir)) * T0) by (apply Rmult_le_pos; lra). lra.
Qed.
End FredlundXing.

(** ** Pham and Fredlund *)
Section PhamFredlund.
Variable s : PF.
Hypothesis Ha : 0 < pf_a s.
Hypothesis Hr : 0 < pf_psir s.
Let a := pf_a s. Let b := pf_b s. Let ws := pf_ws s. Let wr := pf_wr s. Let s1 := pf_s1 s. Let psir := pf_psir s.
Lemma ln10_pos : 0 < ln 10. Proof. apply ln_gt0. lra. Qed.
Theorem pf_derivative psi : 0 < psi -> is_derive (pf_w s) psi (pf_dw s psi).
Proof using Ha Hr.
  intros Hp. pose proof ln10_pos as L10.
  set (f := fun psi => match pf_corr s with None => 1 - ln (1 + psi / psir) / ln (1 + million / psir) | Some c => c end * ((ws - s1 * (ln psi / ln 10) - wr) * a / (exp (b * ln psi) + a) + wr)).
  assert (EF : forall x, 0 < x -> pf_w s x = f x).
  { intros x Hx. unfold pf_w, f, corr, log10. fold a b ws wr s1 psir. rewrite fpow_pos by auto. destruct (pf_corr s); reflexivity. }
  apply (is_derive_ext_loc f).
  { exists (mkposreal _ Hp). intros y Hy. symmetry. apply EF. unfold ball in Hy; cbn in Hy; unfold AbsRing_ball, abs, minus, plus, opp in Hy; cbn in Hy. apply Rabs_def2 in Hy. lra. }
  assert (P1 : 0 < psi / psir) by (apply Rmult_lt_0_compat; auto; apply Rinv_0_lt_compat; auto).
  assert (P2 : 0 < ln (1 + million / psir)) by (apply ln_gt0; assert (0 < million / psir) by (apply Rmult_lt_0_compat; [unfold million; lra|apply Rinv_0_lt_compat; auto]); lra).
  unfold pf_dw. fold a b ws wr s1 psir. rewrite !fpow_pos by auto. unfold Rpower. set (X := exp (b * ln psi)). assert (X0 : 0 < X) by apply exp_pos. fold a in Ha. fold psir in Hr.
  unfold f. destruct (pf_corr s) as [c|].
  - auto_derive.
    + fold X. repeat split; auto; try lra; intros E; lra.
    + fold X. field. repeat split; intros E; lra.
  - auto_derive.
    + change (psi * / psir) with (psi / psir). change (million * / psir) with (million / psir). fold X. repeat split; auto; try lra; intros E; lra.
    + change (psi * / psir) with (psi / psir). change (million * / psir) with (million / psir). fold X. rewrite (Rplus_comm 1 (psi / psir)). field. repeat split; intros E; lra.
Qed.
Hypothesis Hb : 0 < b.
Hypothesis Hwr : 0 <= wr.
Hypothesis Hs1 : 0 <= s1.
Lemma log10_incr x y : 0 < x -> x < y -> log10 x < log10 y.
Proof using. intros. unfold log10. apply Rmult_lt_compat_r; [apply Rinv_0_lt_compat, ln10_pos|apply ln_increasing; auto]. Qed.
Lemma pf_inner x y : 0 < x -> x < y -> wr < ws - s1 * log10 y ->
  0 < (ws - s1 * log10 y - wr) * a / (fpow y b + a) + wr < (ws - s1 * log10 x - wr) * a / (fpow x b + a) + wr.
Proof using Ha Hb Hwr Hs1.
  intros Hx Hy H. pose proof (log10_incr x y Hx Hy) as L. assert (s1 * log10 x <= s1 * log10 y) by (apply Rmult_le_compat_l; lra).
  pose proof (fpow_lt x y b Hb ltac:(lra)) as F. pose proof (fpow_ge0 x b). fold a in Ha.
  assert (I : / (fpow y b + a) < / (fpow x b + a)) by (apply Rinv_lt_contravar; [apply Rmult_lt_0_compat; lra|lra]). assert (I0 : 0 < / (fpow y b + a)) by (apply Rinv_0_lt_compat; lra).
  set (p := ws - s1 * log10 y - wr) in *. set (q := ws - s1 * log10 x - wr) in *. assert (0 < p) by (unfold p; lra). assert (p <= q) by (unfold p, q; lra).
  unfold Rdiv. split.
  - assert (0 < p * a * / (fpow y b + a)) by (repeat apply Rmult_lt_0_compat; auto). lra.
  - apply Rplus_lt_compat_r. apply Rlt_le_trans with (p * a * / (fpow x b + a)).
    + apply Rmult_lt_compat_l; auto. apply Rmult_lt_0_compat; auto.
    + apply Rmult_le_compat_r; [lra|]. apply Rmult_le_compat_r; lra.
Qed.
Theorem pf_decreasing x y : 0 < x -> x < y -> wr < ws - s1 * log10 y -> match pf_corr s with None => y <= million | Some c => 0 < c end -> pf_w s y < pf_w s x.
Proof using Ha Hr Hb Hwr Hs1.
  intros Hx Hy H C. destruct (pf_inner x y Hx Hy H) as (I1 & I2). unfold pf_w. fold a b ws wr s1 psir.
  set (p := (ws - s1 * log10 y - wr) * a / (fpow y b + a) + wr) in *. set (q := (ws - s1 * log10 x - wr) * a / (fpow x b + a) + wr) in *.
  assert (C1 : 0 < corr (pf_corr s) psir x) by (apply corr_pos; auto; [lra|destruct (pf_corr s); auto; lra]).
  assert (C2 : corr (pf_corr s) psir y <= corr (pf_corr s) psir x) by (pose proof (corr_decr (pf_corr s) psir x y Hr ltac:(lra) Hy) as K; destruct (pf_corr s); lra).
  apply Rle_lt_trans with (corr (pf_corr s) psir x * p); [apply Rmult_le_compat_r; lra|apply Rmult_lt_compat_l; auto].
Qed.
Theorem pf_end : pf_corr s = None -> pf_w s million = 0.
Proof using Hr. intros E. unfold pf_w. rewrite E, corr_end by auto. unfold Rdiv. ring. Qed.
End PhamFredlund.
Lemma pf_init_psir ws a b wr s1 psir c : 0 < a -> b <> 0 -> match psir with None => True | Some p => 0 < p end ->
  0 < pf_psir (pf_init ws a b wr s1 psir c) /\ (psir = None -> fpow (pf_psir (pf_init ws a b wr s1 psir c)) b = 27 / 10 * a).
Proof.
  intros Ha Hb H. unfold pf_init. cbn [pf_psir]. destruct psir as [p|]; [split; [auto|discriminate]|].
  rewrite fpow_pos by lra. split; [apply Rpower_gt0|]. intros _. rewrite fpow_pos by apply Rpower_gt0. rewrite Rpower_mult. replace (1 / b * b) with 1 by (field; auto). apply Rpower_1. lra.
Qed.
Theorem pf_slope_negative s psi : 0 < pf_a s -> 0 < pf_psir s -> 0 < pf_b s -> 0 <= pf_wr s -> 0 <= pf_s1 s -> 0 < psi -> pf_wr s < pf_ws s - pf_s1 s * log10 psi ->
  match pf_corr s with None => psi <= million | Some c => 0 < c end -> pf_dw s psi < 0.
Proof.
  intros Ha Hr Hb Hwr Hs1 Hp Hw U. pose proof ln10_pos as L10. unfold pf_dw.
  set (a := pf_a s) in *. set (b := pf_b s) in *. set (s1 := pf_s1 s) in *. set (psir := pf_psir s) in *. rewrite fpow_pos by auto. set (X := Rpower psi b). assert (X0 : 0 < X) by apply Rpower_gt0.
  set (p := - pf_wr s + pf_ws s - s1 * ln psi / ln 10). assert (P0 : 0 < p) by (unfold log10 in Hw; unfold p, Rdiv in *; lra).
  assert (T1 : 0 < a * b * X * p / (psi * (a + X) ^ 2)).
  { apply Rmult_lt_0_compat; [repeat apply Rmult_lt_0_compat; auto|]. apply Rinv_0_lt_compat. apply Rmult_lt_0_compat; auto. apply pow_lt. lra. }
  assert (T2 : 0 <= a * s1 / (ln 10 * psi * (a + X))).
  { apply Rmult_le_pos; [apply Rmult_le_pos; lra|]. left. apply Rinv_0_lt_compat. repeat apply Rmult_lt_0_compat; lra. }
  set (t1 := a * b * X * p / (psi * (a + X) ^ 2)) in *. set (t2 := a * s1 / (ln 10 * psi * (a + X))) in *.
  assert (EI : - a * b * X * p / (psi * (a + X) ^ 2) - t2 = - (t1 + t2)) by (unfold t1, Rdiv; ring).
  rewrite EI. assert (0 < t1 + t2) by lra.
  destruct (pf_corr s) as [c|].
  - assert (0 < c * (t1 + t2)) by (apply Rmult_lt_0_compat; auto). lra.
  - assert (P1 : 0 < psi / psir) by (apply Rmult_lt_0_compat; auto; apply Rinv_0_lt_compat; auto).
    assert (P3 : 0 < million / psir) by (apply Rmult_lt_0_compat; [unfold million; lra|apply Rinv_0_lt_compat; auto]).
    assert (P2 : 0 < ln (1 + million / psir)) by (apply ln_gt0; lra).
    assert (C : 0 <= 1 - ln (psi / psir + 1) / ln (1 + million / psir)).
    { destruct U as [U|U]; [left; rewrite Rplus_comm; apply (corr_pos None psir psi); auto; lra|]. rewrite U, Rplus_comm. right. symmetry. apply (corr_end psir). auto. }
    assert (T3 : 0 < (a * p / (a + X) + pf_wr s) / (psir * (psi / psir + 1) * ln (1 + million / psir))).
    { assert (0 < a * p / (a + X)) by (apply Rmult_lt_0_compat; [apply Rmult_lt_0_compat; auto|apply Rinv_0_lt_compat; lra]).
      apply Rmult_lt_0_compat; [lra|]. apply Rinv_0_lt_compat. repeat apply Rmult_lt_0_compat; auto; lra. }
    assert (0 <= (1 - ln (psi / psir + 1) / ln (1 + million / psir)) * (t1 + t2)) by (apply Rmult_le_pos; lra). lra.
Qed.
(** The slopes are continuous. *)
Lemma fx_dw_continuous s psi : 0 < fx_a s -> 0 < fx_psir s -> 0 < psi -> continuous (fx_dw s) psi.
Proof.
  intros Ha Hr Hp. set (a := fx_a s) in *. set (n := fx_n s). set (m := fx_m s). set (ws := fx_ws s). set (psir := fx_psir s) in *.
  assert (D0 : forall x, 0 < x -> 0 < x / a) by (intros x Hx; apply Rmult_lt_0_compat; auto; apply Rinv_0_lt_compat; auto).
  set (X := fun x => exp (n * ln (x / a))). set (Lg := fun x => ln (X x + exp 1)).
  assert (LX : forall x, 1 < X x + exp 1) by (intros x; assert (0 < X x) by apply exp_pos; pose proof (exp_ineq1 1 ltac:(lra)); lra).
  assert (L0 : forall x, 0 < Lg x) by (intros x; apply ln_gt0, LX).
  assert (P3 : 0 < million / psir) by (apply Rmult_lt_0_compat; [unfold million; lra|apply Rinv_0_lt_compat; auto]).
  assert (P2 : 0 < ln (1 + million / psir)) by (apply ln_gt0; lra).
  set (f := fun x => match fx_corr s with
     | None => - m * n * ws * X x * (1 - ln (x / psir + 1) / ln (1 + million / psir)) * exp (- m * ln (Lg x)) / (x * (X x + exp 1) * Lg x) - ws * exp (- m * ln (Lg x)) / (psir * (x / psir + 1) * ln (1 + million / psir))
     | Some c => c * (- m * n * ws * X x * exp (- m * ln (Lg x)) / (x * (X x + exp 1) * Lg x)) end).
  assert (EF : forall x, 0 < x -> fx_dw s x = f x).
  { intros x Hx. unfold fx_dw, f. fold a n m ws psir. rewrite !(fpow_pos (x / a)) by auto. change (Rpower (x / a) n) with (X x). change (ln (X x + exp 1)) with (Lg x). rewrite (fpow_pos (Lg x)) by auto. reflexivity. }
  apply (continuous_ext_loc _ f).
  { exists (mkposreal _ Hp). intros y Hy. symmetry. apply EF. unfold ball in Hy; cbn in Hy; unfold AbsRing_ball, abs, minus, plus, opp in Hy; cbn in Hy. apply Rabs_def2 in Hy. lra. }
  assert (P1 : 0 < psi / psir) by (apply Rmult_lt_0_compat; auto; apply Rinv_0_lt_compat; auto).
  apply (ex_derive_continuous (V := R_NormedModule)). specialize (LX psi). specialize (L0 psi). specialize (D0 psi Hp). pose proof (exp_pos (n * ln (psi / a))).
  assert (NZ : forall x, 0 < x -> x <> 0) by (intros x Hx E; lra).
  unfold f. destruct (fx_corr s) as [c|]; unfold X, Lg; unfold X in *; unfold Lg in *; auto_derive; unfold X in *; change (psi * / a) with (psi / a); change (psi * / psir) with (psi / psir); change (million * / psir) with (million / psir);
    repeat split; auto; try lra; apply NZ; repeat apply Rmult_lt_0_compat; auto; lra.
Qed.
Lemma pf_dw_continuous s psi : 0 < pf_a s -> 0 < pf_psir s -> 0 < psi -> continuous (pf_dw s) psi.
Proof.
  intros Ha Hr Hp. pose proof ln10_pos as L10. set (a := pf_a s) in *. set (b := pf_b s). set (s1 := pf_s1 s). set (psir := pf_psir s) in *. set (q := - pf_wr s + pf_ws s).
  assert (P3 : 0 < million / psir) by (apply Rmult_lt_0_compat; [unfold million; lra|apply Rinv_0_lt_compat; auto]).
  assert (P2 : 0 < ln (1 + million / psir)) by (apply ln_gt0; lra).
  set (f := fun x => match pf_corr s with
     | None => (1 - ln (x / psir + 1) / ln (1 + million / psir)) * (- a * b * exp (b * ln x) * (q - s1 * ln x / ln 10) / (x * (a + exp (b * ln x)) ^ 2) - a * s1 / (ln 10 * x * (a + exp (b * ln x))))
         - (a * (q - s1 * ln x / ln 10) / (a + exp (b * ln x)) + pf_wr s) / (psir * (x / psir + 1) * ln (1 + million / psir))
     | Some c => c * (- a * b * exp (b * ln x) * (q - s1 * ln x / ln 10) / (x * (a + exp (b * ln x)) ^ 2) - a * s1 / (ln 10 * x * (a + exp (b * ln x)))) end).
  assert (EF : forall x, 0 < x -> pf_dw s x = f x).
  { intros x Hx. unfold pf_dw, f. fold a b s1 psir q. rewrite !fpow_pos by auto. reflexivity. }
  apply (continuous_ext_loc _ f).
  { exists (mkposreal _ Hp). intros y Hy. symmetry. apply EF. unfold ball in Hy; cbn in Hy; unfold AbsRing_ball, abs, minus, plus, opp in Hy; cbn in Hy. apply Rabs_def2 in Hy. lra. }
  assert (P1 : 0 < psi / psir) by (apply Rmult_lt_0_compat; auto; apply Rinv_0_lt_compat; auto).
  pose proof (exp_pos (b * ln psi)) as EX. assert (NZ : forall x, 0 < x -> x <> 0) by (intros x Hx E; lra).
  apply (ex_derive_continuous (V := R_NormedModule)). unfold f. destruct (pf_corr s) as [c|]; auto_derive; change (psi * / psir) with (psi / psir); change (million * / psir) with (million / psir);
    repeat split; auto; try lra; apply NZ; repeat apply Rmult_lt_0_compat; auto; lra.
Qed.

(** * The relative permeability from a soil water characteristic curve *)
From Coq Require Import Reals List ZArith Lia Lra Bool.
From Coquelicot Require Import Coquelicot.
From Verif Require Import Base ConstitutiveModel SwccModel SwccProofs.
Import ListNotations.
Open Scope R_scope.

Lemma rsum_S n f : rsum (S n) f = rsum n f + f n.
Proof.
  unfold rsum. rewrite seq_S, map_app, fold_right_app. cbn. generalize (map f (seq 0 n)). intros l. rewrite Rplus_0_r. induction l as [|x l IH]; cbn; [ring|rewrite IH; ring].
Qed.
Lemma rsum_ext n f g : (forall i, (i < n)%nat -> f i = g i) -> rsum n f = rsum n g.
Proof. intros H. induction n as [|n IH]; [reflexivity|]. rewrite !rsum_S, IH, H; auto. Qed.
Lemma rsum_scal n c f : rsum n (fun i => c * f i) = c * rsum n f.
Proof. induction n as [|n IH]; [unfold rsum; cbn; ring|]. rewrite !rsum_S, IH. ring. Qed.
Lemma rsum_le n f g : (forall i, (i < n)%nat -> f i <= g i) -> rsum n f <= rsum n g.
Proof. intros H. induction n as [|n IH]; [unfold rsum; cbn; lra|]. rewrite !rsum_S. pose proof (H n ltac:(lia)). assert (rsum n f <= rsum n g) by (apply IH; auto). lra. Qed.
Lemma rsum_lt n f g : (1 <= n)%nat -> (forall i, (i < n)%nat -> f i < g i) -> rsum n f < rsum n g.
Proof. intros Hn H. destruct n as [|n]; [lia|]. rewrite !rsum_S. pose proof (H n ltac:(lia)). assert (rsum n f <= rsum n g) by (apply rsum_le; intros i Hi; left; auto). lra. Qed.

(** The midpoint rule with n pieces converges to the integral. *)
Lemma cell_error f a h eps : 0 <= h -> ex_RInt f a (a + h) -> (forall y, a <= y <= a + h -> Rabs (f y - f (a + h * (1 / 2))) <= eps) ->
  Rabs (RInt f a (a + h) - h * f (a + h * (1 / 2))) <= h * eps.
Proof.
  intros Hh Hf He. set (c := f (a + h * (1 / 2))) in *.
  assert (E : RInt f a (a + h) - h * c = RInt (fun y => f y - c) a (a + h)).
  { symmetry. apply is_RInt_unique. pose proof (RInt_correct (V := R_CompleteNormedModule) f a (a + h) Hf) as H1. pose proof (is_RInt_const (V := R_NormedModule) a (a + h) c) as H2.
    pose proof (is_RInt_minus (V := R_NormedModule) _ _ _ _ _ _ H1 H2) as H3. unfold scal in H3; cbn in H3; unfold Hierarchy.mult in H3; cbn in H3.
    replace (RInt f a (a + h) - h * c) with (minus (RInt f a (a + h)) ((a + h - a) * c)); [exact H3|]. unfold minus, plus, opp; cbn. ring. }
  assert (Ex : ex_RInt (fun y => f y - c) a (a + h)).
  { apply (ex_RInt_minus (V := R_NormedModule)); [exact Hf|apply ex_RInt_const]. }
  rewrite E. replace (h * eps) with ((a + h - a) * eps) by ring. apply abs_RInt_le_const; auto; lra.
Qed.
Lemma midpoint_error f a h eps n : 0 <= h -> (forall y, a <= y <= a + h * INR n -> continuous f y) ->
  (forall x y, a <= x <= a + h * INR n -> a <= y <= a + h * INR n -> Rabs (x - y) <= h -> Rabs (f x - f y) <= eps) ->
  Rabs (RInt f a (a + h * INR n) - h * rsum n (fun i => f (a + h * (INR i + 1 / 2)))) <= h * INR n * eps.
Proof.
  intros Hh. induction n as [|n IH]; intros Hc He.
  - cbn [INR]. rewrite Rmult_0_r, Rplus_0_r, RInt_point. unfold rsum; cbn. rewrite Rmult_0_r, Rminus_0_r, Rabs_R0. lra.
  - rewrite S_INR in *. set (b := a + h * INR n) in *. assert (Hb : a <= b) by (unfold b; pose proof (pos_INR n); nra).
    replace (a + h * (INR n + 1)) with (b + h) in * by (unfold b; ring).
    assert (C1 : ex_RInt f a b) by (apply (ex_RInt_continuous (V := R_CompleteNormedModule)); intros z; rewrite Rmin_left, Rmax_right by lra; intros Hz; apply Hc; lra).
    assert (C2 : ex_RInt f b (b + h)) by (apply (ex_RInt_continuous (V := R_CompleteNormedModule)); intros z; rewrite Rmin_left, Rmax_right by lra; intros Hz; apply Hc; lra).
    rewrite <- (RInt_Chasles (V := R_CompleteNormedModule) f a b (b + h) C1 C2). match goal with |- context [plus ?x ?y] => change (plus x y) with (Rplus x y) end.
    rewrite rsum_S. assert (E : a + h * (INR n + 1 / 2) = b + h * (1 / 2)) by (unfold b; ring). rewrite E.
    assert (I1 : Rabs (RInt f a b - h * rsum n (fun i => f (a + h * (INR i + 1 / 2)))) <= h * INR n * eps).
    { apply IH; [intros; apply Hc; lra|intros; apply He; lra]. }
    assert (I2 : Rabs (RInt f b (b + h) - h * f (b + h * (1 / 2))) <= h * eps).
    { apply cell_error; auto. intros y Hy. apply He; try lra. apply Rabs_le. lra. }
    match goal with |- Rabs ?e <= _ => replace e with ((RInt f a b - h * rsum n (fun i => f (a + h * (INR i + 1 / 2)))) + (RInt f b (b + h) - h * f (b + h * (1 / 2)))) by ring end.
    eapply Rle_trans; [apply Rabs_triang|]. lra.
Qed.
Theorem midpoint_converges f a b : a <= b -> (forall y, a <= y <= b -> continuous f y) ->
  is_lim_seq (fun n => (b - a) / INR (S n) * rsum (S n) (fun i => f (a + (b - a) / INR (S n) * (INR i + 1 / 2)))) (RInt f a b).
Proof.
  intros Hab Hc. apply is_lim_seq_spec. intros [eps Heps]. cbn [pos].
  assert (UC : uniform_continuity f (fun c => a <= c <= b)).
  { apply Heine; [apply compact_P3|]. intros x Hx. apply continuity_pt_filterlim. apply Hc. auto. }
  assert (Hd : 0 < eps / (b - a + 1)) by (apply Rmult_lt_0_compat; auto; apply Rinv_0_lt_compat; lra).
  destruct (UC (mkposreal _ Hd)) as (del & Hdel). cbn [pos] in Hdel.
  destruct (archimed_cor1 (del / (b - a + 1))) as (N & HN & HN0).
  { apply Rmult_lt_0_compat; [apply cond_pos|apply Rinv_0_lt_compat; lra]. }
  exists N. intros n Hn. set (h := (b - a) / INR (S n)).
  assert (HS : 0 < INR (S n)) by (apply lt_0_INR; lia). assert (Hh0 : 0 <= h) by (apply Rmult_le_pos; [lra|left; apply Rinv_0_lt_compat; auto]).
  assert (Eb : b = a + h * INR (S n)) by (unfold h; field; lra).
  assert (Hh : h < del).
  { assert (/ INR (S n) <= / INR N) by (apply Rinv_le_contravar; [apply lt_0_INR; lia|apply le_INR; lia]).
    assert (h <= (b - a) * (del / (b - a + 1))) by (unfold h, Rdiv at 1; apply Rmult_le_compat_l; lra).
    assert (0 < del / (b - a + 1)) by (apply Rmult_lt_0_compat; [apply cond_pos|apply Rinv_0_lt_compat; lra]).
    assert ((b - a + 1) * (del / (b - a + 1)) = del) by (field; lra). nra. }
  assert (ME := midpoint_error f a h (eps / (b - a + 1)) (S n) Hh0). rewrite <- Eb in ME.
  specialize (ME Hc). rewrite <- Rabs_Ropp, Ropp_minus_distr. eapply Rle_lt_trans; [apply ME|].
  - intros x y Hx Hy Hxy. left. apply Hdel; auto. lra.
  - replace (h * INR (S n)) with (b - a) by (unfold h; field; lra).
    assert (E : (b - a + 1) * (eps / (b - a + 1)) = eps) by (field; lra). nra.
Qed.

Section Relative.
Variables (w dw : R -> R) (lo : R).
Hypothesis Hlo : 0 < lo.
Hypothesis Hw : forall x, lo <= x <= million -> is_derive w x (dw x).
Hypothesis Hc : forall x, lo <= x <= million -> continuous dw x.
Hypothesis Hneg : forall x, lo <= x <= million -> dw x < 0.
Hypothesis Hdec : forall x y, lo <= x -> x < y -> y <= million -> w y < w x.
Let B := ln million.
(** the integrand *)
Definition gk (w0 y : R) : R := (w (exp y) - w0) * dw (exp y) / exp y.
(** the integral in the numerator and the denominator of the documented formula *)
Definition Kint (w0 psi : R) : R := RInt (gk w0) (ln psi) B.
Lemma mil_pos : 0 < million. Proof using. unfold million. lra. Qed.
Lemma exp_range a y : lo <= a -> ln a <= y <= B -> a <= exp y <= million.
Proof using Hlo.
  intros Ha (H1 & H2). assert (0 < a) by lra. pose proof mil_pos. rewrite <- (exp_ln a) by auto. rewrite <- (exp_ln million) by auto.
  split; [destruct H1 as [H1| ->]; [left; apply exp_increasing; auto|rewrite ?exp_ln; auto; lra]|destruct H2 as [H2| ->]; [left; apply exp_increasing; auto|unfold B; lra]].
Qed.
Lemma gk_continuous w0 a y : lo <= a -> ln a <= y <= B -> continuous (gk w0) y.
Proof using Hlo Hw Hc.
  intros Ha Hy. pose proof (exp_range a y Ha Hy) as R. unfold gk.
  assert (CE : continuous exp y) by (apply (ex_derive_continuous (V := R_NormedModule)); auto_derive; auto).
  apply (continuous_mult (K := R_AbsRing)); [apply (continuous_mult (K := R_AbsRing))|].
  - apply (continuous_minus (V := R_NormedModule)); [|apply continuous_const]. apply continuous_comp; auto. apply (ex_derive_continuous (V := R_NormedModule)). exists (dw (exp y)). apply Hw. lra.
  - apply continuous_comp; auto. apply Hc. lra.
  - apply (ex_derive_continuous (V := R_NormedModule)). pose proof (exp_pos y). auto_derive; lra.
Qed.
Lemma gk_ex w0 a : lo <= a <= million -> ex_RInt (gk w0) (ln a) B.
Proof using Hlo Hw Hc.
  intros (Ha & Hb). assert (ln a <= B) by (destruct Hb as [Hb| ->]; [left; apply ln_increasing; lra|unfold B; lra]).
  apply (ex_RInt_continuous (V := R_CompleteNormedModule)). intros z. rewrite Rmin_left, Rmax_right by auto. intros Hz. apply (gk_continuous w0 a); auto.
Qed.
Lemma midpoints_eq w0 a dy n : midpoints w dw w0 a dy n = rsum n (fun i => gk w0 (a + dy * (INR i + 1 / 2))).
Proof. reflexivity. Qed.
(** The midpoints are inside. *)
Lemma mid_range a n i : lo <= a -> a <= million -> (i < n)%nat -> let y := ln a + (B - ln a) / INR n * (INR i + 1 / 2) in ln a <= y <= B /\ (a < million -> ln a < y < B).
Proof using Hlo.
  intros Ha Hb Hi y. assert (HN : 0 < INR n) by (apply lt_0_INR; lia). assert (LB : ln a <= B) by (destruct Hb as [Hb| ->]; [left; apply ln_increasing; lra|unfold B; lra]).
  assert (HI : INR i + 1 <= INR n) by (rewrite <- S_INR; apply le_INR; lia). pose proof (pos_INR i).
  set (r := (INR i + 1 / 2) / INR n). assert (R : 0 < r < 1).
  { unfold r. split; [apply Rmult_lt_0_compat; [lra|apply Rinv_0_lt_compat; auto]|]. apply (Rmult_lt_reg_r (INR n)); auto. unfold Rdiv. rewrite Rmult_assoc, Rinv_l by lra. lra. }
  assert (Ey : y = ln a + (B - ln a) * r) by (unfold y, r; field; lra). rewrite Ey. split; [nra|]. intros L. assert (ln a < B) by (apply ln_increasing; lra). nra.
Qed.
Lemma gk_nonneg w0 a y : lo <= a -> ln a <= y <= B -> w a <= w0 -> 0 <= gk w0 y.
Proof using Hlo Hneg Hdec.
  intros Ha Hy H0. pose proof (exp_range a y Ha Hy) as R. assert (w (exp y) <= w a) by (destruct (Req_dec a (exp y)) as [<-|N]; [lra|left; apply Hdec; lra]).
  unfold gk. assert (dw (exp y) < 0) by (apply Hneg; lra). assert (0 <= (w0 - w (exp y)) * - dw (exp y)) by (apply Rmult_le_pos; lra).
  replace ((w (exp y) - w0) * dw (exp y)) with ((w0 - w (exp y)) * - dw (exp y)) by ring. apply Rmult_le_pos; auto. left. apply Rinv_0_lt_compat, exp_pos.
Qed.
Lemma gk_pos w0 a y : lo <= a -> ln a < y < B -> w a <= w0 -> 0 < gk w0 y.
Proof using Hlo Hneg Hdec.
  intros Ha Hy H0. pose proof (exp_range a y Ha ltac:(lra)) as R. assert (a < exp y) by (rewrite <- (exp_ln a) at 1 by lra; apply exp_increasing; lra).
  assert (w (exp y) < w a) by (apply Hdec; lra).
  unfold gk. assert (dw (exp y) < 0) by (apply Hneg; lra). assert (0 < (w0 - w (exp y)) * - dw (exp y)) by (apply Rmult_lt_0_compat; lra).
  replace ((w (exp y) - w0) * dw (exp y)) with ((w0 - w (exp y)) * - dw (exp y)) by ring. apply Rmult_lt_0_compat; auto. apply Rinv_0_lt_compat, exp_pos.
Qed.
Lemma gk_mono u v y : lo <= exp y <= million -> u <= v -> gk u y <= gk v y.
Proof using Hneg.
  intros R H. unfold gk. assert (dw (exp y) < 0) by (apply Hneg; lra). apply Rmult_le_compat_r; [left; apply Rinv_0_lt_compat, exp_pos|]. nra.
Qed.
Lemma gk_mono_lt u v y : lo <= exp y <= million -> u < v -> gk u y < gk v y.
Proof using Hneg.
  intros R H. unfold gk. assert (dw (exp y) < 0) by (apply Hneg; lra). apply Rmult_lt_compat_r; [apply Rinv_0_lt_compat, exp_pos|]. nra.
Qed.
Variables (w1 aev : R).
Hypothesis Haev : lo <= aev < million.
Hypothesis Hw1 : w aev <= w1.
Let den n := midpoints w dw w1 (ln aev) ((B - ln aev) / INR n) n.
Lemma den_pos n : (1 <= n)%nat -> 0 < den n * ((B - ln aev) / INR n).
Proof using Hlo Hneg Hdec Haev Hw1.
  intros Hn. assert (HN : 0 < INR n) by (apply lt_0_INR; lia). assert (ln aev < B) by (apply ln_increasing; lra).
  apply Rmult_lt_0_compat; [|apply Rmult_lt_0_compat; [lra|apply Rinv_0_lt_compat; auto]].
  unfold den. rewrite midpoints_eq. replace 0 with (rsum n (fun _ => 0)) by (clear; induction n as [|n IH]; [reflexivity|rewrite rsum_S, IH; ring]).
  apply rsum_lt; auto. intros i Hi. apply (gk_pos w1 aev); auto; [lra|]. apply (proj2 (mid_range aev n i ltac:(lra) ltac:(lra) Hi)). lra.
Qed.
Theorem k_nonneg n psi : (1 <= n)%nat -> lo <= psi <= million -> 0 <= k_rel w dw w1 aev n psi.
Proof using Hlo Hneg Hdec Haev Hw1.
  intros Hn Hp. unfold k_rel. fold B. fold (den n). pose proof (den_pos n Hn). assert (HN : 0 < INR n) by (apply lt_0_INR; lia).
  assert (LB : ln psi <= B) by (destruct (proj2 Hp) as [Hb| ->]; [left; apply ln_increasing; lra|unfold B; lra]).
  apply Rmult_le_pos; [|left; apply Rinv_0_lt_compat; auto]. apply Rmult_le_pos; [|apply Rmult_le_pos; [lra|left; apply Rinv_0_lt_compat; auto]].
  rewrite midpoints_eq. replace 0 with (rsum n (fun _ => 0)) by (clear; induction n as [|n IH]; [reflexivity|rewrite rsum_S, IH; ring]).
  apply rsum_le. intros i Hi. apply (gk_nonneg (w psi) psi); [lra| |lra]. apply (proj1 (mid_range psi n i ltac:(lra) ltac:(lra) Hi)).
Qed.
Theorem k_dry n : k_rel w dw w1 aev n million = 0.
Proof using. unfold k_rel. unfold Rdiv. rewrite Rminus_eq_0. ring. Qed.
Theorem k_entry n : (1 <= n)%nat -> (w aev = w1 -> k_rel w dw w1 aev n aev = 1) /\ (w aev < w1 -> k_rel w dw w1 aev n aev < 1).
Proof using Hlo Hneg Hdec Haev Hw1.
  intros Hn. unfold k_rel. fold B. fold (den n). pose proof (den_pos n Hn) as D. split; intros E.
  - rewrite E. fold (den n). unfold Rdiv at 1. apply Rinv_r. lra.
  - apply (Rmult_lt_reg_r (den n * ((B - ln aev) / INR n))); auto. unfold Rdiv at 1. rewrite Rmult_assoc, Rinv_l, Rmult_1_l, Rmult_1_r by lra.
    assert (HN : 0 < INR n) by (apply lt_0_INR; lia). assert (ln aev < B) by (apply ln_increasing; lra).
    apply Rmult_lt_compat_r; [apply Rmult_lt_0_compat; [lra|apply Rinv_0_lt_compat; auto]|].
    unfold den. rewrite !midpoints_eq. apply rsum_lt; auto. intros i Hi. apply gk_mono_lt; auto.
    pose proof (exp_range aev _ ltac:(lra) (proj1 (mid_range aev n i ltac:(lra) ltac:(lra) Hi))). lra.
Qed.
(** The limit for fine grids *)
Lemma Kint_pos : 0 < Kint w1 aev.
Proof using Hlo Hw Hc Hneg Hdec Haev Hw1.
  assert (ln aev < B) by (apply ln_increasing; lra). unfold Kint. apply RInt_gt_0; auto.
  - intros x Hx. apply (gk_pos w1 aev); auto; lra.
  - intros x Hx. apply (gk_continuous w1 aev); lra.
Qed.
Theorem k_converges psi : lo <= psi <= million -> is_lim_seq (fun n => k_rel w dw w1 aev (S n) psi) (Kint (w psi) psi / Kint w1 aev).
Proof using Hlo Hw Hc Hneg Hdec Haev Hw1.
  intros Hp. assert (LB : ln psi <= B) by (destruct (proj2 Hp) as [Hb| ->]; [left; apply ln_increasing; lra|unfold B; lra]). assert (LA : ln aev <= B) by (left; apply ln_increasing; lra).
  pose proof (midpoint_converges (gk (w psi)) (ln psi) B LB (fun y Hy => gk_continuous (w psi) psi y ltac:(lra) Hy)) as L1.
  pose proof (midpoint_converges (gk w1) (ln aev) B LA (fun y Hy => gk_continuous w1 aev y ltac:(lra) Hy)) as L2.
  pose proof Kint_pos as KP. unfold Kint in *.
  eapply is_lim_seq_ext; [|apply (is_lim_seq_div' _ _ _ _ L1 L2); lra]. intros n. unfold k_rel. rewrite !midpoints_eq. fold B. cbv beta.
  rewrite !(Rmult_comm (rsum _ _)). reflexivity.
Qed.
Theorem k_limit_monotone psi1 psi2 : lo <= psi1 -> psi1 <= psi2 -> psi2 <= million -> Kint (w psi2) psi2 <= Kint (w psi1) psi1.
Proof using Hlo Hw Hc Hneg Hdec.
  intros H1 H2 H3. assert (W : w psi2 <= w psi1) by (destruct H2 as [H2| ->]; [left; apply Hdec; lra|lra]).
  assert (L12 : ln psi1 <= ln psi2) by (destruct H2 as [H2| ->]; [left; apply ln_increasing; lra|lra]).
  assert (L2 : ln psi2 <= B) by (destruct H3 as [H3| ->]; [left; apply ln_increasing; lra|unfold B; lra]).
  unfold Kint. assert (E2 : ex_RInt (gk (w psi1)) (ln psi2) B) by (apply gk_ex; lra).
  assert (E1 : ex_RInt (gk (w psi1)) (ln psi1) (ln psi2)).
  { apply (ex_RInt_continuous (V := R_CompleteNormedModule)). intros z. rewrite Rmin_left, Rmax_right by auto. intros Hz. apply (gk_continuous _ psi1); lra. }
  rewrite <- (RInt_Chasles (V := R_CompleteNormedModule) (gk (w psi1)) (ln psi1) (ln psi2) B E1 E2). match goal with |- context [plus ?x ?y] => change (plus x y) with (Rplus x y) end.
  assert (0 <= RInt (gk (w psi1)) (ln psi1) (ln psi2)) by (apply RInt_ge_0; auto; intros x Hx; apply (gk_nonneg _ psi1); lra).
  assert (RInt (gk (w psi2)) (ln psi2) B <= RInt (gk (w psi1)) (ln psi2) B).
  { apply RInt_le; auto; [apply gk_ex; lra|]. intros x Hx. apply gk_mono; auto. pose proof (exp_range psi2 x ltac:(lra) ltac:(lra)). lra. }
  lra.
Qed.
Theorem k_limit_range psi : aev <= psi <= million -> 0 <= Kint (w psi) psi / Kint w1 aev <= 1.
Proof using Hlo Hw Hc Hneg Hdec Haev Hw1.
  intros Hp. pose proof Kint_pos as KP. pose proof (k_limit_monotone aev psi ltac:(lra) ltac:(lra) ltac:(lra)) as M.
  assert (LA : ln aev <= B) by (left; apply ln_increasing; lra).
  assert (M2 : Kint (w aev) aev <= Kint w1 aev).
  { unfold Kint. apply RInt_le; auto; [apply gk_ex; lra|apply gk_ex; lra|]. intros x Hx. apply gk_mono; auto. pose proof (exp_range aev x ltac:(lra) ltac:(lra)). lra. }
  assert (LB : ln psi <= B) by (destruct (proj2 Hp) as [Hb| ->]; [left; apply ln_increasing; lra|unfold B; lra]).
  assert (M0 : 0 <= Kint (w psi) psi) by (unfold Kint; apply RInt_ge_0; auto; [apply gk_ex; lra|intros x Hx; apply (gk_nonneg _ psi); lra]).
  split; [apply Rmult_le_pos; auto; left; apply Rinv_0_lt_compat; auto|]. apply (Rmult_le_reg_r (Kint w1 aev)); auto. unfold Rdiv. rewrite Rmult_assoc, Rinv_l by lra. lra.
Qed.
End Relative.

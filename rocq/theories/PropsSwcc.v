(** * C103-C107: soil water characteristic curves (swcc.py) *)
From Coq Require Import Reals List ZArith Lia Lra Bool.
From Coquelicot Require Import Coquelicot.
From Verif Require Import Base ConstitutiveModel SwccModel SwccProofs SwccProofs2 SwccProofs3 SpecSwcc.
Import ListNotations.
Open Scope R_scope.

(** ** C103: Fredlund and Xing *)
Definition fx_fit (s : FX) : Prop := 0 < fx_a s /\ 0 < fx_n s /\ 0 < fx_m s /\ 0 < fx_ws s /\ 0 < fx_psir s.
(** The curve is the documented one; its slope is its derivative; it falls strictly from the saturated water content at zero suction to
    nothing at 10^6. *)
Theorem C103_fredlund_xing_curve s : fx_fit s ->
  (forall psi, 0 < psi -> fx_w s psi = doc_fx (fx_a s) (fx_n s) (fx_m s) (fx_ws s) (fx_psir s) (fx_corr s) psi) /\
  (forall psi, 0 < psi -> is_derive (fx_w s) psi (fx_dw s psi)) /\
  (forall psi, 0 < psi -> in_range (fx_corr s) psi -> fx_dw s psi < 0) /\
  (forall x y, 0 <= x -> x < y -> in_range (fx_corr s) y -> fx_w s y < fx_w s x) /\
  (fx_corr s = None -> fx_w s 0 = fx_ws s /\ fx_w s 1000000 = 0 /\ forall psi, 0 < psi < 1000000 -> 0 < fx_w s psi < fx_ws s).
Proof.
  intros (Ha & Hn & Hm & Hws & Hr).
  assert (D : forall x y, 0 <= x -> x < y -> in_range (fx_corr s) y -> fx_w s y < fx_w s x).
  { intros x y H0 L U. apply fx_decreasing; auto; unfold in_range, million in *; destruct (fx_corr s); split; auto; lra. }
  split; [|split; [|split; [|split]]].
  - intros psi Hp. unfold fx_w, doc_fx, corr, doc_C, million.
    assert (0 < psi / fx_a s) by (apply Rmult_lt_0_compat; [|apply Rinv_0_lt_compat]; auto). rewrite (fpow_pos (psi / fx_a s)) by auto.
    pose proof (Rpower_gt0 (psi / fx_a s) (fx_n s)). assert (1 <= ln (exp 1 + Rpower (psi / fx_a s) (fx_n s))) by (apply ln_ge1; lra).
    rewrite fpow_pos by lra. unfold Rdiv. ring.
  - intros psi Hp. apply fx_derivative; auto.
  - intros psi Hp U. apply fx_slope_negative; auto.
  - exact D.
  - intros H. split; [apply fx_start; auto|]. split; [apply fx_end; auto|]. intros psi Hp. split.
    + assert (E : fx_w s 1000000 = 0) by (apply fx_end; auto). rewrite <- E. apply D; [lra|lra|]. rewrite H. unfold in_range. lra.
    + rewrite <- fx_start by auto. apply D; [lra|lra|]. rewrite H. unfold in_range. lra.
Qed.
(** the values of the docstring's example *)
Definition ex_fx : FX := mkFX (277 / 100) (112 / 10) (45 / 100) 1 300 None.
Example ex_fx_fit : fx_fit ex_fx. Proof. repeat split; cbn; lra. Qed.

(** ** C104: Pham and Fredlund *)
Definition pf_fit (s : PF) : Prop := 0 < pf_a s /\ 0 < pf_b s /\ 0 <= pf_wr s /\ 0 <= pf_s1 s /\ 0 < pf_psir s.
(** The water content left after the initial straight part exceeds the residual one. *)
Definition above_residual (s : PF) psi : Prop := pf_wr s < pf_ws s - pf_s1 s * (ln psi / ln 10).
Theorem C104_pham_fredlund_curve s : pf_fit s ->
  (forall psi, 0 < psi -> pf_w s psi = doc_pf (pf_ws s) (pf_a s) (pf_b s) (pf_wr s) (pf_s1 s) (pf_psir s) (pf_corr s) psi) /\
  (forall psi, 0 < psi -> is_derive (pf_w s) psi (pf_dw s psi)) /\
  (forall psi, 0 < psi -> above_residual s psi -> in_range (pf_corr s) psi -> pf_dw s psi < 0) /\
  (forall x y, 0 < x -> x < y -> above_residual s y -> in_range (pf_corr s) y -> pf_w s y < pf_w s x) /\
  (pf_corr s = None -> pf_w s 1000000 = 0).
Proof.
  intros (Ha & Hb & Hwr & Hs1 & Hr). split; [|split; [|split; [|split]]].
  - intros psi Hp. unfold pf_w, doc_pf, corr, doc_C, million. rewrite fpow_pos by auto. unfold log10, Rdiv. ring.
  - intros psi Hp. apply pf_derivative; auto.
  - intros psi Hp A U. apply pf_slope_negative; auto.
  - intros x y Hx L A U. apply pf_decreasing; auto.
  - intros E. apply pf_end; auto.
Qed.
(** The residual suction used when none is given: psir^b = 2.7 a. *)
Theorem C104_residual_suction ws a b wr s1 correction : 0 < a -> 0 < b ->
  0 < pf_psir (pf_init ws a b wr s1 None correction) /\ Rpower (pf_psir (pf_init ws a b wr s1 None correction)) b = 27 / 10 * a /\
  forall p, pf_psir (pf_init ws a b wr s1 (Some p) correction) = p.
Proof.
  intros Ha Hb. destruct (pf_init_psir ws a b wr s1 None correction Ha ltac:(lra) I) as (P & E). split; [auto|]. split; [|reflexivity].
  rewrite <- fpow_pos by auto. auto.
Qed.
Definition ex_pf : PF := pf_init 1 100 1 (5 / 100) (1 / 10) (Some 270) None.
Example ex_pf_fit : pf_fit ex_pf /\ forall psi, 0 < psi -> psi <= 1000000 -> above_residual ex_pf psi.
Proof.
  split; [repeat split; cbn; lra|]. intros psi H0 H. unfold above_residual. cbn. assert (L10 := ln10_pos).
  assert (ln psi <= 6 * ln 10).
  { apply Rle_trans with (ln 1000000); [destruct H as [H| ->]; [left; apply ln_increasing; auto|lra]|]. replace 1000000 with (10 ^ 6) by ring. rewrite ln_pow by lra. cbn [INR]. lra. }
  assert (ln psi / ln 10 <= 6) by (apply (Rmult_le_reg_r (ln 10)); auto; unfold Rdiv; rewrite Rmult_assoc, Rinv_l; lra). lra.
Qed.

(** ** C105: relative permeability by integrating the curve *)
Lemma Kint_doc (w dw : R -> R) lo w0 psi : 0 < lo -> (forall x, lo <= x <= 1000000 -> is_derive w x (dw x)) -> lo <= psi <= 1000000 -> Kint w dw w0 psi = doc_integral w w0 psi.
Proof.
  intros Hlo Hw Hp. unfold Kint, doc_integral, million. apply RInt_ext. intros y. rewrite Rmin_left, Rmax_right by (destruct (proj2 Hp) as [Hb| ->]; [left; apply ln_increasing; lra|lra]).
  intros Hy. unfold gk. assert (Rg : psi <= exp y <= 1000000) by (apply (exp_range lo); auto; [lra|]; unfold million; lra).
  rewrite (is_derive_unique w _ _ (Hw (exp y) ltac:(lra))). unfold Rdiv. match goal with |- ?u = ?v => change (@eq R u v) end. ring.
Qed.
Definition fx_k_fit (s : FX) := fx_fit s /\ match fx_corr s with Some c => 0 < c <= 1 | None => True end.
Lemma fx_in s psi : fx_k_fit s -> psi <= 1000000 -> in_range (fx_corr s) psi.
Proof. intros (_ & H) L. unfold in_range. destruct (fx_corr s); lra. Qed.
Lemma fx_below s aev : fx_k_fit s -> 0 < aev -> aev < 1000000 -> fx_w s aev < fx_ws s.
Proof.
  intros (F & C) H0 H1. destruct (C103_fredlund_xing_curve s F) as (Dc & _ & _ & _ & E). destruct (fx_corr s) as [c|] eqn:Ec; [|apply (proj2 (proj2 (E eq_refl))); lra].
  destruct F as (Ha & Hn & Hm & Hws & Hr). rewrite Dc by auto. unfold doc_fx, doc_C. 
  assert (0 < aev / fx_a s) by (apply Rmult_lt_0_compat; [|apply Rinv_0_lt_compat]; auto). pose proof (Rpower_gt0 (aev / fx_a s) (fx_n s)) as P.
  assert (1 < ln (exp 1 + Rpower (aev / fx_a s) (fx_n s))) by (apply Rle_lt_trans with (ln (exp 1)); [rewrite ln_exp; apply Rle_refl|apply ln_increasing; [apply exp_pos|lra]]).
  set (L := ln (exp 1 + Rpower (aev / fx_a s) (fx_n s))) in *. assert (1 < Rpower L (fx_m s)) by (apply Rle_lt_trans with (Rpower L 0); [rewrite Rpower_O by lra; lra|apply Rpower_lt; lra]).
  assert (/ Rpower L (fx_m s) < 1) by (apply (Rmult_lt_reg_r (Rpower L (fx_m s))); [lra|rewrite Rinv_l; lra]). assert (0 < / Rpower L (fx_m s)) by (apply Rinv_0_lt_compat; lra). unfold Rdiv. set (iv := / Rpower L (fx_m s)) in *. assert (0 < fx_ws s * iv < fx_ws s) by (split; nra). nra.
Qed.
(** For a Fredlund-Xing curve, an air entry suction below 10^6 and any number of intervals: not negative, none at 10^6, below one at the air
    entry suction; as the intervals get finer it tends to the documented ratio of integrals, which lies between 0 and 1 from the air entry
    suction on and never rises with suction. *)
Theorem C105_fx_relative_permeability s aev : fx_k_fit s -> 0 < aev < 1000000 ->
  (forall npts psi, (1 <= npts)%nat -> 0 < psi <= 1000000 -> 0 <= fx_k s aev npts psi) /\
  (forall npts, fx_k s aev npts 1000000 = 0) /\
  (forall npts, (1 <= npts)%nat -> fx_k s aev npts aev < 1) /\
  (forall psi, 0 < psi <= 1000000 -> is_lim_seq (fun n => fx_k s aev (S n) psi) (doc_k (fx_w s) (fx_ws s) aev psi)) /\
  (forall psi, aev <= psi <= 1000000 -> 0 <= doc_k (fx_w s) (fx_ws s) aev psi <= 1) /\
  (forall p q, 0 < p -> p <= q -> q <= 1000000 -> doc_k (fx_w s) (fx_ws s) aev q <= doc_k (fx_w s) (fx_ws s) aev p).
Proof.
  intros K Ae. pose proof (fx_below s aev K ltac:(lra) ltac:(lra)) as W1. destruct K as (F & C). destruct (C103_fredlund_xing_curve s F) as (_ & Dw & Neg & Dec & _).
  assert (Hw : forall lo, 0 < lo -> forall x, lo <= x <= million -> is_derive (fx_w s) x (fx_dw s x)) by (intros; apply Dw; lra).
  assert (Hc : forall lo, 0 < lo -> forall x, lo <= x <= million -> continuous (fx_dw s) x) by (intros; apply fx_dw_continuous; [apply F|apply F|lra]).
  assert (Hneg : forall lo, 0 < lo -> forall x, lo <= x <= million -> fx_dw s x < 0) by (intros; apply Neg; [lra|apply fx_in; [split; auto|unfold million in *; lra]]).
  assert (Hdec : forall lo, 0 < lo -> forall x y, lo <= x -> x < y -> y <= million -> fx_w s y < fx_w s x) by (intros; apply Dec; [lra|lra|apply fx_in; [split; auto|unfold million in *; lra]]).
  assert (Lo : forall psi, 0 < psi -> 0 < Rmin psi aev /\ Rmin psi aev <= psi /\ Rmin psi aev <= aev) by (intros; repeat split; [apply Rmin_pos; lra|apply Rmin_l|apply Rmin_r]).
  assert (Mil : million = 1000000) by reflexivity.
  assert (DK : forall psi, 0 < psi <= 1000000 -> doc_k (fx_w s) (fx_ws s) aev psi = Kint (fx_w s) (fx_dw s) (fx_w s psi) psi / Kint (fx_w s) (fx_dw s) (fx_ws s) aev).
  { intros psi Hp. unfold doc_k. rewrite <- (Kint_doc _ (fx_dw s) psi), <- (Kint_doc _ (fx_dw s) aev); auto; try lra; intros; apply Dw; lra. }
  split; [|split; [|split; [|split; [|split; [intros psi Hp; split|]]]]].
  - intros npts psi Hn Hp. destruct (Lo psi ltac:(lra)) as (L0 & L1 & L2). apply (k_nonneg _ _ (Rmin psi aev)); auto; try lra; intros; try lra; eauto; try (eapply Hneg; eauto; lra); try (eapply Hdec; eauto; lra).
  - intros npts. apply k_dry.
  - intros npts Hn. refine (proj2 (k_entry (fx_w s) (fx_dw s) aev _ _ _ (fx_ws s) aev _ _ npts Hn) W1); first [lra|apply Hneg; lra|apply Hdec; lra].
  - intros psi Hp. rewrite DK by auto. destruct (Lo psi ltac:(lra)) as (L0 & L1 & L2). apply (k_converges _ _ (Rmin psi aev)); auto; try lra; intros; try lra; eauto; try (eapply Hneg; eauto; lra); try (eapply Hdec; eauto; lra).
  - rewrite DK by lra. refine (proj1 (k_limit_range (fx_w s) (fx_dw s) aev _ _ _ _ _ (fx_ws s) aev _ _ psi _)); first [lra|apply Hw; lra|apply Hc; lra|apply Hneg; lra|apply Hdec; lra].
  - rewrite DK by lra. refine (proj2 (k_limit_range (fx_w s) (fx_dw s) aev _ _ _ _ _ (fx_ws s) aev _ _ psi _)); first [lra|apply Hw; lra|apply Hc; lra|apply Hneg; lra|apply Hdec; lra].
  - intros p q H0 H1 H2. rewrite !DK by lra. assert (KP : 0 < Kint (fx_w s) (fx_dw s) (fx_ws s) aev) by (apply (Kint_pos _ _ aev); first [lra|apply Hw; lra|apply Hc; lra|apply Hneg; lra|apply Hdec; lra]).
    apply Rmult_le_compat_r; [left; apply Rinv_0_lt_compat; auto|]. apply (k_limit_monotone _ _ p); first [lra|apply Hw; lra|apply Hc; lra|apply Hneg; lra|apply Hdec; lra].
Qed.
(** Relative: multiplying the saturated water content by a factor changes nothing. *)
Theorem C105_fx_scale_free s aev npts psi f : 0 < f ->
  fx_k (mkFX (fx_a s) (fx_n s) (fx_m s) (f * fx_ws s) (fx_psir s) (fx_corr s)) aev npts psi = fx_k s aev npts psi.
Proof.
  intros Hf. set (s' := mkFX _ _ _ _ _ _). assert (W : forall x, fx_w s' x = f * fx_w s x) by (intros x; unfold fx_w, s'; cbn; unfold Rdiv; ring).
  assert (Dw : forall x, fx_dw s' x = f * fx_dw s x) by (intros x; unfold fx_dw, s'; cbn; destruct (fx_corr s); unfold Rdiv; ring).
  assert (M : forall w0 a dy, midpoints (fx_w s') (fx_dw s') (f * w0) a dy npts = f * f * midpoints (fx_w s) (fx_dw s) w0 a dy npts).
  { intros w0 a dy. unfold midpoints. rewrite <- rsum_scal. apply rsum_ext. intros i _. cbv zeta. rewrite W, Dw. unfold Rdiv. ring. }
  unfold fx_k, k_rel. rewrite W. change (fx_ws s') with (f * fx_ws s). rewrite !M. set (N := midpoints _ _ _ _ _ _). set (D := midpoints _ _ _ _ _ _). set (d1 := _ / INR npts). set (d2 := _ / INR npts).
  destruct (Req_dec (D * d2) 0) as [Z|Z].
  - replace (f * f * D * d2) with (f * f * (D * d2)) by ring. rewrite Z, Rmult_0_r. unfold Rdiv. rewrite Rinv_0. ring.
  - field. repeat split; try lra; intros E; apply Z; rewrite E; ring.
Qed.
Definition pf_k_fit (s : PF) := pf_fit s /\ above_residual s 1000000 /\ match pf_corr s with Some c => 0 < c | None => True end.
(** The same for a Pham-Fredlund curve, where the air entry water content stands in for the saturated one: the value there is exactly one. *)
Theorem C105_pf_relative_permeability s aev : pf_k_fit s -> 0 < aev < 1000000 ->
  (forall npts psi, (1 <= npts)%nat -> 0 < psi <= 1000000 -> 0 <= pf_k s aev npts psi) /\
  (forall npts, pf_k s aev npts 1000000 = 0) /\
  (forall npts, (1 <= npts)%nat -> pf_k s aev npts aev = 1) /\
  (forall psi, 0 < psi <= 1000000 -> is_lim_seq (fun n => pf_k s aev (S n) psi) (doc_k (pf_w s) (pf_w s aev) aev psi)) /\
  (forall psi, aev <= psi <= 1000000 -> 0 <= doc_k (pf_w s) (pf_w s aev) aev psi <= 1) /\
  (forall p q, 0 < p -> p <= q -> q <= 1000000 -> doc_k (pf_w s) (pf_w s aev) aev q <= doc_k (pf_w s) (pf_w s aev) aev p).
Proof.
  intros (F & Ab & C) Ae. pose proof (Rle_refl (pf_w s aev)) as W1. destruct (C104_pham_fredlund_curve s F) as (_ & Dw & Neg & Dec & _).
  assert (AR : forall x, 0 < x <= 1000000 -> above_residual s x).
  { intros x (H0 & H1). unfold above_residual in *. assert (ln x <= ln 1000000) by (destruct H1 as [H1| ->]; [left; apply ln_increasing; auto|lra]). pose proof ln10_pos. assert (0 < / ln 10) by (apply Rinv_0_lt_compat; auto).
    assert (ln x / ln 10 <= ln 1000000 / ln 10) by (apply Rmult_le_compat_r; lra). assert (0 <= pf_s1 s) by apply F. nra. }
  assert (IR : forall x, x <= 1000000 -> in_range (pf_corr s) x) by (intros x L; unfold in_range; destruct (pf_corr s); lra).
  assert (Mil : million = 1000000) by reflexivity.
  assert (Hw : forall lo, 0 < lo -> forall x, lo <= x <= million -> is_derive (pf_w s) x (pf_dw s x)) by (intros; apply Dw; lra).
  assert (Hc : forall lo, 0 < lo -> forall x, lo <= x <= million -> continuous (pf_dw s) x) by (intros; apply pf_dw_continuous; [apply F|apply F|lra]).
  assert (Hneg : forall lo, 0 < lo -> forall x, lo <= x <= million -> pf_dw s x < 0) by (intros; apply Neg; [lra|apply AR; lra|apply IR; lra]).
  assert (Hdec : forall lo, 0 < lo -> forall x y, lo <= x -> x < y -> y <= million -> pf_w s y < pf_w s x) by (intros; apply Dec; [lra|lra|apply AR; lra|apply IR; lra]).
  assert (Lo : forall psi, 0 < psi -> 0 < Rmin psi aev /\ Rmin psi aev <= psi /\ Rmin psi aev <= aev) by (intros; repeat split; [apply Rmin_pos; lra|apply Rmin_l|apply Rmin_r]).
  assert (DK : forall psi, 0 < psi <= 1000000 -> doc_k (pf_w s) (pf_w s aev) aev psi = Kint (pf_w s) (pf_dw s) (pf_w s psi) psi / Kint (pf_w s) (pf_dw s) (pf_w s aev) aev).
  { intros psi Hp. unfold doc_k. rewrite <- (Kint_doc _ (pf_dw s) psi), <- (Kint_doc _ (pf_dw s) aev); auto; try lra; intros; apply Dw; lra. }
  split; [|split; [|split; [|split; [|split; [intros psi Hp; split|]]]]].
  - intros npts psi Hn Hp. destruct (Lo psi ltac:(lra)) as (L0 & L1 & L2). apply (k_nonneg _ _ (Rmin psi aev)); auto; try lra; intros; try lra; eauto; try (eapply Hneg; eauto; lra); try (eapply Hdec; eauto; lra).
  - intros npts. apply k_dry.
  - intros npts Hn. refine (proj1 (k_entry (pf_w s) (pf_dw s) aev _ _ _ (pf_w s aev) aev _ _ npts Hn) eq_refl); first [lra|apply Hneg; lra|apply Hdec; lra].
  - intros psi Hp. rewrite DK by auto. destruct (Lo psi ltac:(lra)) as (L0 & L1 & L2). apply (k_converges _ _ (Rmin psi aev)); auto; try lra; intros; try lra; eauto; try (eapply Hneg; eauto; lra); try (eapply Hdec; eauto; lra).
  - rewrite DK by lra. refine (proj1 (k_limit_range (pf_w s) (pf_dw s) aev _ _ _ _ _ (pf_w s aev) aev _ _ psi _)); first [lra|apply Hw; lra|apply Hc; lra|apply Hneg; lra|apply Hdec; lra].
  - rewrite DK by lra. refine (proj2 (k_limit_range (pf_w s) (pf_dw s) aev _ _ _ _ _ (pf_w s aev) aev _ _ psi _)); first [lra|apply Hw; lra|apply Hc; lra|apply Hneg; lra|apply Hdec; lra].
  - intros p q H0 H1 H2. rewrite !DK by lra. assert (KP : 0 < Kint (pf_w s) (pf_dw s) (pf_w s aev) aev) by (apply (Kint_pos _ _ aev); first [lra|apply Hw; lra|apply Hc; lra|apply Hneg; lra|apply Hdec; lra]).
    apply Rmult_le_compat_r; [left; apply Rinv_0_lt_compat; auto|]. apply (k_limit_monotone _ _ p); first [lra|apply Hw; lra|apply Hc; lra|apply Hneg; lra|apply Hdec; lra].
Qed.
Example ex_k_fit : fx_k_fit ex_fx /\ pf_k_fit ex_pf.
Proof. split; [split; [apply ex_fx_fit|exact I]|]. destruct ex_pf_fit as (A & B). split; [auto|]. split; [apply B; lra|exact I]. Qed.

(** ** C106: relative permeability from the points of a curve *)
Lemma seg_sum_total c k : (k < length c - 1)%nat -> total c k (ym c k) = seg_sum c k.
Proof.
  intros Hk. unfold total, rsum, seg_sum. replace (Nat.pred (length c)) with (k + (length c - 1 - k))%nat by lia. rewrite seq_app, map_app, fold_right_app. cbn [plus Nat.add].
  set (r := fold_right Rplus 0 (map _ (seq k _))) at 1.
  transitivity r.
  - clearbody r. assert (G : forall l r, (forall j, In j l -> (j < k)%nat) -> fold_right Rplus r (map (fun j => if (j <? k)%nat then 0 else term c (ym c k) j) l) = r).
    { clear. induction l as [|j l IH]; intros r H; [reflexivity|]. cbn [map fold_right]. rewrite IH by (intros; apply H; right; auto). rewrite (proj2 (Nat.ltb_lt j k)) by (apply H; left; auto). ring. }
    apply G. intros j Hj. apply in_seq in Hj. lia.
  - unfold r. f_equal. apply map_ext_in. intros j Hj. apply in_seq in Hj. destruct (Nat.ltb_spec j k); [lia|]. reflexivity.
Qed.
(** Between the first and the last suction of the curve the value is the ratio of sums, between 0 and 1, one in the first segment, nothing in
    the last, and never rising; from the last suction on it is an IndexError. *)
Theorem C106_discrete_relative_permeability c : proper_curve c ->
  (forall k psi, (k < length c - 1)%nat -> suction c k <= psi < suction c (S k) -> kwrel_from_discrete_swcc psi c = Ok (seg_sum c k / seg_sum c 0)) /\
  (forall psi, suction c 0 <= psi < suction c (length c - 1) -> exists v, kwrel_from_discrete_swcc psi c = Ok v /\ 0 <= v <= 1) /\
  (forall psi psi' v v', suction c 0 <= psi -> psi <= psi' -> psi' < suction c (length c - 1) ->
     kwrel_from_discrete_swcc psi c = Ok v -> kwrel_from_discrete_swcc psi' c = Ok v' -> v' <= v) /\
  (forall psi, suction c 0 <= psi < suction c 1 -> kwrel_from_discrete_swcc psi c = Ok 1) /\
  (forall psi, suction c (length c - 2) <= psi < suction c (length c - 1) -> kwrel_from_discrete_swcc psi c = Ok 0) /\
  (forall psi, suction c (length c - 1) <= psi -> kwrel_from_discrete_swcc psi c = Err IndexError).
Proof.
  intros (Hl & H0 & Hi & Hd & Hdr). assert (El : Nat.pred (length c) = (length c - 1)%nat) by lia. assert (Hdr' : ys c (Nat.pred (length c)) < ys c 1) by (rewrite El; exact Hdr).
  assert (Eq : forall k psi, (k < length c - 1)%nat -> suction c k <= psi < suction c (S k) -> kwrel_from_discrete_swcc psi c = Ok (seg_sum c k / seg_sum c 0)).
  { intros k psi Hk Hp. rewrite <- !seg_sum_total by lia. apply kwrel_inside; auto. lia. }
  assert (Ex : forall psi, suction c 0 <= psi < suction c (length c - 1) -> exists k, (k < length c - 1)%nat /\ suction c k <= psi < suction c (S k)).
  { intros psi Hp. rewrite <- El in *. apply segment_exists; auto. }
  split; [|split; [|split; [|split; [|split]]]].
  - exact Eq.
  - intros psi Hp. destruct (Ex psi Hp) as (k & Hk & Hs). eexists. split; [apply (Eq k); auto|]. rewrite <- !seg_sum_total by lia. apply kwrel_range; auto. lia.
  - intros psi psi' v v' H1 H2 H3 E E'. destruct (Ex psi ltac:(lra)) as (k & Hk & Hs). destruct (Ex psi' ltac:(lra)) as (k' & Hk' & Hs').
    rewrite (Eq k) in E by auto. rewrite (Eq k') in E' by auto. inversion E; subst v. inversion E'; subst v'. rewrite <- !seg_sum_total by lia. apply kwrel_monotone; auto; [|lia].
    destruct (le_lt_dec k k') as [L|L]; auto. exfalso. assert (suction c (S k') <= suction c k); [|lra].
    destruct (Nat.eq_dec (S k') k) as [->|N]; [lra|]. left. apply (xs_incr c Hi); lia.
  - intros psi Hp. rewrite (Eq 0%nat) by (auto; lia). f_equal. rewrite <- !seg_sum_total by lia. apply kwrel_first; auto.
  - intros psi Hp. rewrite (Eq (length c - 2)%nat) by (try lia; replace (S (length c - 2)) with (length c - 1)%nat by lia; auto). f_equal.
    rewrite <- !seg_sum_total by lia. replace (length c - 2)%nat with (Nat.pred (Nat.pred (length c))) by lia. apply kwrel_last; auto.
  - intros psi Hp. apply kwrel_above; auto. rewrite El. exact Hp.
Qed.
Definition ex_curve : list (R * R) := [(1, 1); (10, 1 / 2); (100, 1 / 4)].
Example ex_curve_proper : proper_curve ex_curve.
Proof.
  unfold proper_curve, suction, water. cbn [ex_curve length nth fst snd Nat.sub]. repeat split; try lra; try lia; intros j Hj; destruct j as [|[|j]]; cbn [nth fst snd]; try lra; lia.
Qed.
(** Below the first suction of the curve the index -1 wraps round to the last segment: the value is never positive, although the soil is wetter
    there than anywhere on the curve. *)
Theorem C106_below_the_curve_refuted :
  (forall c psi, proper_curve c -> psi < suction c 0 ->
     exists v, kwrel_from_discrete_swcc psi c = Ok v /\ v <= 0 /\ (water c (length c - 2) < water c 0 -> v < 0)) /\
  exists c psi, proper_curve c /\ 0 < psi < suction c 0 /\ water c (length c - 2) < water c 0.
Proof.
  split.
  - intros c psi (Hl & H0 & Hi & Hd & Hdr) Hp. replace (length c - 2)%nat with (Nat.pred (Nat.pred (length c))) by lia. apply kwrel_below; auto.
    replace (Nat.pred (length c)) with (length c - 1)%nat by lia. exact Hdr.
  - exists ex_curve, (1 / 2). split; [apply ex_curve_proper|]. split; [unfold suction; cbn; lra|]. unfold water. cbn. lra.
Qed.

(** ** C107: relative air permeability *)
Theorem C107_air_permeability q : 0 < q ->
  (forall sr, 0 < sr < 1 -> karel_air_from_saturation sr q = sqrt (1 - sr) * Rpower (1 - Rpower sr (1 / q)) (2 * q)) /\
  karel_air_from_saturation 0 q = 1 /\ karel_air_from_saturation 1 q = 0 /\
  (forall s1 s2, 0 <= s1 -> s1 < s2 -> s2 <= 1 -> karel_air_from_saturation s2 q < karel_air_from_saturation s1 q) /\
  (forall sr, 0 <= sr <= 1 -> 0 <= karel_air_from_saturation sr q <= 1).
Proof.
  intros Hq. destruct (karel_ends q Hq) as (E0 & E1). split; [|split; [auto|split; [auto|split]]].
  - intros sr Hs. unfold karel_air_from_saturation. rewrite (fpow_pos sr), (fpow_pos (1 - sr)) by lra. assert (0 < 1 / q) by (apply Rmult_lt_0_compat; [lra|apply Rinv_0_lt_compat; auto]).
    assert (Rpower sr (1 / q) < 1) by (apply Rlt_le_trans with (Rpower 1 (1 / q)); [apply Rpower_lt_l; lra|unfold Rpower; rewrite ln_1, Rmult_0_r, exp_0; lra]).
    rewrite fpow_pos by lra. f_equal. replace (1 / 2) with (/ 2) by field. apply Rpower_sqrt. lra.
  - intros. apply karel_decreasing; auto.
  - intros. apply karel_range; auto.
Qed.
Example ex_air : 0 < 1 / 2. Proof. lra. Qed.

(** * Proofs about the void ratio - stress and void ratio - permeability models *)
From Coq Require Import Reals List ZArith Lia Lra Bool.
From Coquelicot Require Import Coquelicot.
From Verif Require Import Base ConstitutiveModel LnBounds.
Import ListNotations.
Open Scope R_scope.

Lemma ln10_pos : 0 < ln 10.
Proof. pose proof ln10_bounds. lra. Qed.
Lemma Rltb_true a b : a < b -> Rltb a b = true.
Proof. unfold Rltb. destruct (Rlt_dec a b); auto; try lra; try contradiction. Qed.
Lemma Rltb_false a b : b <= a -> Rltb a b = false.
Proof. unfold Rltb. destruct (Rlt_dec a b); auto; try lra; try contradiction. Qed.
Lemma Rleb_true a b : a <= b -> Rleb a b = true.
Proof. unfold Rleb. destruct (Rle_dec a b); auto; try lra; try contradiction. Qed.
Lemma Rleb_false a b : b < a -> Rleb a b = false.
Proof. unfold Rleb. destruct (Rle_dec a b); auto; try lra; try contradiction. Qed.
Lemma Reqb_true a b : a = b -> Reqb a b = true.
Proof. unfold Reqb. destruct (Req_EM_T a b); auto; try lra; try contradiction. Qed.
Lemma Reqb_false a b : a <> b -> Reqb a b = false.
Proof. unfold Reqb. destruct (Req_EM_T a b); auto; try lra; try contradiction. Qed.

Lemma log10_div a b : 0 < a -> 0 < b -> log10 (a / b) = (ln a - ln b) / ln 10.
Proof. intros. unfold log10. rewrite ln_div by auto. auto. Qed.
Lemma log10_1 : log10 1 = 0.
Proof. unfold log10. rewrite ln_1. unfold Rdiv. ring. Qed.
Lemma log10_pow10 x : log10 (pow10 x) = x.
Proof. unfold log10, pow10. rewrite ln_exp. pose proof ln10_pos. field. lra. Qed.
Lemma pow10_log10 x : 0 < x -> pow10 (log10 x) = x.
Proof. intros. unfold log10, pow10. pose proof ln10_pos. replace (ln 10 * (ln x / ln 10)) with (ln x) by (field; lra). apply exp_ln; auto. Qed.
Lemma pow10_pos x : 0 < pow10 x.
Proof. apply exp_pos. Qed.
Lemma log10_lt a b : 0 < a -> a < b -> log10 a < log10 b.
Proof. intros. pose proof ln10_pos. unfold log10. apply Rmult_lt_compat_r; [apply Rinv_0_lt_compat; auto|]. apply ln_increasing; auto. Qed.
Lemma log10_le a b : 0 < a -> a <= b -> log10 a <= log10 b.
Proof. intros H [H1| ->]; [left; apply log10_lt; auto|right; auto]. Qed.

Lemma fact_err : Rabs (fact / ln 10 - 1) <= 2 / 10^16.
Proof.
  pose proof ln10_bounds. pose proof ln10_pos. unfold fact.
  replace (23025850929940459 / 10000000000000000 / ln 10 - 1)
    with ((23025850929940459 / 10000000000000000 - ln 10) / ln 10) by (field; lra).
  rewrite Rabs_pos_eq.
  - apply Rmult_le_reg_r with (ln 10); auto. unfold Rdiv at 1. rewrite Rmult_assoc, Rinv_l by lra. lra.
  - apply Rmult_le_pos; [lra|]. left. apply Rinv_0_lt_compat. auto.
Qed.
Lemma lit_err : Rabs (lit_av * ln 10 - 1) <= 1 / 10^16.
Proof. pose proof ln10_bounds. unfold lit_av. apply Rabs_le. lra. Qed.

(** the reference point of the two log lines *)
Definition cc_ref (m : CcCr) (pstress : option R) : R := match pstress with Some p => p | None => cc_siga m end.
Definition cc_eref (m : CcCr) (pstress : option R) : R :=
  match pstress with Some p => cc_ea m - cc_Cc m * log10 (p / cc_siga m) | None => cc_ea m end.
Definition cc_wf (m : CcCr) (pstress : option R) : Prop :=
  0 < cc_siga m /\ match pstress with Some p => 0 < p /\ 0 < cc_Cr m <= cc_Cc m | None => cc_Cc m <> 0 end.
(** slope in use for a stress/void ratio above or below the reference *)
Definition cc_slope (m : CcCr) (pstress : option R) (below : bool) : R :=
  match pstress with Some _ => if below then cc_Cr m else cc_Cc m | None => cc_Cc m end.

Lemma cc_e_value m s p : cc_wf m p -> 0 < s ->
  cc_e_from_stress m s p = cc_eref m p - cc_slope m p (if Rlt_dec s (cc_ref m p) then true else false) * log10 (s / cc_ref m p).
Proof.
  intros (Hs & Hp) H. unfold cc_e_from_stress, cc_eref, cc_slope, cc_ref, get_pstress.
  destruct p as [p|].
  - destruct Hp as (Hp & Hc). destruct (Rlt_dec s p).
    + rewrite Rmax_left by lra. rewrite !log10_div by auto. pose proof ln10_pos. field. lra.
    + rewrite Rmax_right by lra. replace (s / s) with 1 by (field; lra). rewrite log10_1.
      rewrite !log10_div by auto. pose proof ln10_pos. field. lra.
  - rewrite Rmax_left by lra. replace (s / s) with 1 by (field; lra). rewrite log10_1.
    destruct (Rlt_dec s (cc_siga m)); ring.
Qed.
Lemma fact_pos : 0 < fact. Proof. unfold fact. lra. Qed.
Lemma cc_s_value m e p : cc_wf m p ->
  cc_stress_from_e m e p =
  cc_ref m p * exp (fact * ((cc_eref m p - e) / cc_slope m p (if Rlt_dec (cc_eref m p) e then true else false))).
Proof.
  intros (Hs & Hp). unfold cc_stress_from_e, cc_eref, cc_slope, cc_ref. destruct p as [p|].
  - destruct Hp as (Hp & Hc). cbv zeta. set (d := cc_ea m - cc_Cc m * log10 (p / cc_siga m)).
    assert (Hf := fact_pos).
    assert (Hi : / cc_Cc m <= / cc_Cr m) by (apply Rinv_le_contravar; lra).
    assert (0 < / cc_Cc m) by (apply Rinv_0_lt_compat; lra).
    destruct (Rlt_dec d e).
    + rewrite Rmin_right.
      * replace (fact * (d - e) / cc_Cr m) with (fact * ((d - e) / cc_Cr m)) by (unfold Rdiv; ring). ring.
      * apply Rmult_le_compat_l; [lra|].
        assert (exp (fact * (d - e) / cc_Cr m) <= exp (fact * (d - e) / cc_Cc m)); [|lra].
        assert (Hx : fact * (d - e) / cc_Cr m <= fact * (d - e) / cc_Cc m).
        { unfold Rdiv. assert (fact * (d - e) <= 0) by nra. nra. }
        destruct Hx as [Hx|Hx]; [left; apply exp_increasing; auto|rewrite Hx; lra].
    + rewrite Rmin_left.
      * replace (fact * (d - e) / cc_Cc m) with (fact * ((d - e) / cc_Cc m)) by (unfold Rdiv; ring). ring.
      * apply Rmult_le_compat_l; [lra|].
        assert (exp (fact * (d - e) / cc_Cc m) <= exp (fact * (d - e) / cc_Cr m)); [|lra].
        assert (Hx : fact * (d - e) / cc_Cc m <= fact * (d - e) / cc_Cr m).
        { unfold Rdiv. assert (0 <= fact * (d - e)) by nra. nra. }
        destruct Hx as [Hx|Hx]; [left; apply exp_increasing; auto|rewrite Hx; lra].
  - f_equal. f_equal. destruct (Rlt_dec (cc_ea m) e); unfold Rdiv; ring.
Qed.
Lemma cc_slope_ne m p b : cc_wf m p -> cc_slope m p b <> 0.
Proof. intros (_ & H). unfold cc_slope. destruct p; auto. destruct b; lra. Qed.
Lemma cc_ref_pos m p : cc_wf m p -> 0 < cc_ref m p.
Proof. intros (H & H1). unfold cc_ref. destruct p; auto. lra. Qed.

Lemma cc_stress_roundtrip m s p : cc_wf m p -> 0 < s ->
  let s' := cc_stress_from_e m (cc_e_from_stress m s p) p in
  0 < s' /\ Rabs (ln (s' / s)) <= 2 / 10^16 * Rabs (ln (s / cc_ref m p)).
Proof.
  intros Hw Hs s'. pose proof (cc_ref_pos m p Hw) as Hr. pose proof ln10_pos as HL.
  assert (E : s' = cc_ref m p * exp (fact / ln 10 * ln (s / cc_ref m p))).
  { unfold s'. rewrite cc_s_value by auto. rewrite cc_e_value by auto.
    set (b := if Rlt_dec s (cc_ref m p) then true else false).
    assert (Hb : log10 (s / cc_ref m p) = ln (s / cc_ref m p) / ln 10) by auto.
    assert (Hdir : (if Rlt_dec (cc_eref m p) (cc_eref m p - cc_slope m p b * log10 (s / cc_ref m p)) then true else false) = b
                  \/ p = None \/ log10 (s / cc_ref m p) = 0).
    { destruct p as [q|]; [|auto]. destruct Hw as (_ & Hq & Hc). cbn [cc_ref cc_slope] in *.
      unfold b. destruct (Rlt_dec s q).
      - left. assert (log10 (s / q) < 0).
        { rewrite log10_div by auto. assert (ln s < ln q) by (apply ln_increasing; auto).
          apply Rmult_lt_reg_r with (ln 10); auto. unfold Rdiv. rewrite Rmult_assoc, Rinv_l by lra. lra. }
        destruct (Rlt_dec _ _); auto. exfalso. nra.
      - destruct (Req_EM_T s q) as [->|Hne].
        + right. right. replace (q / q) with 1 by (field; lra). apply log10_1.
        + left. assert (0 < log10 (s / q)).
          { rewrite log10_div by auto. assert (ln q < ln s) by (apply ln_increasing; lra).
            apply Rdiv_lt_0_compat; lra. }
          destruct (Rlt_dec _ _); auto. exfalso. nra. }
    set (b' := if Rlt_dec (cc_eref m p) _ then true else false) in *.
    replace (cc_eref m p - (cc_eref m p - cc_slope m p b * log10 (s / cc_ref m p))) with (cc_slope m p b * log10 (s / cc_ref m p)) by ring.
    f_equal. f_equal. destruct Hdir as [-> | [-> | Hz]].
    - rewrite Hb. field. split; [lra|]. apply cc_slope_ne; auto.
    - cbn [cc_slope]. cbn [cc_ref] in *. rewrite Hb. field. split; [lra|]. destruct Hw; auto.
    - rewrite Hz. rewrite Hb in Hz. replace (ln (s / cc_ref m p)) with (ln 10 * (ln (s / cc_ref m p) / ln 10)) by (field; lra).
      rewrite Hz. unfold Rdiv. ring. }
  split.
  - rewrite E. apply Rmult_lt_0_compat; auto. apply exp_pos.
  - assert (El : ln (s' / s) = (fact / ln 10 - 1) * ln (s / cc_ref m p)).
    { rewrite ln_div; auto; [|rewrite E; apply Rmult_lt_0_compat; auto; apply exp_pos].
      rewrite E. rewrite ln_mult; auto; [|apply exp_pos]. rewrite ln_exp. rewrite ln_div by auto. field. lra. }
    rewrite El, Rabs_mult. apply Rmult_le_compat_r; [apply Rabs_pos|apply fact_err].
Qed.
Lemma cc_e_roundtrip m e p : cc_wf m p ->
  Rabs (cc_e_from_stress m (cc_stress_from_e m e p) p - e) <= 2 / 10^16 * Rabs (e - cc_eref m p).
Proof.
  intros Hw. pose proof (cc_ref_pos m p Hw) as Hr. pose proof ln10_pos as HL. assert (Hf := fact_pos).
  set (b := if Rlt_dec (cc_eref m p) e then true else false).
  assert (Es := cc_s_value m e p Hw). fold b in Es.
  set (s := cc_stress_from_e m e p) in *.
  assert (Hs : 0 < s) by (rewrite Es; apply Rmult_lt_0_compat; auto; apply exp_pos).
  rewrite cc_e_value by auto.
  assert (El : log10 (s / cc_ref m p) = fact / ln 10 * ((cc_eref m p - e) / cc_slope m p b)).
  { rewrite log10_div by auto. rewrite Es, ln_mult, ln_exp by (auto; apply exp_pos). field. split; [apply cc_slope_ne; auto|lra]. }
  assert (Hdir : (if Rlt_dec s (cc_ref m p) then true else false) = b \/ p = None \/ cc_eref m p - e = 0).
  { destruct p as [q|]; [|auto]. destruct Hw as (_ & Hq & Hc). cbn [cc_ref cc_slope] in *.
    destruct (Req_EM_T (cc_eref m (Some q) - e) 0) as [Hz|Hz]; [auto|]. left.
    unfold b in *. destruct (Rlt_dec (cc_eref m (Some q)) e).
    - assert (fact * ((cc_eref m (Some q) - e) / cc_Cr m) < 0).
      { assert ((cc_eref m (Some q) - e) / cc_Cr m < 0); [|nra]. apply Rmult_lt_reg_r with (cc_Cr m); [lra|]. unfold Rdiv. rewrite Rmult_assoc, Rinv_l by lra. lra. }
      assert (exp (fact * ((cc_eref m (Some q) - e) / cc_Cr m)) < 1) by (rewrite <- exp_0; apply exp_increasing; auto).
      destruct (Rlt_dec s q); auto. exfalso. nra.
    - assert (0 < fact * ((cc_eref m (Some q) - e) / cc_Cc m)).
      { apply Rmult_lt_0_compat; auto. apply Rdiv_lt_0_compat; lra. }
      assert (1 < exp (fact * ((cc_eref m (Some q) - e) / cc_Cc m))) by (rewrite <- exp_0; apply exp_increasing; auto).
      destruct (Rlt_dec s q); auto. exfalso. nra. }
  set (b' := if Rlt_dec s _ then true else false) in *. rewrite El.
  assert (E : cc_eref m p - cc_slope m p b' * (fact / ln 10 * ((cc_eref m p - e) / cc_slope m p b)) - e
              = (fact / ln 10 - 1) * (e - cc_eref m p)).
  { destruct Hdir as [-> | [-> | Hz]].
    - field. split; [lra|apply cc_slope_ne; auto].
    - cbn [cc_slope]. field. split; [lra|]. destruct Hw; auto.
    - rewrite Hz. replace (e - cc_eref m p) with 0 by lra. unfold Rdiv. lra. }
  rewrite E, Rabs_mult. apply Rmult_le_compat_r; [apply Rabs_pos|apply fact_err].
Qed.

(** C40 *)
Lemma cc_derive_line m c s0 : 0 < s0 -> 0 < cc_siga m ->
  forall k x, 0 < x -> is_derive (fun s => k - c * log10 (s / s0)) x (- (c / (ln 10 * x))).
Proof.
  intros H Hs k x Hx. pose proof ln10_pos. unfold log10. auto_derive.
  - apply Rdiv_lt_0_compat; auto.
  - field. repeat split; lra.
Qed.
Lemma near_lt x p : x < p -> locally x (fun s => s < p).
Proof. intros H. exists (mkposreal (p - x) (Rlt_Rminus _ _ H)). intros y Hy. unfold ball in Hy; cbn in Hy; unfold AbsRing_ball, abs, minus, plus, opp in Hy; cbn in Hy. apply Rabs_def2 in Hy. lra. Qed.
Lemma near_gt x p : p < x -> locally x (fun s => p < s).
Proof. intros H. exists (mkposreal (x - p) (Rlt_Rminus _ _ H)). intros y Hy. unfold ball in Hy; cbn in Hy; unfold AbsRing_ball, abs, minus, plus, opp in Hy; cbn in Hy. apply Rabs_def2 in Hy. lra. Qed.
Lemma cc_derive m s p : cc_wf m p -> 0 < s -> p <> Some s ->
  is_derive (fun x => cc_e_from_stress m x p) s
    (- (cc_slope m p (if Rlt_dec s (cc_ref m p) then true else false) / (ln 10 * s))).
Proof.
  intros Hw Hs Hne. pose proof (cc_ref_pos m p Hw) as Hr. assert (Hsig : 0 < cc_siga m) by (destruct Hw; auto).
  set (b := if Rlt_dec s (cc_ref m p) then true else false).
  apply (is_derive_ext_loc (fun x => cc_eref m p - cc_slope m p b * log10 (x / cc_ref m p))).
  - assert (L : locally s (fun x => 0 < x)) by (apply near_gt; auto).
    destruct p as [q|]; cbn [cc_ref] in *.
    + destruct (Rlt_dec s q) as [H|H].
      * generalize (filter_and _ _ L (near_lt s q H)). apply filter_imp. intros x (Hx & Hq).
        rewrite cc_e_value by auto. cbn [cc_ref]. unfold b. destruct (Rlt_dec x q); [auto|lra].
      * assert (H' : q < s). { apply Rnot_le_lt. intros H1. apply Hne. f_equal. lra. }
        generalize (filter_and _ _ L (near_gt s q H')). apply filter_imp. intros x (Hx & Hq).
        rewrite cc_e_value by auto. cbn [cc_ref]. unfold b. destruct (Rlt_dec x q); [lra|auto].
    + revert L. apply filter_imp. intros x Hx. rewrite cc_e_value by auto. reflexivity.
  - apply (cc_derive_line m); auto.
Qed.
Lemma cc_av_value m s p : cc_wf m p -> 0 < s ->
  cc_av_from_stress m s p = lit_av * cc_slope m p (match p with Some q => if Rlt_dec s q then true else false | None => false end) / s.
Proof.
  intros Hw Hs. unfold cc_av_from_stress, get_pstress, cc_slope. destruct p as [q|].
  - destruct (Rlt_dec s q).
    + rewrite (Rltb_false 0), (Rltb_true _ 0) by lra. auto.
    + unfold Rltb. destruct (Rlt_dec 0 (s - q)); auto. destruct (Rlt_dec (s - q) 0); auto. lra.
  - unfold Rltb. destruct (Rlt_dec 0 (s - s)); auto. destruct (Rlt_dec (s - s) 0); auto. lra.
Qed.
Lemma cc_av_err c s : 0 < s -> Rabs (lit_av * c / s - c / (ln 10 * s)) <= 1 / 10^16 * Rabs (c / (ln 10 * s)).
Proof.
  intros Hs. pose proof ln10_pos.
  replace (lit_av * c / s - c / (ln 10 * s)) with ((lit_av * ln 10 - 1) * (c / (ln 10 * s))) by (field; lra).
  rewrite Rabs_mult. apply Rmult_le_compat_r; [apply Rabs_pos|apply lit_err].
Qed.

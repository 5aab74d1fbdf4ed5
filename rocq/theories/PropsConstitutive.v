(** * Property theorems: constitutive models (C39-C43, C78-C81) and fixed_point_no_accel (C46) *)
From Coq Require Import Reals List ZArith Lia Lra Bool.
From Coquelicot Require Import Coquelicot.
From Verif Require Import Base ConstitutiveModel SpecConstitutive ConstitutiveProofs ConstitutiveProofs2
  ConstitutiveProofs3 ConstitutiveProofs4 ConstitutiveProofs5 ConstitutiveProofs6.
Import ListNotations.
Open Scope R_scope.

(** ** C39 *)
Theorem C39_av_inverse : forall m, av_av m <> 0 ->
  (forall s, av_stress_from_e m (av_e_from_stress m s) = s) /\
  (forall e, av_e_from_stress m (av_stress_from_e m e) = e).
Proof. intros m H. unfold av_stress_from_e, av_e_from_stress. split; intros; field; auto. Qed.

(** The source's ln 10 has 17 digits, so the two maps invert each other up to 2e-16 relative to the
    distance (in log stress / void ratio) from the reference point: (siga, ea) without a
    preconsolidation stress, the preconsolidation point with one. *)
Theorem C39_cccr_stress : forall m s, 0 < cc_siga m -> 0 < s ->
  (cc_Cc m <> 0 ->
     let s' := cc_stress_from_e m (cc_e_from_stress m s None) None in
     0 < s' /\ Rabs (ln (s' / s)) <= 2 / 10^16 * Rabs (ln (s / cc_siga m))) /\
  (forall p, 0 < p -> 0 < cc_Cr m <= cc_Cc m ->
     let s' := cc_stress_from_e m (cc_e_from_stress m s (Some p)) (Some p) in
     0 < s' /\ Rabs (ln (s' / s)) <= 2 / 10^16 * Rabs (ln (s / p))).
Proof.
  intros m s Hs H. split.
  - intros Hc. apply (cc_stress_roundtrip m s None); auto. split; auto.
  - intros p Hp Hc. apply (cc_stress_roundtrip m s (Some p)); auto. split; auto.
Qed.
Theorem C39_cccr_void_ratio : forall m e, 0 < cc_siga m ->
  (cc_Cc m <> 0 ->
     Rabs (cc_e_from_stress m (cc_stress_from_e m e None) None - e) <= 2 / 10^16 * Rabs (e - cc_ea m)) /\
  (forall p, 0 < p -> 0 < cc_Cr m <= cc_Cc m ->
     Rabs (cc_e_from_stress m (cc_stress_from_e m e (Some p)) (Some p) - e)
       <= 2 / 10^16 * Rabs (e - cc_e_from_stress m p None)).
Proof.
  intros m e Hs. split.
  - intros Hc. apply (cc_e_roundtrip m e None). split; auto.
  - intros p Hp Hc.
    assert (E : cc_e_from_stress m p None = cc_eref m (Some p)).
    { unfold cc_e_from_stress, cc_eref, get_pstress. rewrite Rmax_left by lra. replace (p / p) with 1 by (field; lra). rewrite log10_1. ring. }
    rewrite E. apply (cc_e_roundtrip m e (Some p)). split; auto.
Qed.
(** The reloading line has slope Cr and the virgin line slope Cc per log10 cycle; they meet at the
    preconsolidation stress. *)
Theorem C39_cccr_curve : forall m s p, 0 < cc_siga m -> 0 < p -> 0 < s ->
  cc_e_from_stress m s (Some p) =
  cc_ea m - cc_Cc m * log10 (Rmax p s / cc_siga m) + cc_Cr m * (log10 (Rmax p s) - log10 s) /\
  cc_e_from_stress m (cc_siga m) None = cc_ea m.
Proof.
  intros m s p Hm Hp Hs. split.
  - unfold cc_e_from_stress, get_pstress. rewrite (log10_div (Rmax p s) s); auto.
    + unfold log10. unfold Rdiv. ring.
    + apply Rlt_le_trans with s; auto. apply Rmax_r.
  - unfold cc_e_from_stress, get_pstress. rewrite Rmax_left by lra. replace (cc_siga m / cc_siga m) with 1 by (field; lra). rewrite log10_1. ring.
Qed.
Print Assumptions C39_av_inverse.
Print Assumptions C39_cccr_stress.
Print Assumptions C39_cccr_void_ratio.
Example C39_witness : let m := mkCcCr 3 (1/2) 10 5 in
  cc_e_from_stress m 10 None = 5 /\ 0 < cc_siga m /\ 0 < cc_Cr m <= cc_Cc m /\
  cc_e_from_stress m 100 None = 2 /\ cc_e_from_stress m 10 (Some 100) = 2 + 1/2.
Proof.
  pose proof ln10_pos.
  cbv zeta. unfold cc_e_from_stress, get_pstress. cbn [cc_Cc cc_Cr cc_siga cc_ea].
  rewrite !Rmax_left by lra. unfold log10. replace (10 / 10) with 1 by field. replace (100 / 10) with 10 by field. replace (100 / 100) with 1 by field.
  rewrite ln_1. repeat split; try lra; field; lra.
Qed.

(** ** C40 *)
Theorem C40_av_slope : forall m s, is_derive (av_e_from_stress m) s (- av_av_from_stress m s).
Proof. intros m s. unfold av_e_from_stress, av_av_from_stress. auto_derive; auto. ring. Qed.
(** Off the preconsolidation stress, where the curve has a corner.  (0.43429448190325182 is 1/ln 10 to 17 digits.) *)
Theorem C40_cccr_slope : forall m s p, 0 < cc_siga m -> 0 < s -> 0 < p -> 0 < cc_Cr m <= cc_Cc m -> s <> p ->
  exists d, is_derive (fun x => cc_e_from_stress m x (Some p)) s (- d) /\
    Rabs (cc_av_from_stress m s (Some p) - d) <= 1 / 10^16 * d.
Proof.
  intros m s p H0 Hs Hp Hc Hne. assert (W : cc_wf m (Some p)) by (split; auto).
  eexists. split; [apply (cc_derive m s (Some p) W Hs); congruence|].
  rewrite cc_av_value by auto. cbn [cc_ref].
  set (c := cc_slope m (Some p) _). assert (0 < c) by (unfold c, cc_slope; destruct (Rlt_dec s p); lra).
  pose proof (cc_av_err c s Hs) as E. rewrite (Rabs_pos_eq (c / (ln 10 * s))) in E; auto.
  left. apply Rdiv_lt_0_compat; auto. pose proof ln10_pos. nra.
Qed.
Theorem C40_cccr_slope_virgin : forall m s, 0 < cc_siga m -> 0 < s -> cc_Cc m <> 0 ->
  exists d, is_derive (fun x => cc_e_from_stress m x None) s (- d) /\
    Rabs (cc_av_from_stress m s None - d) <= 1 / 10^16 * Rabs d.
Proof.
  intros m s H0 Hs Hc. assert (W : cc_wf m None) by (split; auto).
  eexists. split; [apply (cc_derive m s None W Hs); congruence|].
  rewrite cc_av_value by auto. cbn [cc_slope]. apply cc_av_err; auto.
Qed.
(** At the corner the slope of the virgin line is returned. *)
Theorem C40_cccr_corner : forall m p, 0 < cc_siga m -> 0 < p -> 0 < cc_Cr m <= cc_Cc m ->
  cc_av_from_stress m p (Some p) = cc_av_from_stress m p None /\
  (forall s, p <= s -> cc_e_from_stress m s (Some p) = cc_e_from_stress m s None).
Proof.
  intros m p H0 Hp Hc. split.
  - reflexivity.
  - intros s Hs. unfold cc_e_from_stress, get_pstress. rewrite !Rmax_right by lra. auto.
Qed.
Print Assumptions C40_cccr_slope.
Print Assumptions C40_cccr_slope_virgin.
Example C40_witness : let m := mkCcCr 3 (1/2) 10 5 in
  cc_av_from_stress m 40 (Some 50) = lit_av * (1/2) / 40 /\ cc_av_from_stress m 60 (Some 55) = lit_av * 3 / 60.
Proof. cbv zeta. unfold cc_av_from_stress, get_pstress. cbn [cc_Cc cc_Cr]. split; [rewrite Rltb_false, Rltb_true by lra|rewrite Rltb_true by lra]; reflexivity. Qed.

(** ** C41 *)
Theorem C41_ck_inverse : forall m, ck_Ck m <> 0 -> 0 < ck_ka m ->
  (forall e, ck_e_from_k m (ck_k_from_e m e) = e /\ 0 < ck_k_from_e m e) /\
  (forall k, 0 < k -> ck_k_from_e m (ck_e_from_k m k) = k).
Proof.
  intros m Hc Hk. split.
  - intros e. unfold ck_e_from_k, ck_k_from_e. assert (Hp := pow10_pos ((e - ck_ea m) / ck_Ck m)). split; [|nra].
    replace (ck_ka m * pow10 ((e - ck_ea m) / ck_Ck m) / ck_ka m) with (pow10 ((e - ck_ea m) / ck_Ck m)) by (field; lra).
    rewrite log10_pow10. field. auto.
  - intros k Hk0. unfold ck_e_from_k, ck_k_from_e.
    replace ((ck_ea m + ck_Ck m * log10 (k / ck_ka m) - ck_ea m) / ck_Ck m) with (log10 (k / ck_ka m)) by (field; auto).
    rewrite pow10_log10 by (apply Rdiv_lt_0_compat; auto). field. lra.
Qed.
(** ten times the permeability raises the void ratio by Ck; the curve goes through (ka, ea) *)
Theorem C41_ck_curve : forall m k, 0 < ck_ka m -> 0 < k ->
  ck_e_from_k m (ck_ka m) = ck_ea m /\ ck_e_from_k m (10 * k) = ck_e_from_k m k + ck_Ck m.
Proof.
  intros m k Ha Hk. pose proof ln10_pos. unfold ck_e_from_k. split.
  - replace (ck_ka m / ck_ka m) with 1 by (field; lra). rewrite log10_1. ring.
  - rewrite !log10_div by lra. rewrite ln_mult by lra. field. lra.
Qed.
Theorem C41_constant : forall ka e, const_k_from_e ka e = ka.
Proof. intros. unfold const_k_from_e. ring. Qed.
(** Plotting a constant permeability model always raises. *)
Theorem C41_constant_plot_refuted : forall ka x xs, const_e_and_k_for_plotting ka (x :: xs) = Err ValueError.
Proof. reflexivity. Qed.
Print Assumptions C41_ck_inverse.
Example C41_witness : let m := mkCk (1/4) 10 4 in ck_Ck m <> 0 /\ 0 < ck_ka m /\ ck_k_from_e m (4 + 1/4) = 100.
Proof.
  cbv zeta. cbn. repeat split; try lra. unfold ck_k_from_e. cbn. replace ((4 + 1/4 - 4) / (1/4)) with 1 by field.
  unfold pow10. rewrite Rmult_1_r, exp_ln by lra. lra.
Qed.

(** ** C42 *)
Theorem C42_law : forall m i, hansbo_ok m ->
  exists v, hansbo_v_from_i m i = Ok v /\ hansbo_law (h_kstar m) (h_n m) (h_iL m) i v.
Proof. intros m i H. exists (hv m i). split; [apply hv_ok; auto|apply hv_law; auto]. Qed.
Theorem C42_inverse : forall m, hansbo_ok m ->
  (forall i, exists v, hansbo_v_from_i m i = Ok v /\ hansbo_i_from_v m v = Ok i) /\
  (forall v, exists i, hansbo_i_from_v m v = Ok i /\ hansbo_v_from_i m i = Ok v).
Proof.
  intros m H. split.
  - intros i. exists (hv m i). split; [apply hv_ok; auto|]. rewrite hi_ok by auto. rewrite hi_hv by auto. auto.
  - intros v. exists (hi m v). split; [apply hi_ok; auto|]. rewrite hv_ok by auto. rewrite hv_hi by auto. auto.
Qed.
Theorem C42_odd_increasing_continuous : forall m, hansbo_ok m -> exists f,
  (forall i, hansbo_v_from_i m i = Ok (f i)) /\ (forall i, f (- i) = - f i) /\
  (forall i j, i < j -> f i < f j) /\ (forall i, continuous f i).
Proof.
  intros m H. exists (hv m). split; [intros; apply hv_ok; auto|]. split; [intros; apply hv_odd; auto|].
  split; [intros; apply hv_inc; auto|]. intros i. apply (ex_derive_continuous (V := R_NormedModule)). apply hv_derivable. auto.
Qed.
Theorem C42_darcy : forall k, k <> 0 -> (forall i, darcy_i_from_v k (darcy_v_from_i k i) = Ok i) /\
  (forall v, exists i, darcy_i_from_v k v = Ok i /\ darcy_v_from_i k i = v).
Proof.
  intros k H. unfold darcy_i_from_v, darcy_v_from_i, fdiv. rewrite Reqb_false by auto. split.
  - intros i. f_equal. field. auto.
  - intros v. eexists. split; [reflexivity|]. field. auto.
Qed.
(** Darcy's law is Hansbo's law with n = 1, whatever the limiting gradient. *)
Theorem C42_reduces_to_darcy : forall m i, hansbo_ok m -> h_n m = 1 ->
  hansbo_v_from_i m i = Ok (darcy_v_from_i (h_klinear m) i).
Proof.
  intros m i H Hn. rewrite hv_ok by auto. rewrite darcy_case by auto. f_equal. unfold darcy_v_from_i.
  rewrite (ho_kl m H), Hn, Rminus_eq_0, rpow_x0. ring.
Qed.
(** The drain strain rate is homogeneous of degree n in the head, linear in eta, and agrees with the
    Darcy model's at n = 1. *)
Theorem C42_drain_strain_rate : forall m eta head gamw c, hansbo_ok m -> 0 < head -> 0 < gamw -> 0 < c ->
  (exists r, hansbo_vdrain_strain_rate m eta head gamw = Ok r /\
     hansbo_vdrain_strain_rate m eta (c * head) gamw = Ok (rpow c (h_n m) * r) /\
     hansbo_vdrain_strain_rate m (c * eta) head gamw = Ok (c * r)) /\
  (h_n m = 1 -> hansbo_vdrain_strain_rate m eta head gamw = Ok (darcy_vdrain_strain_rate (h_klinear m) eta head)).
Proof.
  intros m eta h g c Hm Hh Hg Hc. assert (0 < c * h) by nra. unfold hansbo_vdrain_strain_rate, darcy_vdrain_strain_rate, power.
  rewrite !(Rltb_true 0) by auto. cbn [bind]. split.
  - eexists. split; [reflexivity|]. split; [|f_equal; ring]. f_equal. unfold rpow. destruct (Req_EM_T c 0); [lra|]. rewrite ln_mult by auto.
    rewrite Rmult_plus_distr_l, exp_plus. unfold Rpower. ring.
  - intros ->. f_equal. rewrite Rminus_eq_0, Rmult_0_l, exp_0, Rmult_1_l, exp_ln by auto. ring.
Qed.
Print Assumptions C42_law.
Print Assumptions C42_inverse.
Print Assumptions C42_odd_increasing_continuous.

(** ** C43 *)
Theorem C43_derivative_positive : forall m i, hansbo_ok m -> 0 < i -> exists f d,
  (forall x, hansbo_v_from_i m x = Ok (f x)) /\ hansbo_dv_di m i = Ok d /\ is_derive f i d /\ 0 < d.
Proof.
  intros m i H Hi. exists (hv m), (hd m i). split; [intros; apply hv_ok; auto|].
  rewrite dv_di_ok by auto. rewrite signR_pos, Rabs_pos_eq by lra. split; [f_equal; ring|].
  split; [apply hv_derive_pos; auto|apply hd_pos; auto].
Qed.
Theorem C43_derivative_zero : forall m, hansbo_ok m -> 1 < h_n m -> exists f,
  (forall x, hansbo_v_from_i m x = Ok (f x)) /\ hansbo_dv_di m 0 = Ok 0 /\ is_derive f 0 0.
Proof.
  intros m H Hn. exists (hv m). split; [intros; apply hv_ok; auto|].
  rewrite dv_di_ok by auto. rewrite signR_0. split; [f_equal; ring|].
  pose proof (hv_derive_0 m H) as D. destruct (Req_EM_T (h_n m) 1); [lra|auto].
Qed.
Theorem C43_darcy_positive : forall k i, 0 < i -> is_derive (darcy_v_from_i k) i (darcy_dv_di k i).
Proof. intros k i Hi. unfold darcy_v_from_i, darcy_dv_di. rewrite signR_pos by auto. auto_derive; auto. ring. Qed.
(** The source multiplies the slope by the sign of the gradient: for negative gradients the returned
    value is minus the derivative, and at i = 0 it is 0 even where the law is linear. *)
Theorem C43_negative_refuted : forall m i, hansbo_ok m -> i < 0 -> exists f d,
  (forall x, hansbo_v_from_i m x = Ok (f x)) /\ is_derive f i d /\ 0 < d /\ hansbo_dv_di m i = Ok (- d).
Proof.
  intros m i H Hi. exists (hv m), (hd m (- i)). split; [intros; apply hv_ok; auto|].
  split; [apply hv_derive_neg; auto|]. split; [apply hd_pos; auto; lra|].
  rewrite dv_di_ok by auto. rewrite signR_neg, Rabs_left by lra. f_equal. ring.
Qed.
Theorem C43_linear_at_zero_refuted : forall m, hansbo_ok m -> h_n m = 1 -> exists f d,
  (forall x, hansbo_v_from_i m x = Ok (f x)) /\ is_derive f 0 d /\ 0 < d /\ hansbo_dv_di m 0 = Ok 0.
Proof.
  intros m H Hn. exists (hv m), (h_kstar m). split; [intros; apply hv_ok; auto|].
  pose proof (hv_derive_0 m H) as D. destruct (Req_EM_T (h_n m) 1); [|contradiction]. split; [auto|].
  split; [apply (ho_k m H)|]. rewrite dv_di_ok by auto. rewrite signR_0. f_equal. ring.
Qed.
Theorem C43_darcy_refuted : forall k i, i <= 0 -> k <> 0 ->
  is_derive (darcy_v_from_i k) i k /\ darcy_dv_di k i <> k.
Proof.
  intros k i Hi Hk. split.
  - unfold darcy_v_from_i. auto_derive; auto. ring.
  - unfold darcy_dv_di. destruct (Req_EM_T i 0) as [->|Hn].
    + rewrite signR_0. intros E. apply Hk. rewrite <- E. ring.
    + rewrite signR_neg by lra. intros E. apply Hk. lra.
Qed.
Print Assumptions C43_derivative_positive.
Print Assumptions C43_negative_refuted.

(** ** C46 *)
Theorem C46_fixed_point : forall func x0 xtol maxiter p,
  fixed_point_no_accel func x0 xtol maxiter = Ok p ->
  exists j p0, (j < maxiter)%nat /\ iterate func j x0 = Ok p0 /\ func p0 = Ok p /\ Rabs (relerr p0 p) < xtol.
Proof. intros. apply fixed_point_sound. auto. Qed.
Theorem C46_not_converged : forall func x0 xtol maxiter, (0 < maxiter)%nat ->
  (forall j p0, (j < maxiter)%nat -> iterate func j x0 = Ok p0 -> exists p, func p0 = Ok p /\ xtol <= Rabs (relerr p0 p)) ->
  fixed_point_no_accel func x0 xtol maxiter = Err RuntimeError.
Proof. intros f x t n Hn H. unfold fixed_point_no_accel. destruct n; [lia|]. apply fixed_loop_fails. auto. Qed.
(** The first accepted iterate is returned, so no more than j+1 <= maxiter evaluations are made. *)
Theorem C46_first : forall func x0 xtol maxiter j p0 p, (j < maxiter)%nat ->
  iterate func j x0 = Ok p0 -> func p0 = Ok p -> Rabs (relerr p0 p) < xtol ->
  (forall i q0, (i < j)%nat -> iterate func i x0 = Ok q0 -> exists q, func q0 = Ok q /\ xtol <= Rabs (relerr q0 q)) ->
  fixed_point_no_accel func x0 xtol maxiter = Ok p.
Proof.
  intros f x t N j p0 p Hj Hi Hp Ht Hn. unfold fixed_point_no_accel. destruct N as [|N]; [lia|].
  revert x N Hj Hi Hn. induction j as [|j IH]; intros x N Hj Hi Hn.
  - cbn in Hi. injection Hi as ->. cbn [fixed_point_loop]. rewrite Hp. cbn [bind]. unfold relerr in Ht. unfold Reqb.
    destruct (Req_EM_T p0 0); rewrite Rltb_true by auto; auto.
  - cbn in Hi. destruct (f x) as [y|] eqn:E; [|discriminate]. cbn in Hi.
    destruct (Hn 0%nat x ltac:(lia) eq_refl) as (q & Hq & Hqt). assert (q = y) by congruence. subst q.
    change (bind (f x) (fun p => if Rltb (Rabs (if Reqb x 0 then p else (p - x) / x)) t then Ok p else fixed_point_loop N f t p) = Ok p).
    rewrite E. cbn [bind]. unfold relerr in Hqt. unfold Reqb. rewrite Rltb_false by (destruct (Req_EM_T x 0); auto).
    destruct N as [|N]; [lia|]. apply IH; auto; [lia|]. intros i q0 Hi0 Hiq. apply (Hn (S i)); [lia|]. cbn. rewrite E. exact Hiq.
Qed.
Print Assumptions C46_fixed_point.
Example C46_witness : fixed_point_no_accel (fun x => Ok (x / 2 + 1)) 0 (1/4) 10 = Ok (7/4).
Proof.
  unfold fixed_point_no_accel. cbn [fixed_point_loop bind].
  rewrite Reqb_true by auto. rewrite Rltb_false by (rewrite Rabs_pos_eq; lra).
  rewrite Reqb_false by lra. rewrite Rltb_false by (rewrite Rabs_pos_eq; lra).
  rewrite Reqb_false by lra. rewrite Rltb_true by (rewrite Rabs_pos_eq; lra). f_equal. lra.
Qed.

(** ** C78 *)
Theorem C78_pwise_normally_consolidated : forall m, pwise_ok m ->
  (forall s, within (pw_siga m) s -> exists e, pw_e_from_stress m s None = Ok e /\ pw_stress_from_e m e None = Ok s) /\
  (forall e, within (pw_ea m) e -> exists s, pw_stress_from_e m e None = Ok s /\ pw_e_from_stress m s None = Ok e).
Proof. intros m H. split; intros; [apply pw_roundtrip_nc; auto|apply pw_roundtrip_nc'; auto]. Qed.
Theorem C78_pwise_preconsolidated : forall m p, pwise_ok m -> 0 < pw_Cr m ->
  steeper_than (pw_Cr m) (combine (map (lg (pw_xlog m)) (pw_siga m)) (map (lg (pw_ylog m)) (pw_ea m))) ->
  within (pw_siga m) p ->
  (forall s, (pw_xlog m = true -> 0 < s) -> (p <= s -> within (pw_siga m) s) ->
     exists e, pw_e_from_stress m s (Some p) = Ok e /\ pw_stress_from_e m e (Some p) = Ok s) /\
  (forall e, (pw_ylog m = true -> 0 < e) ->
     (forall ep, pw_e_from_stress m p None = Ok ep -> e <= ep -> within (pw_ea m) e) ->
     exists s, pw_stress_from_e m e (Some p) = Ok s /\ pw_e_from_stress m s (Some p) = Ok e).
Proof. intros m p H Hc Hs Hp. split; intros; [apply pw_roundtrip_oc; auto|apply pw_roundtrip_oc'; auto]. Qed.
(** On the virgin curve the (plotted) point lies on the polyline through the (plotted) points. *)
Theorem C78_pwise_on_curve : forall m s, pwise_ok m -> within (pw_siga m) s ->
  exists e, pw_e_from_stress m s None = Ok e /\
    on_polyline (combine (map (lg (pw_xlog m)) (pw_siga m)) (map (lg (pw_ylog m)) (pw_ea m)))
      (lg (pw_xlog m) s) (lg (pw_ylog m) e).
Proof.
  intros m s Hm Hs. destruct (pwise_curve m Hm) as (l & U & D & Hl & I1 & I2).
  assert (Ps := within_pos _ _ _ (pwo_x m Hm) Hs). assert (Hi := pw_inx m l s Hm Hl Ps Hs).
  unfold pw_e_from_stress, get_pstress. cbv zeta. rewrite Rmax_left by lra. rewrite I1. cbn [bind].
  eexists. split; [reflexivity|]. rewrite Rminus_eq_0, Rmult_0_r, Rplus_0_r, lg_unlg.
  assert (O := on_interp1 l (lg (pw_xlog m) s) U Hi). destruct Hl as [-> | ->]; auto.
  apply on_rev in O. rewrite rev_involutive in O. exact O.
Qed.
Print Assumptions C78_pwise_normally_consolidated.
Print Assumptions C78_pwise_preconsolidated.
Lemma up3 a b c : a < b -> b < c -> strictly_up [a; b; c].
Proof. intros H1 H2 l1 x y l2 E. destruct l1 as [|? [|? [|? l1]]]; cbn in E; try discriminate; [injection E as -> -> _; auto|injection E as _ -> -> _; auto|]. destruct l1; discriminate. Qed.
Lemma down3 a b c : b < a -> c < b -> strictly_down [a; b; c].
Proof. intros H1 H2 l1 x y l2 E. destruct l1 as [|? [|? [|? l1]]]; cbn in E; try discriminate; [injection E as -> -> _; auto|injection E as _ -> -> _; auto|]. destruct l1; discriminate. Qed.
Definition ex_pw : Pwise := mkPwise [1; 2; 4] [5; 4; 7/2] (1/10) false false.
Example C78_witness : pwise_ok ex_pw /\ 0 < pw_Cr ex_pw /\ within (pw_siga ex_pw) 3 /\
  steeper_than (pw_Cr ex_pw) (combine (map (lg false) (pw_siga ex_pw)) (map (lg false) (pw_ea ex_pw))) /\
  pw_e_from_stress ex_pw 3 None = Ok (15/4).
Proof.
  assert (K : pwise_ok ex_pw).
  { constructor; cbn; auto; try discriminate. left. split; [apply up3; lra|apply down3; lra]. }
  split; auto. split; [cbn; lra|]. split; [exists 2, 4; cbn; repeat split; auto; lra|]. split.
  - intros l1 a b l2 E. cbn in E. destruct l1 as [|? [|? [|? l1]]]; cbn in E; try discriminate.
    + injection E as <- <- _. cbn. rewrite Rabs_pos_eq, Rabs_left by lra. lra.
    + injection E as _ <- <- _. cbn. rewrite Rabs_pos_eq, Rabs_left by lra. lra.
    + destruct l1; discriminate.
  - unfold pw_e_from_stress, get_pstress, ex_pw. cbn [pw_xlog pw_ylog pw_siga pw_ea pw_Cr lg unlg]. rewrite Rmax_left by lra.
    rewrite !slice_up by (apply up3; lra). unfold np_interp. cbn [combine pw_xs pw_ys map lg pw_xlog pw_ylog pw_siga pw_ea interp_from].
    rewrite Rltb_false by lra. rewrite Rltb_false by lra. rewrite Rltb_true by lra. cbn [bind]. f_equal. lra.
Qed.

(** ** C79 *)
Theorem C79_pwise_slope : forall m s p, pwise_ok m -> (pw_xlog m = true -> 0 < s) ->
  (exists a b, In a (pw_siga m) /\ In b (pw_siga m) /\ a < Rmax (match p with Some q => q | None => s end) s <= b) ->
  (match p with
   | Some q => s < q \/ q < s /\ (pw_xlog m = true -> 0 < q) /\ ~ In s (pw_siga m)
   | None => ~ In s (pw_siga m)
   end) ->
  exists f d av, locally s (fun x => pw_e_from_stress m x p = Ok (f x)) /\ is_derive f s (- d) /\
    pw_av_from_stress m s p = Ok av /\ Rabs (av - d) <= 2 / 10^16 * Rabs d.
Proof. intros. apply pw_av_derivative; auto. Qed.
(** At the first of the given stresses the slope returned is that of the chord to the last point, not that
    of either side of the curve; beyond the last one it raises although the void ratio is defined. *)
Theorem C79_pwise_ends_refuted :
  pwise_ok ex_pw /\
  pw_av_from_stress ex_pw 1 None = Ok (1/2) /\
  (forall x, 1 <= x < 2 -> pw_e_from_stress ex_pw x None = Ok (5 - 1 * (x - 1))) /\
  (forall x, x < 1 -> pw_e_from_stress ex_pw x None = Ok 5) /\
  (forall x, 4 < x -> pw_e_from_stress ex_pw x None = Ok (7/2) /\ pw_av_from_stress ex_pw x None = Err IndexError).
Proof.
  split; [apply C78_witness|].
  assert (S1 : forall l, slice_of (pw_siga ex_pw) l = l) by (intros; apply slice_up; apply up3; lra).
  assert (E : forall x, pw_e_from_stress ex_pw x None = Ok (interp1 x [(1, 5); (2, 4); (4, 7/2)])).
  { intros x. unfold pw_e_from_stress, get_pstress. cbv zeta. rewrite !S1. cbn [pw_xlog ex_pw lg]. rewrite Rmax_left by lra.
    rewrite np_interp_ok by discriminate. cbn [bind]. f_equal. cbn [pw_ylog unlg]. rewrite Rminus_eq_0, Rmult_0_r, Rplus_0_r. reflexivity. }
  split; [|split; [|split]].
  - unfold pw_av_from_stress, get_pstress. cbv zeta. rewrite !S1. cbn [pw_xlog pw_ylog pw_xs pw_ys ex_pw lg map pw_siga pw_ea pw_Cr]. rewrite Rmax_left by lra.
    cbn [searchsorted]. rewrite Rltb_false by lra. cbn [get_pred get_last rev app get nth_error bind].
    unfold fdiv at 1. rewrite Reqb_false by lra. cbn [bind]. unfold fdiv. rewrite Reqb_false by lra. f_equal. lra.
  - intros x Hx. rewrite E. cbn [interp1 interp_from]. rewrite Rltb_false by lra. rewrite Rltb_true by lra. f_equal. lra.
  - intros x Hx. rewrite E. cbn [interp1]. rewrite Rltb_true by lra. auto.
  - intros x Hx. rewrite E. split.
    + cbn [interp1 interp_from]. rewrite !Rltb_false by lra. auto.
    + unfold pw_av_from_stress, get_pstress. cbv zeta. rewrite !S1. cbn [pw_xlog pw_ylog pw_xs pw_ys ex_pw lg map pw_siga pw_ea pw_Cr]. rewrite Rmax_left by lra.
      cbn [searchsorted]. rewrite !Rltb_true by lra. cbn. reflexivity.
Qed.
Print Assumptions C79_pwise_slope.
Print Assumptions C79_pwise_ends_refuted.

(** ** C80 *)
Theorem C80_pwise_permeability : forall m, pwisek_ok m ->
  (forall k, within (pk_ka m) k -> exists e, pk_e_from_k m k = Ok e /\ pk_k_from_e m e = Ok k) /\
  (forall e, within (pk_ea m) e -> exists k, pk_k_from_e m e = Ok k /\ pk_e_from_k m k = Ok e).
Proof. intros m H. split; intros; [apply pk_roundtrip; auto|apply pk_roundtrip'; auto]. Qed.
Theorem C80_pwise_permeability_on_curve : forall m k, pwisek_ok m -> within (pk_ka m) k ->
  exists e, pk_e_from_k m k = Ok e /\
    on_polyline (combine (map (lg (pk_xlog m)) (pk_ka m)) (map (lg (pk_ylog m)) (pk_ea m)))
      (lg (pk_xlog m) k) (lg (pk_ylog m) e).
Proof.
  intros m k Hm Hs. destruct (pk_curve m Hm) as (l & l' & U & U' & Ho & Hl & Hi & I1 & I2).
  assert (Ps := within_pos _ _ _ (pko_x m Hm) Hs).
  unfold pk_e_from_k. rewrite I1. cbn [bind]. eexists. split; [reflexivity|]. rewrite lg_unlg.
  assert (inx l (lg (pk_xlog m) k)).
  { assert (inx (combine (pk_xs m) (pk_ys m)) (lg (pk_xlog m) k)).
    { apply inx_combine; [unfold pk_xs, pk_ys; rewrite !map_length; apply (pko_len m Hm)|]. apply within_lg; auto. apply (pko_x m Hm). }
    destruct Hl as [->| ->]; auto. apply inx_rev; auto. }
  assert (O := on_interp1 l _ U H). destruct Hl as [-> | ->]; auto.
  apply on_rev in O. rewrite rev_involutive in O. exact O.
Qed.
Print Assumptions C80_pwise_permeability.
Example C80_witness : pwisek_ok (mkPwiseK [1; 10; 100] [1; 2; 4] true false) /\
  within (pk_ka (mkPwiseK [1; 10; 100] [1; 2; 4] true false)) 31.
Proof.
  split.
  - constructor; cbn; auto; try discriminate.
    + right. left. split; apply up3; lra.
    + intros _ x Hx. cbn in Hx. lra.
  - exists 10, 100. cbn. repeat split; auto; lra.
Qed.

(** ** C81 *)
Theorem C81_any_three_parameters : forall kstar n iL, 0 < kstar -> 1 < n -> 0 < iL ->
  let i0 := iL * (n - 1) / n in
  let klinear := kstar * n * rpow iL (n - 1) in
  let m := mkHansbo kstar n iL i0 klinear (kstar * rpow iL n) in
  hansbo_init None (Some kstar) (Some n) None (Some iL) = Ok m /\
  hansbo_init None (Some kstar) (Some n) (Some i0) None = Ok m /\
  hansbo_init (Some klinear) (Some kstar) (Some n) None None = Ok m /\
  hansbo_init None (Some kstar) None (Some i0) (Some iL) = Ok m /\
  hansbo_init (Some klinear) None (Some n) None (Some iL) = Ok m /\
  hansbo_init (Some klinear) None (Some n) (Some i0) None = Ok m /\
  hansbo_init (Some klinear) None None (Some i0) (Some iL) = Ok m.
Proof.
  intros k n L Hk Hn HL. cbv zeta.
  split; [apply init_kstar_n_iL; auto|]. split; [apply init_kstar_n_i0; auto|]. split; [apply init_kstar_n_klinear; auto|].
  split; [apply init_kstar_iL_i0; auto|]. split; [apply init_n_iL_klinear; auto|]. split; [apply init_n_i0_klinear; auto|apply init_iL_i0_klinear; auto].
Qed.
(** Whatever is accepted is a consistent model, so C42 and C43 apply to it. *)
Theorem C81_accepted_is_consistent : forall klinear kstar n i0 iL m,
  given_ok klinear (Rlt 0) -> given_ok kstar (Rlt 0) -> given_ok i0 (Rle 0) -> given_ok iL (Rle 0) ->
  ~ fixed_point_case klinear kstar i0 iL ->
  hansbo_init klinear kstar n i0 iL = Ok m -> hansbo_ok m.
Proof. apply init_sound. Qed.
(** kstar, klinear and one of iL, i0: the exponent is found by iteration, so the relation between the
    parameters holds up to the iteration's relative tolerance of 1e-8 in n. *)
Theorem C81_iterated_exponent : forall klinear kstar n i0 iL m,
  given_ok klinear (Rlt 0) -> given_ok kstar (Rlt 0) -> given_ok i0 (Rlt 0) -> given_ok iL (Rlt 0) ->
  fixed_point_case klinear kstar i0 iL -> hansbo_init klinear kstar n i0 iL = Ok m ->
  klinear = Some (h_klinear m) /\ kstar = Some (h_kstar m) /\ (i0 = None \/ i0 = Some (h_i0 m)) /\ (iL = None \/ iL = Some (h_iL m)) /\
  1 <= h_n m /\ h_i0 m < h_iL m /\ h_i0 m = h_iL m * (h_n m - 1) / h_n m /\
  exists n', Rabs (h_n m - n') < 1 / 100000000 * Rabs n' /\
    (iL = Some (h_iL m) -> h_klinear m = h_kstar m * n' * rpow (h_iL m) (h_n m - 1)) /\
    (i0 = Some (h_i0 m) -> h_klinear m = h_kstar m * n' * rpow (h_i0 m * n' / (n' - 1)) (h_n m - 1)).
Proof. apply init_iterative. Qed.
(** Wrong number of parameters, or neither permeability: TypeError. *)
Definition count (l : list (option R)) : nat := length (filter (fun o => match o with Some _ => true | None => false end) l).
Theorem C81_wrong_parameters : forall klinear kstar n i0 iL,
  count [klinear; kstar; n; i0; iL] <> 3%nat \/ (klinear = None /\ kstar = None) ->
  hansbo_init klinear kstar n i0 iL = Err TypeError.
Proof.
  intros klinear kstar n i0 iL [H|(-> & ->)].
  - destruct klinear, kstar, n, i0, iL; cbn in H; try reflexivity; exfalso; apply H; reflexivity.
  - destruct n, i0, iL; reflexivity.
Qed.
(** kstar and n = 1 (or iL = 0) with iL: documented to reduce to Darcy's law, raises AttributeError
    (line 421 sets k_linear instead of klinear). *)
Theorem C81_darcy_reduction_refuted : forall kstar n iL, n = 1 \/ iL = 0 ->
  hansbo_init None (Some kstar) (Some n) None (Some iL) = Err AttributeError.
Proof.
  intros k n L H. unfold hansbo_init, hansbo_attrs.
  assert (E : (Reqb n 1 || Reqb L 0)%bool = true).
  { destruct H as [-> | ->]; [rewrite (Reqb_true 1 1) by auto|rewrite (Reqb_true 0 0) by auto; rewrite orb_comm]; reflexivity. }
  rewrite E. cbn [bind a_iL a_i0 a_n a_klinear]. rewrite (Rltb_false 0 0) by lra. rewrite andb_false_r. rewrite (Rltb_false 1 1) by lra. reflexivity.
Qed.
(** The other combinations do reduce to Darcy's law. *)
Theorem C81_darcy_reduction : forall k x, 0 < k ->
  let m := mkHansbo k 1 0 0 k (k * (0 - 0)) in
  hansbo_init None (Some k) (Some 1) (Some x) None = Ok m /\
  hansbo_init (Some k) (Some x) (Some 1) None None = Ok m /\
  hansbo_init (Some k) None (Some 1) None (Some x) = Ok m /\
  hansbo_init (Some k) None (Some 1) (Some x) None = Ok m /\
  hansbo_init (Some k) (Some x) None (Some 0) None = Ok m /\
  hansbo_init (Some k) (Some x) None None (Some 0) = Ok m /\ hansbo_ok m.
Proof.
  intros k x Hk m. unfold hansbo_init, hansbo_attrs. rewrite (Reqb_true 1 1), (Reqb_true 0 0) by auto. cbn [orb bind a_iL a_i0 a_n a_klinear a_kstar].
  rewrite (Rltb_false 0 0) by lra. rewrite andb_false_r. rewrite (Rltb_false 1 1) by lra.
  split; [reflexivity|]. split; [reflexivity|]. split; [reflexivity|]. split; [reflexivity|]. split; [reflexivity|]. split; [reflexivity|]. apply ok_darcy; auto.
Qed.
Print Assumptions C81_any_three_parameters.
Print Assumptions C81_accepted_is_consistent.
Print Assumptions C81_iterated_exponent.
Print Assumptions C81_darcy_reduction_refuted.
Example C81_witness : exists m, hansbo_init None (Some 2) (Some 2) None (Some 4) = Ok m /\ hansbo_ok m /\
  h_i0 m = 2 /\ h_klinear m = 16 /\ hansbo_v_from_i m (-3) = Ok (-18) /\ hansbo_v_from_i m 5 = Ok 48 /\ hansbo_dv_di m (-5) = Ok (-16).
Proof.
  destruct (C81_any_three_parameters 2 2 4) as (H & _); try lra. eexists. split; [exact H|].
  assert (K : hansbo_ok (mkHansbo 2 2 4 (4 * (2 - 1) / 2) (2 * 2 * rpow 4 (2 - 1)) (2 * rpow 4 2))).
  { eapply C81_accepted_is_consistent; try exact H; cbn; try lra; auto. }
  split; auto. cbn [h_i0 h_klinear]. replace (2 - 1) with 1 in * by ring. rewrite rpow_x1 in * by lra.
  assert (P2 : forall x, 0 < x -> rpow x 2 = x * x).
  { intros x Hx. rewrite rpow_step by auto. replace (2 - 1) with 1 by ring. rewrite rpow_x1 by lra. auto. }
  split; [lra|]. split; [lra|]. rewrite !hv_ok by auto. rewrite dv_di_ok by auto.
  unfold hv, hd, hF. cbn [h_iL h_klinear h_i0 h_kstar h_n].
  split; [|split].
  - destruct (Rlt_dec 0 (-3)); [lra|]. destruct (Rlt_dec (-3) 0); [|lra]. destruct (Rle_dec 4 (- -3)); [lra|]. rewrite P2 by lra. f_equal. lra.
  - destruct (Rlt_dec 0 5); [|lra]. destruct (Rle_dec 4 5); [|lra]. f_equal. lra.
  - rewrite Rabs_left by lra. destruct (Rle_dec 4 (- -5)); [|lra]. rewrite signR_neg by lra. f_equal. lra.
Qed.

(** * EPUS: a drying path on which the Fortran and the Python implementation give different void ratios *)
From Coq Require Import Reals List ZArith Bool Lia Lra String.
From Verif Require Import Base ConstitutiveModel ConstitutiveProofs LnBounds SwccModel EpusModel EpusExtModel EpusSpec EpusProofs1 EpusProofs2 EpusProofs3 PropsEpus PropsEpus2 PropsEpus3 PropsEpus4 PropsEpus5 PropsEpusExt.
Import ListNotations.
Local Open Scope R_scope.

Lemma cs_one p Str m s : 0 < sw_b (swcc p) -> Pore_shape p = 0 -> 0 < Str -> 0 < s -> ChangeSuction p Str m s = Ok 1.
Proof.
  intros B PS S I. unfold ChangeSuction, Rleb. destruct (Rle_dec (1 * m) s); [reflexivity|]. rewrite fdiv_nz by lra. cbn [bind]. destruct (Rle_dec _ s); [reflexivity|]. rewrite log10M_pos by auto. cbn [bind].
  destruct (Rle_dec _ 0); [reflexivity|]. rewrite !log10M_pos by lra. cbn [bind]. rewrite PS. match goal with |- context [1 - 0 * ?x] => replace (1 - 0 * x) with 1 by ring end. destruct (Rle_dec 1 0); reflexivity.
Qed.
Section OneGroup.
Variables (p : par) (Str ss : R) (q : pore).
Hypotheses (B : 0 < sw_b (swcc p)) (PS : Pore_shape p = 0) (HS : 0 < Str) (HW : 0 < ss) (HF : Filled q = true) (HY : 0 < YieldSt q).
Lemma drains : pow10 (AEV q) <= ss -> YieldSt q < Str + pow10 (AEV q) ->
  dry_pore p Str ss q = Ok (set_flags (set_volume q (pow10 (AEV q) + Str) (vol p q (pow10 (AEV q) + Str) (Str + ss))) false true) /\
  fdry_pore p Str ss q = Ok (set_flags (set_volume q (pow10 (AEV q) + Str) (vol p q (pow10 (AEV q) + Str) (pow10 (AEV q) + Str))) false true).
Proof.
  intros L Y. assert (I := pow10_pos (AEV q)). unfold dry_pore, fdry_pore. rewrite HF. rewrite !cs_one by auto. cbn [bind]. replace (pow10 (AEV q) / 1) with (pow10 (AEV q)) by field. rewrite (proj2 (Base.Rleb_true _ _)) by auto.
  rewrite (proj2 (Base.Rltb_true _ _)) by auto. rewrite !volume_pos by lra. cbn [bind]. auto.
Qed.
Lemma stays : ss < pow10 (AEV q) -> YieldSt q < Str + ss ->
  dry_pore p Str ss q = Ok (set_volume q (Str + ss) (vol p q (Str + ss) (Str + ss))) /\ fdry_pore p Str ss q = Ok (set_volume q (Str + ss) (vol p q (Str + ss) (Str + ss))).
Proof.
  intros L Y. assert (I := pow10_pos (AEV q)). unfold dry_pore, fdry_pore. rewrite HF. rewrite !cs_one by auto. cbn [bind]. replace (pow10 (AEV q) / 1) with (pow10 (AEV q)) by field. rewrite (proj2 (Base.Rleb_false _ _)) by auto.
  rewrite (proj2 (Base.Rltb_true _ _)) by auto. rewrite !volume_pos by lra. cbn [bind]. auto.
Qed.
End OneGroup.

Definition clay : par := make_par (mkSWCC 100 1 1 0 1) 0 1 None (Some 1) 0 1 0 0 1 0 1 2 2 2 0.
Definition clay_path : list step := [mkStep false 20 2 "dry to 20"%string].
Lemma clay_runnable : runnable clay.
Proof.
  assert (L := ln10_pos). unfold runnable, clay, make_par. cbn [swcc sw_a sw_b sw_wsat sw_wr Ccs logRS K0 NumSr MinSuction MaxSuction Gs Npoint sw_sl].
  split; [lra|]. split; [lra|]. split; [lra|]. split; [lra|]. split; [lra|]. split; [lia|]. split; [lra|]. split.
  - assert (ln (27 / 10 * 1) < ln 10) by (apply ln_increasing; lra). lra.
  - intros i I. do 2 (destruct i as [|i]; [cbn; intros E; lra|]). lia.
Qed.
Lemma p10_1 : Rpower 10 1 = 10. Proof. apply Rpower_1. lra. Qed.
(** The second group: air entry at 10. *)
Lemma clay_group q : slurry_pore clay 1 = Ok q -> AEV q = 1 /\ Csp q = Ccp q /\ 0 < Ccp q /\ 2 * Ccp q < RV q /\ Filled q = true /\ YieldSt q = 1 / 10000.
Proof.
  intros H. assert (A : 0 < sw_a (swcc clay)) by (cbn; lra). assert (B : 0 < sw_b (swcc clay)) by (cbn; lra). destruct (C158_group _ _ _ A B H) as (E1 & E2 & E3 & _ & E5 & _).
  assert (FY : Filled q = true /\ YieldSt q = 1 / 10000). { clear - H. unfold slurry_pore in H. destruct (dry_pore_size clay 1); [|discriminate]. cbn [bind] in H. injection H as <-. auto. } destruct FY as (F & Y).
  assert (W : width clay = 1) by (unfold width; cbn; lra). rewrite W in *. assert (X : MinSuction clay + INR 1 * 1 = 1) by (cbn; lra). rewrite X in *. clear X. replace (1 + 1) with (INR 2) in * by (cbn; lra). rewrite (Rpower_pow 2 10) in * by lra. rewrite p10_1 in *.
  assert (P6 : Rpower 10 (- 6 * 1) = / 1000000). { replace (- 6 * 1) with (- INR 6) by (cbn; ring). rewrite Rpower_Ropp, Rpower_pow by lra. f_equal. ring. }
  assert (P6' : Rpower 10 (6 * 1) = 1000000). { replace (6 * 1) with (INR 6) by (cbn; ring). rewrite Rpower_pow by lra. ring. }
  assert (D : density clay 10 = (1 + / 1000000) / 121). { unfold density, clay, make_par. cbn [swcc sw_a sw_b]. rewrite P6, Rpower_1 by lra. field. }
  assert (C : Ccp q = 90 * (1 + / 1000000) / 121) by (rewrite E2, D; cbn [clay make_par Ccs sw_sl]; ring_simplify; field).
  split; [auto|]. split. { rewrite E2, E3. reflexivity. }
  split; [rewrite C; lra|]. split; [|auto]. rewrite E5. clear E2 E3 E5.
  set (DW := sw_DWc (swcc clay) (Gs clay) 10). assert (L := ln10_pos).
  assert (HD : 10 * ln 10 * DW <= - ((1 - / 100000) / 11 * 99 * 10 / 77)).
  { unfold DW, sw_DWc, clay, make_par. cbn [swcc sw_a sw_b sw_wsat sw_wr sw_sl Gs]. cbn zeta. unfold million. rewrite P6, P6'. rewrite (Rpower_1 10) by lra. replace (1 / 1) with 1 by field. rewrite (Rpower_1 1) by lra.
    set (M := ln (1 + 1000000 / 1)). assert (M1 : M < 7 * ln 10). { unfold M. replace (7 * ln 10) with (ln (10 ^ 7)) by (rewrite ln_pow by lra; cbn [INR]; ring). apply ln_increasing; lra. }
    assert (M2 : ln (1 + 10 / 1) < M) by (unfold M; apply ln_increasing; lra). assert (M0 : 0 < ln (1 + 10 / 1)) by (rewrite <- ln_1; apply ln_increasing; lra).
    set (N := ln (1 + 10 / 1)) in *. set (T3 := (1 - 1 * 10 / 1000000) / (10 + 1)). assert (E3 : T3 = (1 - / 100000) / 11) by (unfold T3; field).
    assert (T5 : 0 <= 1 - N / M). { assert (N / M <= 1); [|lra]. apply Rmult_le_reg_r with M; [lra|]. unfold Rdiv. rewrite Rmult_assoc, Rinv_l by lra. lra. }
    assert (E1' : 100 - 1 * ln 10 / (ln 10 * 1) - 0 = 99) by (field; lra). rewrite E1'.
    match goal with |- context [(99 * ?t2 - T3 * ?t4) * _] => assert (T2 : t2 <= 0) by (unfold Rdiv; rewrite (Rmult_comm _ (/ _)); assert (0 < / (10 * (10 + 1) ^ 2)) by (apply Rinv_0_lt_compat; lra); nra); assert (T4 : 0 <= t4) by (apply Rmult_le_pos; [lra|left; apply Rinv_0_lt_compat; lra]); set (t2' := t2) in *; set (t4' := t4) in * end.
    assert (A1 : (99 * t2' - T3 * t4') * (1 - N / M) <= 0). { assert (99 * t2' - T3 * t4' <= 0). { assert (0 <= T3 * t4') by (apply Rmult_le_pos; [rewrite E3; lra|auto]). lra. } nra. }
    assert (A2 : (T3 * 99 + 0) / (1 * (1 + 10 / 1) * M) = T3 * 9 * / M) by (field; lra). rewrite A2.
    assert (A3 : / 7 <= ln 10 * / M). { apply Rmult_le_reg_r with M; [lra|]. rewrite Rmult_assoc, Rinv_l by lra. lra. }
    assert (A4 : 0 <= 10 * ln 10) by lra. assert (A5 : 10 * ln 10 * ((99 * t2' - T3 * t4') * (1 - N / M)) <= 0) by nra.
    assert (A6 : T3 * 90 * / 7 <= T3 * 90 * (ln 10 * / M)) by (apply Rmult_le_compat_l; [rewrite E3; lra|auto]). rewrite Rmult_minus_distr_l. rewrite E3 in *. lra. }
  rewrite C. cbn [clay make_par Gs Ccs sw_sl sw_a sw_b swcc]. cbn [clay make_par Gs swcc] in DW. assert (R1 : Rpower (10 / 1000000) 1 = / 100000) by (rewrite Rpower_1 by lra; field). rewrite R1, (Rpower_1 10) by lra. cbn [INR]. fold DW. nra.
Qed.
Lemma clay_first q : slurry_pore clay 0 = Ok q -> AEV q = 0 /\ Filled q = true /\ YieldSt q = 1 / 10000.
Proof.
  intros H. assert (A : 0 < sw_a (swcc clay)) by (cbn; lra). assert (B : 0 < sw_b (swcc clay)) by (cbn; lra). destruct (C158_group _ _ _ A B H) as (E1 & _). split; [rewrite E1; cbn; lra|].
  unfold slurry_pore in H. destruct (dry_pore_size clay 0); [|discriminate]. cbn [bind] in H. injection H as <-. auto.
Qed.
Lemma p10 x y : Rpower 10 x = y -> pow10 x = y. Proof. intros <-. unfold Rpower, pow10. f_equal. ring. Qed.
(** Both implementations on the two groups: at a suction of 1 the first drains, at 20 the second. *)
Definition after1 (q0 q1 : pore) : list pore :=
  [set_flags (set_volume q0 (1 + 1 / 1000) (vol clay q0 (1 + 1 / 1000) (1 + 1 / 1000))) false true; set_volume q1 (1 + 1 / 1000) (vol clay q1 (1 + 1 / 1000) (1 + 1 / 1000))].
Definition after2 (q0 q1 : pore) (c : R) : list pore :=
  [set_flags (set_volume q0 (1 + 1 / 1000) (vol clay q0 (1 + 1 / 1000) (1 + 1 / 1000))) false true;
   set_flags (set_volume q1 (10 + 1 / 1000) (vol clay q1 (10 + 1 / 1000) c)) false true].
Lemma first_points q0 q1 : slurry_pore clay 0 = Ok q0 -> slurry_pore clay 1 = Ok q1 ->
  mapM (dry_pore clay (1 / 1000) 1) [q0; q1] = Ok (after1 q0 q1) /\ mapM (fdry_pore clay (1 / 1000) 1) [q0; q1] = Ok (after1 q0 q1).
Proof.
  intros H0 H1. apply clay_first in H0 as (A0 & F0 & Y0). apply clay_group in H1 as (A1 & _ & _ & _ & F1 & Y1).
  assert (P0 : pow10 (AEV q0) = 1) by (rewrite A0; apply p10; apply Rpower_O; lra). assert (P1 : pow10 (AEV q1) = 10) by (rewrite A1; apply p10; apply p10_1).
  assert (B : 0 < sw_b (swcc clay)) by (cbn; lra). assert (PS : Pore_shape clay = 0) by reflexivity.
  destruct (drains clay (1 / 1000) 1 q0 B PS) as (D1 & D2); auto; try lra. rewrite P0 in D1, D2. destruct (stays clay (1 / 1000) 1 q1 B PS) as (S1 & S2); auto; try lra.
  replace (1 / 1000 + 1) with (1 + 1 / 1000) in * by ring. unfold after1. cbn [mapM]. rewrite D1, D2, S1, S2. auto.
Qed.
Lemma second_points q0 q1 : slurry_pore clay 0 = Ok q0 -> slurry_pore clay 1 = Ok q1 ->
  mapM (dry_pore clay (1 / 1000) 20) (after1 q0 q1) = Ok (after2 q0 q1 (1 / 1000 + 20)) /\ mapM (fdry_pore clay (1 / 1000) 20) (after1 q0 q1) = Ok (after2 q0 q1 (10 + 1 / 1000)).
Proof.
  intros H0 H1. apply clay_group in H1 as (A1 & _ & _ & _ & F1 & Y1).
  assert (P1 : pow10 (AEV q1) = 10) by (rewrite A1; apply p10; apply p10_1).
  assert (B : 0 < sw_b (swcc clay)) by (cbn; lra). assert (PS : Pore_shape clay = 0) by reflexivity. unfold after1, after2. cbn [mapM].
  destruct (drains clay (1 / 1000) 20 (set_volume q1 (1 + 1 / 1000) (vol clay q1 (1 + 1 / 1000) (1 + 1 / 1000))) B PS) as (D1 & D2); cbn [set_volume Filled YieldSt AEV]; auto; try lra.
  cbn [set_volume Filled YieldSt AEV] in D1, D2. rewrite P1 in D1, D2. fold (set_volume q1 (1 + 1 / 1000) (vol clay q1 (1 + 1 / 1000) (1 + 1 / 1000))) in D1, D2. rewrite D1, D2.
  unfold dry_pore at 1, fdry_pore at 1. cbn [set_flags Filled bind]. auto.
Qed.
Lemma smaller q1 : slurry_pore clay 1 = Ok q1 -> vol clay q1 (10 + 1 / 1000) (1 / 1000 + 20) < vol clay q1 (10 + 1 / 1000) (10 + 1 / 1000).
Proof.
  intros H. apply clay_group in H as (_ & EC & C0 & RV0 & _). unfold vol. rewrite EC. set (y := 10 + 1 / 1000). assert (L1 : log10 y < 2). { replace 2 with (log10 100). apply log10_lt; unfold y; lra. replace 100 with (pow10 2); [apply log10_pow10|apply p10; replace 2 with (INR 2) by (cbn; ring); rewrite Rpower_pow by lra; ring]. }
  assert (L2 : log10 y < log10 (1 / 1000 + 20)) by (apply log10_lt; unfold y; lra). cbn [clay make_par MinSuction]. rewrite (Rmax_right 0 (RV q1 - (log10 y - 0) * Ccp q1 + (log10 y - log10 y) * Ccp q1)) by nra.
  apply Rmax_lub_lt; nra.
Qed.
(** Known defect: the two implementations disagree on a path that dries the soil. *)
Theorem C164_drying_refuted : runnable clay /\ proper clay /\ Assumption clay <> 1%Z /\ List.Forall (runnable_step clay) clay_path /\
  exists r ds, Calresults clay clay_path (new_object clay) = Ok r /\ (forall m1 m2 outside, FCalresults clay clay_path m1 m2 outside = Ok ds) /\
  exists a b, nth_error (List.concat (snd r)) 1 = Some a /\ nth_error (List.concat ds) 1 = Some b /\ d_ss a = 20 /\ d_ss b = 20 /\ d_st a = d_st b /\ d_e a < d_e b.
Proof.
  assert (HR := clay_runnable). split; [auto|]. split. { unfold proper, clay, make_par. cbn [swcc sw_a sw_b Ccs Css MinSuction MaxSuction sw_sl]. lra. }
  assert (AS : Assumption clay <> 1%Z) by (cbn; lia). split; [auto|].
  assert (P2 : Rpower 10 2 = 100). { replace 2 with (INR 2) by (cbn; ring). rewrite Rpower_pow by lra. ring. }
  assert (P0 : Rpower 10 0 = 1) by (apply Rpower_O; lra).
  assert (RS : List.Forall (runnable_step clay) clay_path). { constructor; [|constructor]. unfold runnable_step. cbn [vl npp ist clay make_par MinSuction MaxSuction]. rewrite P2, P0. split; [lra|]. split; [lia|]. intros; lra. }
  split; [auto|].
  assert (SL : forall i, (i < 2)%nat -> exists q, slurry_pore clay i = Ok q). { destruct (slurry_total clay HR (new_object clay)) as (o & E & _); [reflexivity|reflexivity|]. unfold SlurryPoreSize in E. cbn [Npoint clay make_par seq mapM] in E. intros [|[|i]] I; [| |lia].
    - destruct (slurry_pore _ 0) eqn:X; [eauto|discriminate].
    - destruct (slurry_pore _ 0); [|discriminate]. cbn [bind] in E. destruct (slurry_pore _ 1) eqn:X; [eauto|discriminate]. }
  destruct (SL 0%nat ltac:(lia)) as (q0 & Q0). destruct (SL 1%nat ltac:(lia)) as (q1 & Q1). clear SL.
  destruct (first_points q0 q1 Q0 Q1) as (F1 & F2). destruct (second_points q0 q1 Q0 Q1) as (S1 & S2).
  assert (M0 : pow10 (MinSuction clay) = 1) by (apply p10; exact P0).
  assert (SP : forall o, SlurryPoreSize clay o = Ok (mkState [q0; q1] 1 (1 / 1000) 1 1 (Srdry o) (Srwet o))). { intros o. unfold SlurryPoreSize. rewrite M0. change (seq 0 (Npoint clay)) with [0%nat; 1%nat]. cbn [mapM]. rewrite Q0, Q1. reflexivity. }
  assert (IV : interval 20 1 2 = Ok (log10 20)). { unfold interval. rewrite !log10M_pos by lra. cbn [bind]. rewrite log10_1, fdiv_nz by (cbn; lra). f_equal. cbn. field. }
  assert (L20 : 0 < log10 20) by (rewrite <- log10_1; apply log10_lt; lra).
  assert (J0 : pow10 (INR 0 * log10 20 + log10 1) = 1) by (rewrite log10_1; cbn [INR]; rewrite Rmult_0_l, Rplus_0_l; apply p10; exact P0).
  assert (J1 : pow10 (INR 1 * log10 20 + log10 1) = 20) by (rewrite log10_1; cbn [INR]; rewrite Rmult_1_l, Rplus_0_r; apply pow10_log10; lra).
  assert (DR : forall ss m1 m2 o f, List.length m1 = NumSr clay -> 1 <= ss <= 100 -> mapM (dry_pore clay (1 / 1000) ss) o = Ok f -> forall s0 rf, exists rf', Drying clay ss (mkState o s0 (1 / 1000) 1 rf m1 m2) = Ok (mkState f ss (1 / 1000) 1 rf' m1 m2)).
  { intros ss m1 m2 o f LM SS E s0 rf. destruct (index_ok clay HR m1 ss LM) as (r & X). { cbn [clay make_par MinSuction MaxSuction]. rewrite P2, P0. lra. } exists r. unfold Drying, dry_reference. cbn [Curveon Z.eqb Pos.eqb Stress pores Srdry Srwet].
    change (RfSr_dry clay (mkState o s0 (1 / 1000) 1 rf m1 m2) ss = Ok r) in X. rewrite X. cbn [bind]. rewrite E. cbn [bind fst snd]. reflexivity. }
  assert (FR : forall ss m1 m2 out o f, 1 <= ss -> mapM (fdry_pore clay (1 / 1000) ss) o = Ok f -> forall s0 rf, exists rf', FDrying clay out ss (mkState o s0 (1 / 1000) 1 rf m1 m2) = Ok (mkState f ss (1 / 1000) 1 rf' m1 m2)).
  { intros ss m1 m2 out o f SS E s0 rf. assert (X : exists r, fRfSr clay out m1 ss = Ok r). { unfold fRfSr, fRfSr_index. rewrite log10M_pos by lra. cbn [bind]. rewrite fdiv_nz by (cbn; lra). cbn [bind]. rewrite fdiv_nz by (cbn; lra). cbn [bind]. eauto. }
    destruct X as (r & X). exists r. unfold FDrying, fdry_reference. cbn [Curveon Z.eqb Pos.eqb Stress pores Srdry Srwet]. rewrite X. cbn [bind]. rewrite E. cbn [bind fst snd]. reflexivity. }
  set (m := repeat 0 2). set (fin1 := finish clay 1 (1 / 1000) (void_ratio (after1 q0 q1)) (water_content clay (after1 q0 q1))).
  set (fin2 := fun c => finish clay 20 (1 / 1000) (void_ratio (after2 q0 q1 c)) (water_content clay (after2 q0 q1 c))).
  assert (RUN : exists o', Calresults clay clay_path (new_object clay) = Ok (o', [[fin1; fin2 (1 / 1000 + 20)]])).
  { unfold Calresults. change (Z.eqb (Assumption clay) 1) with false. cbn [bind]. rewrite SP. cbn [bind Suction Stress]. change (Srdry (new_object clay)) with m. change (Srwet (new_object clay)) with m. unfold clay_path. cbn [run_steps]. unfold run_step. cbn [ist vl npp]. rewrite IV. cbn [bind seq run_points]. rewrite J0, J1. rewrite (proj2 (Base.Rltb_true _ _)) by auto.
    edestruct (DR 1 m m [q0; q1] _ eq_refl ltac:(lra) F1) as (r1 & E1). rewrite E1. cbn [bind]. edestruct (DR 20 m m (after1 q0 q1) _ eq_refl ltac:(lra) S1) as (r2 & E2). rewrite E2. cbn [bind fst snd pores]. eexists. reflexivity. }
  assert (FRUN : forall m1 m2 outside, FCalresults clay clay_path m1 m2 outside = Ok [[fin1; fin2 (10 + 1 / 1000)]]).
  { intros m1 m2 out. unfold FCalresults. change (Z.eqb (Assumption clay) 1) with false. cbn zeta. cbn [bind]. rewrite SP. cbn [bind Suction Stress Srdry Srwet]. unfold clay_path. cbn [frun_steps]. unfold frun_step. cbn [ist vl npp]. rewrite IV. cbn [bind seq run_points]. rewrite J0, J1. rewrite (proj2 (Base.Rltb_true _ _)) by auto.
    edestruct (FR 1 m1 m2 out [q0; q1] _ ltac:(lra) F2) as (r1 & E1). rewrite E1. cbn [bind]. edestruct (FR 20 m1 m2 out (after1 q0 q1) _ ltac:(lra) S2) as (r2 & E2). rewrite E2. cbn [bind fst snd pores]. reflexivity. }
  destruct RUN as (o' & RUN). eexists _, _. split; [exact RUN|]. split; [exact FRUN|]. exists (fin2 (1 / 1000 + 20)), (fin2 (10 + 1 / 1000)). split; [reflexivity|]. split; [reflexivity|].
  unfold fin2, finish. cbn [d_ss d_st d_e]. unfold capped. rewrite (proj2 (Base.Rleb_false 999999 20)) by lra. repeat (match goal with |- _ /\ _ => split end); auto.
  unfold void_ratio, after2. cbn [map set_flags set_volume RVC]. rewrite !rsuml_cons. assert (X := smaller q1 Q1). lra.
Qed.

(** * EPUS: the soil of the docstrings on a path of four steps meets the hypotheses of C156 to C163 *)
From Coq Require Import Reals List ZArith Bool Lia Lra String.
From Verif Require Import Base ConstitutiveModel ConstitutiveProofs LnBounds SwccModel EpusModel EpusSpec EpusProofs1 EpusProofs2 EpusProofs3 PropsEpus PropsEpus2 PropsEpus3 PropsEpus4 PropsEpus5.
Import ListNotations.
Local Open Scope R_scope.

Definition silt : SWCC := mkSWCC (262 / 1000) 3100000 (3377 / 1000) (128 / 1000) (115 / 1000).
Definition silt_par : par := make_par silt (6 / 10) 2 None (Some (19 / 1000)) 0 (27 / 10) 0 (1 / 10) 1 1 1 10 400 6 (-3).
Definition silt_path : list path_dict :=
  [mkDict (Some true) (Some 20) None (Some "1. Load to 20kPa"%string); mkDict (Some false) (Some 1000) (Some 50%nat) (Some "2. Dry to 1000kPa"%string);
   mkDict (Some false) (Some 10) None (Some "3. Wet to 10kPa"%string); mkDict None (Some 5) (Some 7%nat) (Some "4. Unload to 5kPa"%string)].
Lemma ln_837 : ln (27 / 10 * 3100000) < 8 * ln 10.
Proof. replace (8 * ln 10) with (ln (10 ^ 8)) by (rewrite ln_pow by lra; cbn [INR]; ring). apply ln_increasing; lra. Qed.
Theorem C163_example : exists l r,
  proper silt_par /\ runnable silt_par /\ 0 < Gs silt_par /\ 0 <= beta silt_par <= 1 /\ - (1 / 2) <= K0 silt_par /\ used silt_par (new_object silt_par) /\
  1 <= logRS silt_par /\ 0 <= gap silt_par /\ tail silt_par < 6 /\
  StressPath silt_path = Ok l /\ at_stress silt_par (firstn 3 l) = 20 /\ at_suction silt_par (firstn 2 l) = 1000 /\ Calresults silt_par l (new_object silt_par) = Ok r.
Proof.
  assert (L := ln10_pos). assert (L8 := ln_837). assert (B := ln10_bounds).
  assert (HR : runnable silt_par).
  { unfold runnable, silt_par, make_par. cbn [swcc sw_a sw_b sw_wsat sw_wr Ccs logRS K0 NumSr MinSuction MaxSuction Gs Npoint silt sw_sl].
    split; [lra|]. split; [lra|]. split; [lra|]. split; [lra|]. split; [lra|]. split; [lia|]. split; [lra|]. split.
    - intros E. assert (X : ln (27 / 10 * 3100000) = 6 * ln 10 * (3377 / 1000)) by (rewrite <- E; field). lra.
    - intros i I. do 10 (destruct i as [|i]; [cbn; intros E; lra|]). lia. }
  assert (RS : List.Forall (runnable_step silt_par) [mkStep true 20 100 "1. Load to 20kPa"%string; mkStep false 1000 50 "2. Dry to 1000kPa"%string; mkStep false 10 100 "3. Wet to 10kPa"%string; mkStep true 5 7 "4. Unload to 5kPa"%string]).
  { assert (P6 : Rpower 10 6 = 1000000). { replace 6 with (INR 6) by (cbn; ring). rewrite Rpower_pow by lra. ring. }
    assert (P3 : Rpower 10 (-3) = / 1000). { replace (-3) with (- INR 3) by (cbn; ring). rewrite Rpower_Ropp, Rpower_pow by lra. f_equal. ring. }
    repeat (apply List.Forall_cons); [| | | |apply List.Forall_nil]; unfold runnable_step; cbn [vl npp ist silt_par make_par MinSuction MaxSuction]; rewrite ?P6, ?P3; (split; [lra|split; [lia|intros; try discriminate; lra]]). }
  assert (US : used silt_par (new_object silt_par)) by constructor.
  assert (AS : Assumption silt_par <> 1%Z) by (cbn; lia).
  destruct (C163_runs silt_par _ _ HR AS US RS) as (r & E). eexists _, r. split; [|split; [exact HR|]].
  { unfold proper, silt_par, make_par. cbn [swcc sw_a sw_b Ccs Css MinSuction MaxSuction silt sw_sl]. lra. }
  split; [cbn; lra|]. split; [cbn; lra|]. split; [cbn; lra|]. split; [auto|]. split; [cbn; lra|].
  assert (P27 : 0 < log10 (27 / 10) < 1 / 2).
  { split; [rewrite <- log10_1; apply log10_lt; lra|]. unfold log10. apply Rmult_lt_reg_r with (ln 10); auto. unfold Rdiv at 1. rewrite Rmult_assoc, Rinv_l, Rmult_1_r by lra. assert (2 * ln (27 / 10) < ln 10); [|lra].
    replace (2 * ln (27 / 10)) with (ln ((27 / 10) ^ 2)) by (rewrite ln_pow by lra; cbn [INR]; ring). apply ln_increasing; lra. }
  split. { unfold gap, silt_par, make_par. cbn [logDS logRS swcc sw_b silt]. lra. }
  split. { unfold tail, silt_par, make_par. cbn [swcc sw_a sw_b silt]. unfold log10. assert (ln (27 / 10 * 3100000) / ln 10 < 8). { apply Rmult_lt_reg_r with (ln 10); auto. unfold Rdiv. rewrite Rmult_assoc, Rinv_l by lra. lra. } lra. }
  split; [reflexivity|]. split; [reflexivity|]. split; [reflexivity|]. exact E.
Qed.

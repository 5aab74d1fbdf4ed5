(** * EPUS in Fortran: the same phase relations; where it agrees with the Python implementation and where not *)
From Coq Require Import Reals List ZArith Bool Lia Lra String.
From Verif Require Import Base ConstitutiveModel ConstitutiveProofs LnBounds SwccModel EpusModel EpusExtModel EpusSpec EpusProofs1 EpusProofs2 EpusProofs3 PropsEpus PropsEpus2 PropsEpus3 PropsEpus4 PropsEpus5.
Import ListNotations.
Local Open Scope R_scope.

Lemma fdry_stepped p Str ss q q' : fdry_pore p Str ss q = Ok q' -> stepped q q'.
Proof.
  unfold fdry_pore. destruct (Filled q) eqn:F; intros H.
  2:{ injection H as <-. apply stepped_refl; auto. }
  unbind H. destruct (Rleb _ _) eqn:L.
  - unbind H. injection H as <-. apply volume_ok in Q1 as (P1 & P2 & ->). fin.
    assert (Y : YieldSt q <= (if Rltb (YieldSt q) (Str + pow10 (AEV q) / a0) then pow10 (AEV q) / a0 + Str else YieldSt q)) by (unfold Rltb; destruct (Rlt_dec _ _); lra).
    repeat split; auto. intros _. apply vol_nonneg.
  - unbind H. injection H as <-. apply volume_ok in Q0 as (P1 & P2 & ->). fin.
    assert (Y : YieldSt q <= (if Rltb (YieldSt q) (Str + ss) then Str + ss else YieldSt q)) by (unfold Rltb; destruct (Rlt_dec _ _); lra).
    repeat split; auto. intros _. apply vol_nonneg.
Qed.
(** One call of the Fortran subroutines. *)
Definition fcall (p : par) (outside : Z -> R) (m : method) (o : state) : result state :=
  match m with Dry x => FDrying p outside x o | Wet x => FWetting p outside x o | Load x => Loading p x o | Unload x => Unloading p x o end.
Lemma fmethod_groups p out m o o' : fcall p out m o = Ok o' -> Forall2 stepped (pores o) (pores o').
Proof.
  destruct m; cbn [fcall]; [| |apply (method_groups p (Load st))|apply (method_groups p (Unload st))]; unfold FDrying, FWetting; intros H; unbind H; injection H as <-; cbn [pores]; apply mapM_Ok_Forall2 in Q0; (eapply Forall2_impl; [|exact Q0]); intros q1 q2 E.
  - apply fdry_stepped in E. auto.
  - apply wet_stepped in E. tauto.
Qed.
Lemma fmethod_nonneg p out m o o' : fcall p out m o = Ok o' -> List.Forall dry_ok (pores o) -> List.Forall nonneg (pores o').
Proof.
  intros H. apply fmethod_groups in H. induction H as [|q q' l r (_ & _ & N & _) H IH]; intros F; constructor; inversion F; subst; auto. apply N. auto.
Qed.
Definition sound (p : par) (a : datum) : Prop := exists ss st f, List.Forall nonneg f /\ a = finish p ss st (void_ratio f) (water_content p f).
Lemma frun_points_sound p go js : (forall j, let '(op, _, _) := go j in exists out m, op = fcall p out m) -> forall o r, run_points p go js o = Ok r -> List.Forall dry_ok (pores o) ->
  List.Forall dry_ok (pores (fst r)) /\ List.Forall (sound p) (snd r).
Proof.
  intros G. induction js as [|j js IH]; intros o r H F; cbn [run_points] in H; [injection H as <-; cbn [fst snd]; split; [auto|constructor]|]. specialize (G j). destruct (go j) as [[op ss] st]. destruct G as (out & m & ->).
  destruct (fcall p out m o) as [o'|] eqn:E; [|discriminate]. cbn [bind] in H. destruct (run_points p go js o') as [r'|] eqn:E'; [|discriminate]. cbn [bind] in H. injection H as <-. cbn [fst snd].
  assert (N := fmethod_nonneg _ _ _ _ _ E F). destruct (IH _ _ E' (nonneg_dry_ok _ N)) as (I1 & I2). split; auto. constructor; auto. exists ss, st, (pores o'). auto.
Qed.
Lemma frun_step_sound p out s cs ct o r : frun_step p out s cs ct o = Ok r -> List.Forall dry_ok (pores o) -> List.Forall dry_ok (pores (fst (fst r))) /\ List.Forall (sound p) (snd (fst r)).
Proof.
  unfold frun_step. intros H F. destruct (ist s).
  - destruct (interval _ _ _) as [i|]; [|discriminate]. cbn [bind] in H. match type of H with bind ?m _ = _ => destruct m as [r'|] eqn:E; [|discriminate] end. cbn [bind] in H. injection H as <-. cbn [fst snd].
    eapply frun_points_sound; [|exact E|auto]. intros j. cbn zeta. destruct (Rltb 0 i); [exists out, (Load (pow10 (INR j * i + log10 ct) * CVStress p))|exists out, (Unload (pow10 (INR j * i + log10 ct) * CVStress p))]; reflexivity.
  - destruct (interval _ _ _) as [i|]; [|discriminate]. cbn [bind] in H. match type of H with bind ?m _ = _ => destruct m as [r'|] eqn:E; [|discriminate] end. cbn [bind] in H. injection H as <-. cbn [fst snd].
    eapply frun_points_sound; [|exact E|auto]. intros j. cbn zeta. destruct (Rltb 0 i); [exists out, (Dry (pow10 (INR j * i + log10 cs)))|exists out, (Wet (pow10 (INR j * i + log10 cs)))]; reflexivity.
Qed.
Lemma frun_steps_sound p out l : forall cs ct o r, frun_steps p out l cs ct o = Ok r -> List.Forall dry_ok (pores o) -> List.Forall (List.Forall (sound p)) r.
Proof.
  induction l as [|s l IH]; intros cs ct o r H F; cbn [frun_steps] in H; [injection H as <-; constructor|]. destruct (frun_step p out s cs ct o) as [[[o' d] [cs' ct']]|] eqn:E; [|discriminate]. cbn [bind] in H.
  destruct (frun_steps p out l cs' ct' o') as [r'|] eqn:E'; [|discriminate]. cbn [bind] in H. injection H as <-. destruct (frun_step_sound _ _ _ _ _ _ _ E F) as (F' & S'). cbn [fst snd] in *. constructor; eauto.
Qed.
(** C164: C159 for the Fortran implementation, whatever is in memory. *)
Theorem C164_saturation p l m1 m2 outside ds d : 0 < Gs p -> 0 <= beta p <= 1 -> FCalresults p l m1 m2 outside = Ok ds -> In d (List.concat ds) ->
  0 <= d_e d /\ 0 <= d_w d /\ d_w d * Gs p <= d_e d /\
  match d_Sr d, d_vw d with
  | Some sr, Some v => 0 < d_e d /\ 0 <= sr <= 1 /\ sr * d_e d = Gs p * d_w d /\ 0 <= v < 1 /\ v * (1 + d_e d) = Gs p * d_w d
  | None, None => d_e d = 0
  | _, _ => False
  end.
Proof.
  intros G B H I. unfold FCalresults in H. match type of H with bind ?m _ = _ => destruct m as [o1|]; [|discriminate] end. cbn [bind] in H. destruct (SlurryPoreSize p o1) as [o2|] eqn:E; [|discriminate]. cbn [bind] in H.
  apply frun_steps_sound in H; [|eapply slurry_dry_ok; eauto]. apply in_concat in I as (ds0 & I1 & I2). rewrite Forall_forall in H. specialize (H _ I1). rewrite Forall_forall in H. destruct (H _ I2) as (ss & st & f & N & ->). clear - N G B.
  destruct (water_bounds p f G B N) as (W1 & W2 & W3). unfold finish. cbn [d_e d_w d_Sr d_vw]. set (e := void_ratio f) in *. set (w := water_content p f) in *.
  repeat (match goal with |- _ /\ _ => split end); auto. unfold Reqb. destruct (Req_EM_T e 0) as [Z|Z]; [auto|].
  assert (E : 0 < e) by lra. assert (IE : 0 < / e) by (apply Rinv_0_lt_compat; auto). assert (IE1 : 0 < / (e + 1)) by (apply Rinv_0_lt_compat; lra). assert (GW : 0 <= w * Gs p) by (apply Rmult_le_pos; lra).
  assert (S1 : w * Gs p / e <= 1) by (apply Rmult_le_reg_r with e; auto; unfold Rdiv; rewrite Rmult_assoc, Rinv_l by lra; lra).
  assert (S0 : 0 <= w * Gs p / e) by (apply Rmult_le_pos; lra).
  assert (V : w * Gs p / e * e / (e + 1) = w * Gs p / (e + 1)) by (field; lra).
  repeat (match goal with |- _ /\ _ => split end); auto; [field; lra|rewrite V; apply Rmult_le_pos; lra| |rewrite V; field; lra].
  rewrite V. apply Rmult_lt_reg_r with (e + 1); [lra|]. unfold Rdiv. rewrite Rmult_assoc, Rinv_l by lra. lra.
Qed.
(** One call of Drying on the same groups: the same groups drain, with the same yield stresses, and all volumes are the same but those of the groups that drain. *)
Theorem C164_drying p outside ss o o' fo : Drying p ss o = Ok o' -> FDrying p outside ss o = Ok fo ->
  List.length (pores fo) = List.length (pores o') /\
  forall i q q' fq, nth_error (pores o) i = Some q -> nth_error (pores o') i = Some q' -> nth_error (pores fo) i = Some fq ->
    Filled fq = Filled q' /\ Airentrapped fq = Airentrapped q' /\ YieldSt fq = YieldSt q' /\ (Filled q = Filled q' -> fq = q').
Proof.
  unfold Drying, FDrying. intros H1 H2. unbind H1. unbind H2. injection H1 as <-. injection H2 as <-. cbn [pores]. apply mapM_Ok_Forall2 in Q0. apply mapM_Ok_Forall2 in Q2. split; [rewrite <- (Forall2_length _ _ _ Q0), <- (Forall2_length _ _ _ Q2); auto|].
  intros i q q' fq N1 N2 N3. assert (E1 : dry_pore p (Stress o) ss q = Ok q'). { clear - Q0 N1 N2. revert i N1 N2. induction Q0; intros [|i] N1 N2; cbn in *; try discriminate; [congruence|eauto]. }
  assert (E2 : fdry_pore p (Stress o) ss q = Ok fq). { clear - Q2 N1 N3. revert i N1 N3. induction Q2; intros [|i] N1 N2; cbn in *; try discriminate; [congruence|eauto]. }
  unfold dry_pore in E1. unfold fdry_pore in E2. destruct (Filled q) eqn:F; [|injection E1 as <-; injection E2 as <-; auto].
  unbind E1. cbn [bind] in E2. destruct (Rleb _ ss).
  - unbind E1. cbn [bind] in E2. injection E1 as <-. unbind E2. injection E2 as <-. cbn [set_flags set_volume Filled Airentrapped YieldSt]. repeat split; auto. discriminate.
  - unbind E1. injection E1 as <-. injection E2 as <-. auto.
Qed.
(** Dry pores incompressible: Wetting gives the same groups. *)
Theorem C164_wetting p outside ss o o' fo : Assumption p <> 1%Z -> Wetting p ss o = Ok o' -> FWetting p outside ss o = Ok fo -> pores fo = pores o' /\ Suction fo = Suction o' /\ Stress fo = Stress o'.
Proof.
  intros A. unfold Wetting, FWetting. intros H1 H2. unbind H1. unbind H2. injection H1 as <-. injection H2 as <-. cbn [pores Suction Stress]. split; [|auto].
  assert (X : forall r1 r2 q, wet_pore p (Stress o) r1 ss q = wet_pore p (Stress o) r2 ss q). { intros r1 r2 q. unfold wet_pore, dry_yield. destruct (Z.eqb_spec (Assumption p) 1); [contradiction|]. reflexivity. }
  match goal with A : mapM (wet_pore p (Stress o) ?r1 ss) _ = Ok _, B : mapM (wet_pore p (Stress o) ?r2 ss) _ = Ok ?f |- ?f = _ => rewrite (mapM_ext_in _ (wet_pore p (Stress o) r2 ss) (pores o) (fun q _ => X r1 r2 q)) in A; congruence end.
Qed.
(** On paths of stress changes only, the two implementations give the same results. *)
Definition alike_groups (o1 o2 : state) : Prop := pores o1 = pores o2 /\ Suction o1 = Suction o2 /\ Stress o1 = Stress o2 /\ RefSr o1 = RefSr o2.
Lemma load_alike p x o1 o2 : alike_groups o1 o2 -> match Loading p x o1, Loading p x o2 with Ok a, Ok b => alike_groups a b | Err e, Err e' => e = e' | _, _ => False end.
Proof. intros (A & B & C & D). unfold Loading. rewrite A, B, C, D. destruct (mapM _ _); cbn [bind]; [repeat split; auto|auto]. Qed.
Lemma unload_alike p x o1 o2 : alike_groups o1 o2 -> match Unloading p x o1, Unloading p x o2 with Ok a, Ok b => alike_groups a b | Err e, Err e' => e = e' | _, _ => False end.
Proof. intros (A & B & C & D). unfold Unloading. rewrite A, B. destruct (mapM _ _); cbn [bind]; [repeat split; auto|auto]. Qed.
Lemma points_alike p go js : (forall j o1 o2, alike_groups o1 o2 -> let '(op, _, _) := go j in match op o1, op o2 with Ok a, Ok b => alike_groups a b | Err e, Err e' => e = e' | _, _ => False end) ->
  forall o1 o2, alike_groups o1 o2 -> match run_points p go js o1, run_points p go js o2 with Ok a, Ok b => alike_groups (fst a) (fst b) /\ snd a = snd b | Err e, Err e' => e = e' | _, _ => False end.
Proof.
  intros G. induction js as [|j js IH]; intros o1 o2 A; cbn [run_points]; [auto|]. specialize (G j o1 o2 A). destruct (go j) as [[op ss] st]. destruct (op o1) as [a|], (op o2) as [b|]; try contradiction; cbn [bind]; auto.
  specialize (IH a b G). destruct (run_points p go js a), (run_points p go js b); try contradiction; cbn [bind]; auto. destruct IH as (I1 & I2). split; [auto|]. cbn [snd]. destruct G as (-> & _). congruence.
Qed.
Lemma stress_steps_alike p outside l : (forall s, In s l -> ist s = true) -> forall cs ct o1 o2, alike_groups o1 o2 ->
  match run_steps p l cs ct o1, frun_steps p outside l cs ct o2 with Ok a, Ok b => snd a = b | Err e, Err e' => e = e' | _, _ => False end.
Proof.
  induction l as [|s l IH]; intros S cs ct o1 o2 A; cbn [run_steps frun_steps]; [auto|]. unfold run_step, frun_step. rewrite (S s) by (cbn; auto). destruct (interval _ _ _) as [i|]; cbn [bind]; [|auto].
  match goal with |- context [run_points p ?go ?js o1] => assert (X := points_alike p go js) end. cbn beta zeta in X. specialize (X ltac:(intros j a b AB; destruct (Rltb 0 i); [apply load_alike|apply unload_alike]; auto) o1 o2 A).
  match goal with |- context [run_points p ?go ?js o1] => destruct (run_points p go js o1) as [a|], (run_points p go js o2) as [b|] end; try contradiction; cbn [bind]; auto. destruct X as (X1 & X2).
  specialize (IH (fun s I => S s (or_intror I)) cs (vl s) _ _ X1). destruct (run_steps p l cs (vl s) (fst a)), (frun_steps p outside l cs (vl s) (fst b)); try contradiction; cbn [bind]; auto. cbn [snd]. congruence.
Qed.
Theorem C164_agree p l m1 m2 outside o r ds : (forall s, In s l -> ist s = true) -> Calresults p l o = Ok r -> FCalresults p l m1 m2 outside = Ok ds -> snd r = ds.
Proof.
  intros S H1 H2. unfold Calresults in H1. unfold FCalresults in H2. match type of H1 with bind ?m _ = _ => destruct m as [o1|]; [|discriminate] end. match type of H2 with bind ?m _ = _ => destruct m as [f1|]; [|discriminate] end. cbn [bind] in *.
  unfold SlurryPoreSize in H1, H2. destruct (mapM _ _) as [f|]; [|discriminate]. cbn [bind Suction Stress] in *.
  pose proof (stress_steps_alike p outside l S (pow10 (MinSuction p)) (pow10 (MinSuction p) / 1000) (mkState f (pow10 (MinSuction p)) (pow10 (MinSuction p) / 1000) 1 1 (Srdry o1) (Srwet o1)) (mkState f (pow10 (MinSuction p)) (pow10 (MinSuction p) / 1000) 1 1 (Srdry f1) (Srwet f1))) as X.
  specialize (X ltac:(repeat split)). rewrite H1, H2 in X. exact X.
Qed.
(** Known defect: with Assumption = 1, the default, the wetting reference curve begins at 10^MaxSuction, and RfSr_value reads there one element beyond the end of the array. *)
Theorem C164_bounds_refuted p outside a : (0 < NumSr p)%nat -> MinSuction p < MaxSuction p -> List.length a = NumSr p ->
  fRfSr p outside a (Rpower 10 (MaxSuction p)) = Ok (outside (Z.of_nat (NumSr p))).
Proof.
  intros N M L. assert (E10 : Rpower 10 (MaxSuction p) = pow10 (MaxSuction p)) by (unfold Rpower, pow10; f_equal; ring). rewrite E10. unfold fRfSr, fRfSr_index. rewrite log10M_pos by apply pow10_pos. cbn [bind]. rewrite log10_pow10.
  assert (N0 : 0 < INR (NumSr p)) by (apply lt_0_INR; auto). rewrite fdiv_nz by lra. cbn [bind]. assert (0 < (MaxSuction p - MinSuction p) / INR (NumSr p)) by (apply Rdiv_lt_0_compat; lra). rewrite fdiv_nz by lra. cbn [bind].
  replace ((MaxSuction p - MinSuction p) / ((MaxSuction p - MinSuction p) / INR (NumSr p))) with (INR (NumSr p)) by (field; lra).
  assert (PI : py_int (INR (NumSr p)) = Z.of_nat (NumSr p)). { unfold py_int, Rltb. destruct (Rlt_dec _ _); [lra|]. rewrite INR_IZR_INZ. unfold Int_part. rewrite <- (tech_up (IZR (Z.of_nat (NumSr p))) (Z.of_nat (NumSr p) + 1)%Z); [lia| |]; rewrite plus_IZR; lra. }
  rewrite PI. unfold fread. destruct (Z.ltb_spec (Z.of_nat (NumSr p)) 0); [lia|]. rewrite Nat2Z.id. rewrite (proj2 (nth_error_None a (NumSr p))) by lia. reflexivity.
Qed.

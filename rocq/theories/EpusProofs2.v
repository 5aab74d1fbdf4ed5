(** * EPUS: groups along runs *)
From Coq Require Import Reals List ZArith Bool Lia Lra.
From Coquelicot Require Import Rcomplements.
From Verif Require Import Base ConstitutiveModel ConstitutiveProofs SwccModel EpusModel EpusSpec EpusProofs1.
Import ListNotations.
Local Open Scope R_scope.

Lemma Forall2_impl {A B} (P Q : A -> B -> Prop) l r : (forall a b, P a b -> Q a b) -> Forall2 P l r -> Forall2 Q l r.
Proof. intros H. induction 1; constructor; auto. Qed.
Lemma Forall2_length {A B} (P : A -> B -> Prop) l r : Forall2 P l r -> length l = length r.
Proof. induction 1; cbn; auto. Qed.
Lemma rsuml_acc l a : fold_left Rplus l a = a + fold_left Rplus l 0.
Proof. revert a. induction l as [|x l IH]; intros a; cbn; [ring|]. rewrite IH, (IH (0 + x)). ring. Qed.
Lemma rsuml_cons a l : rsuml (a :: l) = a + rsuml l.
Proof. unfold rsuml. cbn. rewrite rsuml_acc. ring. Qed.
Lemma rsuml_total l : rsuml l = total l.
Proof. induction l as [|a l IH]; [reflexivity|]. rewrite rsuml_cons, IH. reflexivity. Qed.
Lemma void_cons q f : void_ratio (q :: f) = RVC q + void_ratio f. Proof. apply rsuml_cons. Qed.
Lemma water_cons p q f : water_content p (q :: f) = (if Filled q then if Airentrapped q then RVC q / Gs p * (1 - beta p) else RVC q / Gs p else 0) + water_content p f.
Proof. unfold water_content. cbn [filter]. destruct (Filled q); [cbn [map]; apply rsuml_cons|ring]. Qed.

(** A method maps every group. *)
Lemma method_groups p m o o' : call p m o = Ok o' -> Forall2 stepped (pores o) (pores o').
Proof.
  destruct m; cbn [call]; unfold Drying, Wetting, Loading, Unloading; intros H; unbind H; injection H as <-; cbn [pores].
  - apply mapM_Ok_Forall2 in Q0. eapply Forall2_impl; [|exact Q0]. intros q1 q2 E. apply dry_stepped in E. tauto.
  - apply mapM_Ok_Forall2 in Q0. eapply Forall2_impl; [|exact Q0]. intros q1 q2 E. apply wet_stepped in E. tauto.
  - apply mapM_Ok_Forall2 in Q. eapply Forall2_impl; [|exact Q]. intros q1 q2 E. apply load_stepped in E. tauto.
  - apply mapM_Ok_Forall2 in Q. eapply Forall2_impl; [|exact Q]. intros q1 q2 E. apply unload_stepped in E. tauto.
Qed.
(** No negative volumes among the dry groups; stiff groups. *)
Definition dry_ok (q : pore) : Prop := Filled q = true \/ 0 <= RVC q.
Definition nonneg (q : pore) : Prop := 0 <= RVC q.
Lemma method_nonneg p m o o' : call p m o = Ok o' -> List.Forall dry_ok (pores o) -> List.Forall nonneg (pores o').
Proof. intros H D. apply method_groups in H. revert D. induction H; intros D; constructor; inversion D; subst; auto. apply H. auto. Qed.
Lemma nonneg_dry_ok l : List.Forall nonneg l -> List.Forall dry_ok l.
Proof. apply Forall_impl. intros a H. right. exact H. Qed.
Lemma method_stiff p m o o' : call p m o = Ok o' -> List.Forall stiff (pores o) -> List.Forall stiff (pores o').
Proof.
  intros H D. apply method_groups in H. revert D. induction H; intros D; constructor; inversion D; subst; auto.
  destruct H as ((_ & _ & A & B & _) & _). unfold stiff in *. rewrite A, B. auto.
Qed.
(** The water never fills more than the voids. *)
Lemma water_bounds p f : 0 < Gs p -> 0 <= beta p <= 1 -> List.Forall nonneg f -> 0 <= water_content p f /\ water_content p f * Gs p <= void_ratio f /\ 0 <= void_ratio f.
Proof.
  intros G B. induction 1 as [|q f Hq Hf (I1 & I2 & I3)]. { unfold water_content, void_ratio, rsuml. cbn. lra. }
  rewrite water_cons, void_cons. unfold nonneg in Hq. assert (D : 0 <= RVC q / Gs p) by (apply Rmult_le_pos; [auto|left; apply Rinv_0_lt_compat; auto]).
  assert (E : RVC q / Gs p * Gs p = RVC q) by (field; lra). set (x := RVC q / Gs p) in *.
  assert (F : 0 <= (if Filled q then if Airentrapped q then x * (1 - beta p) else x else 0) <= x).
  { destruct (Filled q), (Airentrapped q); try lra. split; [apply Rmult_le_pos; lra|]. rewrite <- (Rmult_1_r x) at 2. apply Rmult_le_compat_l; lra. }
  repeat split; try lra. assert ((if Filled q then if Airentrapped q then x * (1 - beta p) else x else 0) * Gs p <= x * Gs p) by (apply Rmult_le_compat_r; lra). lra.
Qed.

(** ** The slurry *)
Lemma pow10_mono a b : a <= b -> pow10 a <= pow10 b.
Proof. intros [H| ->]; [left; unfold pow10; apply exp_increasing; apply Rmult_lt_compat_l; [apply ln10_pos|auto]|right; auto]. Qed.
Lemma fdiv_ok a b v : fdiv a b = Ok v -> b <> 0 /\ v = a / b.
Proof. unfold fdiv, Reqb. destruct (Req_EM_T b 0); [discriminate|]. intros H. split; congruence. Qed.
Lemma slurry_facts p i q : slurry_pore p i = Ok q ->
  Filled q = true /\ Airentrapped q = false /\ YieldSt q = 1 / 10000 /\ RVC q = RV q /\ AEV q = MinSuction p + INR i * ((MaxSuction p - MinSuction p) / INR (Npoint p)) /\
  (proper p -> stiff q).
Proof.
  intros H. unfold slurry_pore in H. cbn zeta in H. unbind H. injection H as <-. unfold dry_pore_size in Q. cbn zeta in Q. unbind Q. injection Q as <-.
  cbn [AEV WEV Ccp Csp Ccd RV YieldSt Filled RVC Airentrapped]. repeat (match goal with |- _ /\ _ => split end); auto; [ring|].
  intros (A & B & C & D). unfold stiff. cbn [Ccp Csp]. set (s := pow10 _). set (i0 := (MaxSuction p - MinSuction p) / INR (Npoint p)).
  assert (I0 : 0 <= i0). { unfold i0. destruct (Npoint p) as [|n]; [cbn; unfold Rdiv; rewrite Rinv_0; lra|]. apply Rmult_le_pos; [lra|]. left. apply Rinv_0_lt_compat, lt_0_INR. lia. }
  assert (S0 : 0 < s) by apply pow10_pos.
  assert (P : 0 <= - (- sw_a (swcc p) * sw_b (swcc p) * Rpower s (sw_b (swcc p)) * (sw_a (swcc p) * Rpower 10 (- 6 * sw_b (swcc p)) + 1) / (s * (Rpower s (sw_b (swcc p)) + sw_a (swcc p)) ^ 2))).
  { unfold Rdiv. rewrite !Ropp_mult_distr_l, Ropp_involutive. assert (E1 : 0 < Rpower s (sw_b (swcc p))) by apply exp_pos. assert (E2 : 0 < Rpower 10 (- 6 * sw_b (swcc p))) by apply exp_pos.
    left. repeat apply Rmult_lt_0_compat; auto. apply Rplus_lt_0_compat; [apply Rmult_lt_0_compat; auto|lra]. apply Rinv_0_lt_compat. apply Rmult_lt_0_compat; auto. apply pow_lt. lra. }
  set (t := - (_ / _)) in *. assert (W : 0 <= pow10 (INR i * i0 + MinSuction p + i0) - pow10 (INR i * i0 + MinSuction p)).
  { assert (X := pow10_mono (INR i * i0 + MinSuction p) (INR i * i0 + MinSuction p + i0) ltac:(lra)). lra. }
  change (pow10 (INR i * i0 + MinSuction p)) with s in W. split; [repeat apply Rmult_le_pos; lra|]. apply Rmult_le_compat_r; auto. apply Rmult_le_compat_l; lra.
Qed.
Lemma slurry_all p o o' : SlurryPoreSize p o = Ok o' ->
  List.Forall (fun q => Filled q = true /\ Airentrapped q = false /\ YieldSt q = 1 / 10000 /\ RVC q = RV q /\ (proper p -> stiff q) /\ (MinSuction p <= MaxSuction p -> MinSuction p <= AEV q)) (pores o') /\
  length (pores o') = Npoint p /\ Suction o' = pow10 (MinSuction p) /\ Stress o' = pow10 (MinSuction p) / 1000 /\ Curveon o' = 1%Z /\ RefSr o' = 1 /\ Srdry o' = Srdry o /\ Srwet o' = Srwet o.
Proof.
  unfold SlurryPoreSize. intros H. unbind H. injection H as <-. cbn.
  assert (L : length a = Npoint p). { apply mapM_Ok_Forall2 in Q. apply Forall2_length in Q. rewrite seq_length in Q. auto. }
  split; [|repeat split; auto]. apply mapM_Ok_Forall2 in Q. clear L. revert Q. generalize (seq 0 (Npoint p)). intros l Q. induction Q as [|i q l f E _ IH]; constructor; auto.
  apply slurry_facts in E as (F1 & F2 & F3 & F4 & F5 & F6). repeat (match goal with |- _ /\ _ => split end); auto. intros D. rewrite F5.
  assert (0 <= INR i * ((MaxSuction p - MinSuction p) / INR (Npoint p))); [|lra]. apply Rmult_le_pos; [apply pos_INR|].
  destruct (Npoint p) as [|n]; [cbn; unfold Rdiv; rewrite Rinv_0; lra|]. apply Rmult_le_pos; [lra|]. left. apply Rinv_0_lt_compat, lt_0_INR. lia.
Qed.

(** ** Runs: the states between the points *)
(** Points: each reported datum is read from the state after its operation. *)
Inductive points_run (p : par) : list (method * R * R) -> state -> state -> DataResults -> Prop :=
| pr_nil o : points_run p [] o o []
| pr_cons m ss st l o o1 o2 d : call p m o = Ok o1 -> points_run p l o1 o2 d ->
    points_run p ((m, ss, st) :: l) o o2 (finish p ss st (void_ratio (pores o1)) (water_content p (pores o1)) :: d).
Definition point_methods (go : nat -> method * R * R) (js : list nat) := map go js.
Lemma run_points_run p go gm js o r : (forall j, let '(op, ss, st) := go j in let '(m, ss', st') := gm j in ss = ss' /\ st = st' /\ op = call p m) ->
  run_points p go js o = Ok r -> points_run p (map gm js) o (fst r) (snd r).
Proof.
  intros G. revert o r. induction js as [|j js IH]; intros o r H; cbn [run_points] in H.
  - injection H as <-. constructor.
  - specialize (G j) as Gj. cbn [map]. destruct (go j) as [[op ss] st], (gm j) as [[m ss'] st']. destruct Gj as (<- & <- & ->).
    unbind H. injection H as <-. cbn [fst snd]. econstructor; [exact Q|]. apply IH; auto.
Qed.
(** The methods, suctions and stresses of one step started at suction cs and stress ct. *)
Definition step_points (p : par) (s : step) (cs ct : R) : list (method * R * R) :=
  if ist s
  then map (fun x => (if Rlt_dec ct (vl s) then Load (x * CVStress p) else Unload (x * CVStress p), cs, x)) (geometric ct (vl s) (npp s))
  else map (fun x => (if Rlt_dec cs (vl s) then Dry x else Wet x, x, ct)) (geometric cs (vl s) (npp s)).
Lemma interval_ok v c n i : interval v c n = Ok i -> 0 < v /\ 0 < c /\ INR n - 1 <> 0 /\ i = (log10 v - log10 c) / (INR n - 1).
Proof. unfold interval. intros H. unbind H. apply log10M_ok in Q as [? ->]. apply log10M_ok in Q0 as [? ->]. apply fdiv_ok in H as [? ->]. auto. Qed.
Lemma progression v c n j : 0 < v -> 0 < c -> INR n - 1 <> 0 -> pow10 (INR j * ((log10 v - log10 c) / (INR n - 1)) + log10 c) = c * Rpower (v / c) (INR j / (INR n - 1)).
Proof.
  intros V C N. unfold pow10, Rpower. rewrite ln_div by auto. unfold log10. assert (L := ln10_pos).
  replace (ln 10 * (INR j * ((ln v / ln 10 - ln c / ln 10) / (INR n - 1)) + ln c / ln 10)) with (ln c + INR j / (INR n - 1) * (ln v - ln c)) by (field; split; lra).
  rewrite exp_plus, exp_ln by auto. reflexivity.
Qed.
Lemma interval_sign v c n i : (2 <= n)%nat -> interval v c n = Ok i -> (0 < i <-> c < v).
Proof.
  intros N H. apply interval_ok in H as (V & C & M & ->). assert (0 < INR n - 1) by (apply le_INR in N; cbn in N; lra).
  assert (I0 : 0 < / (INR n - 1)) by (apply Rinv_0_lt_compat; auto). split; intros H1.
  - destruct (Rlt_le_dec c v); auto. exfalso. assert (X := log10_le v c V r). assert (0 <= (log10 c - log10 v) * / (INR n - 1)) by (apply Rmult_le_pos; lra). unfold Rdiv in H1. lra.
  - assert (X := log10_lt c v C H1). apply Rmult_lt_0_compat; lra.
Qed.
(** run_step performs the methods of [step_points]; a step of no points does nothing. *)
Lemma run_step_points p s cs ct o r : npp s <> 1%nat -> run_step p s cs ct o = Ok r ->
  points_run p (step_points p s cs ct) o (fst (fst r)) (snd (fst r)) /\ snd r = (if ist s then (cs, vl s) else (vl s, ct)) /\ 0 < vl s.
Proof.
  intros N H. unfold run_step in H. unfold step_points.
  assert (Z : (npp s = 0 \/ 2 <= npp s)%nat) by lia.
  destruct (ist s); unbind H; injection H as <-; cbn [fst snd]; (split; [|split; [reflexivity|apply interval_ok in Q; tauto]]).
  - destruct Z as [Z|Z]. { rewrite Z in *. cbn in *. injection Q0 as <-. constructor. }
    eapply run_points_run in Q0. unfold geometric. rewrite map_map. exact Q0. intros j. cbn. pose proof (interval_sign _ _ _ _ Z Q) as SG. apply interval_ok in Q as (V & C & M & ->).
    rewrite progression by auto. split; [reflexivity|split; [reflexivity|]]. unfold Rltb. destruct (Rlt_dec _ _), (Rlt_dec ct (vl s)); auto; tauto.
  - destruct Z as [Z|Z]. { rewrite Z in *. cbn in *. injection Q0 as <-. constructor. }
    eapply run_points_run in Q0. unfold geometric. rewrite map_map. exact Q0. intros j. cbn. pose proof (interval_sign _ _ _ _ Z Q) as SG. apply interval_ok in Q as (V & C & M & ->).
    rewrite progression by auto. split; [reflexivity|split; [reflexivity|]]. unfold Rltb. destruct (Rlt_dec _ _), (Rlt_dec cs (vl s)); auto; tauto.
Qed.
Lemma run_step_npp p s cs ct o r : run_step p s cs ct o = Ok r -> npp s <> 1%nat.
Proof.
  intros H E. unfold run_step in H. destruct (ist s); unbind H; apply interval_ok in Q as (_ & _ & M & _); rewrite E in M; cbn in M; lra.
Qed.
(** The whole path. *)
Inductive path_run (p : par) : list step -> R -> R -> state -> state -> list DataResults -> Prop :=
| pp_nil cs ct o : path_run p [] cs ct o o []
| pp_cons s l cs ct o o1 o2 d ds : 0 < vl s -> points_run p (step_points p s cs ct) o o1 d ->
    path_run p l (if ist s then cs else vl s) (if ist s then vl s else ct) o1 o2 ds -> path_run p (s :: l) cs ct o o2 (d :: ds).
Lemma run_steps_path p l : forall cs ct o r, run_steps p l cs ct o = Ok r -> path_run p l cs ct o (fst r) (snd r).
Proof.
  induction l as [|s l IH]; intros cs ct o r H; cbn [run_steps] in H.
  - injection H as <-. constructor.
  - unbind H. pose proof (run_step_npp _ _ _ _ _ _ Q) as N. apply run_step_points in Q as (R1 & R2 & V); auto. destruct a as [[o1 d] [cs' ct']]. cbn [fst snd] in *.
    unbind H. injection H as <-. cbn [fst snd]. econstructor; eauto. apply IH in Q. destruct (ist s); injection R2 as -> ->; auto.
Qed.
Lemma calresults_run p l o r : Calresults p l o = Ok r -> exists o1 o2, SlurryPoreSize p o1 = Ok o2 /\ path_run p l (pow10 (MinSuction p)) (pow10 (MinSuction p) / 1000) o2 (fst r) (snd r).
Proof.
  unfold Calresults. intros H. unbind H. exists a, a0. split; auto. apply slurry_all in Q0 as (_ & _ & S1 & S2 & _). rewrite S1, S2 in H. apply run_steps_path. exact H.
Qed.

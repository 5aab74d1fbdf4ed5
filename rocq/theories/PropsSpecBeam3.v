(** * C153: a case the theorem applies to, and loads that are misread *)
From Coq Require Import Reals List Arith ZArith Bool Lia Lra.
From Coquelicot Require Import Coquelicot.
From Verif Require Import Base PiecewiseModel PolyLineModel SpecWrap SpecPolyLine SpectralModel SpecSpectral WrapModel PropsWrap BeamModel DingModel DingProofs PropsDing PropsBeam6 SpecBeamModel SpecBeamSpec SpecBeamProofs1 SpecBeamProofs2 PropsSpecBeam PropsSpecBeam2 PropsGalerkin.
Import ListNotations.
Local Open Scope R_scope.

(** the beam with one vehicle of weight P, one standing load *)
Definition ex1 (P : R) : sb_in := ex_beam 1 1 3 5 (Some [[0]]) (Some [[P]]) (Some [1]) None (Some [/ 2]) (Some [flat]) None.
Lemma ex1_beam P : beam_of (ex1 P) 1 1 1 1 1 3 5 0. Proof. unfold beam_of, ex1, ex_beam. cbn. repeat (match goal with |- _ /\ _ => split end); auto. Qed.
Lemma ex1_vehicles P : vehicles_of (ex1 P) [mkV [0] [P] 1 0].
Proof.
  unfold vehicles_of, ex1, ex_beam. cbn. repeat (match goal with |- _ /\ _ => split end); auto.
  - right. repeat (match goal with |- _ /\ _ => split end); auto. right. split; auto. intros v [<-|[]]. reflexivity.
  - intros v [<-|[]]. cbn. split; [reflexivity|lra].
Qed.
Lemma ex1_standing P : standing_of (ex1 P) [mkSt (/ 2) flat None].
Proof. unfold standing_of, ex1, ex_beam. cbn. repeat (match goal with |- _ /\ _ => split end); auto. right. repeat (match goal with |- _ /\ _ => split end); auto. right. split; auto. intros s [<-|[]]. reflexivity. Qed.
Lemma ex1_init P : exists o, sb_init solve12 (ex1 P) = Ok o.
Proof.
  unfold sb_init, ex1, ex_beam, moving, stationary, mpl_init, setv. cbn -[points_SS weights sqrt]. rewrite weights2. rewrite andb_false_r. eexists. reflexivity.
Qed.
Section O.
Variables (P : R) (o : sb).
Hypothesis HO : sb_init solve12 (ex1 P) = Ok o.
Lemma half_int : is_RInt (fun z => sin (PI * (0 + 1) * z) * sin (PI * (0 + 1) * z)) 0 1 (1 / 2).
Proof. assert (H := sin_sin 1 0 0 Rlt_0_1). cbn [Nat.eqb INR] in H. apply (is_RInt_ext (fun x => sin ((0 + 1) * PI * x / 1) * sin ((0 + 1) * PI * x / 1))); [|exact H]. intros x _. replace ((0 + 1) * PI * x / 1) with (PI * (0 + 1) * x) by field. reflexivity. Qed.
Lemma one_entry M v : square M 1 -> entry M 0 0 = v -> M = [[v]].
Proof. intros [H1 H2] E. destruct M as [|r [|? ?]]; try discriminate. specialize (H2 r (or_introl eq_refl)). destruct r as [|x [|? ?]]; try discriminate. cbn in E. subst. reflexivity. Qed.
Lemma ex1_matrices : time_independant_matrices o = Ok (mkMats [[/ 2]] [[- (PI ^ 4 + 3) / 2]] [[0]] [1; 1]).
Proof.
  destruct (init_phys solve12 1 1 1 1 1 3 5 0 (ex1 P) o (ex1_beam P) HO) as (I1 & I2 & I3 & I4 & I5 & I6 & I7 & I8 & I9 & I10). change (b_nquad (ex1 P)) with (Some 2%nat) in I10. destruct I10 as (Ij & EW & EQ).
  change (b_nterms (ex1 P)) with 1%nat in I7. cbn [map seq INR] in I7. set (m := [PI * (0 + 1)]) in *. assert (Ev : eigenvalues m) by apply (beta_eigenvalues 1).
  destruct (C97_abf vectorized m 0 1 flat flat _ _ flat_profile flat_profile flat_separated Ev) as (LM & EL & IL).
  destruct (C97_DD_abDDf vectorized m 0 1 flat flat _ _ flat_profile flat_profile flat_separated Ev) as (BM & EB & IB).
  pose proof (C97_af vectorized m 0 1 flat _ 0 0 flat_profile Ev Nat.lt_0_1 Nat.lt_0_1) as IK.
  specialize (IL 0%nat 0%nat Nat.lt_0_1 Nat.lt_0_1). specialize (IB 0%nat 0%nat Nat.lt_0_1 Nat.lt_0_1). cbn [nth m] in IL, IB, IK.
  assert (HL : LM = [[1 / 2]]). { apply one_entry; [apply (square_abf _ _ _ _ _ EL)|]. apply (is_RInt_unique (V := R_CompleteNormedModule)) in IL. etransitivity; [symmetry; exact IL|]. apply (is_RInt_unique (V := R_CompleteNormedModule)). apply (is_RInt_ext (fun z => sin (PI * (0 + 1) * z) * sin (PI * (0 + 1) * z))); [|exact half_int]. intros z _. match goal with |- ?u = ?v => change (@eq R u v) end. ring. }
  assert (HK : pdim1sin_af_linear vectorized m flat = [[1 / 2]]). { apply one_entry; [apply square_af|]. apply (is_RInt_unique (V := R_CompleteNormedModule)) in IK. etransitivity; [symmetry; exact IK|]. apply (is_RInt_unique (V := R_CompleteNormedModule)). apply (is_RInt_ext (fun z => sin (PI * (0 + 1) * z) * sin (PI * (0 + 1) * z))); [|exact half_int]. intros z _. match goal with |- ?u = ?v => change (@eq R u v) end. ring. }
  assert (HB : BM = [[PI ^ 4 * (1 / 2)]]). { apply one_entry; [apply (square_DD _ _ _ _ _ EB)|]. apply (is_RInt_unique (V := R_CompleteNormedModule)) in IB. etransitivity; [symmetry; exact IB|]. apply (is_RInt_unique (V := R_CompleteNormedModule)). apply (is_RInt_ext (fun z => PI ^ 4 * (sin (PI * (0 + 1) * z) * sin (PI * (0 + 1) * z)))); [|apply (is_RInt_scal (V := R_NormedModule)), half_int]. intros z _. match goal with |- ?u = ?v => change (@eq R u v) end. ring. }
  unfold time_independant_matrices. rewrite I2, I7, EQ, points2. change (b_rhobar (ex1 P)) with flat. change (b_Abar (ex1 P)) with flat. change (b_Ebar (ex1 P)) with flat. change (b_Ibar (ex1 P)) with flat. change (b_k1bar (ex1 P)) with flat. change (b_mubar (ex1 P)) with flat. change (b_impl (ex1 P)) with vectorized.
  rewrite EL, EB. cbn [bind]. rewrite flat_knots. cbn [bind]. rewrite HL, HB, HK, I3, I4, I5. f_equal. unfold mscal, msub. cbn [map combine fst snd].
  replace (1 / 1) with 1 by field. rewrite sqrt_1. f_equal; repeat (apply f_equal2; [|reflexivity]); try lra; field.
Qed.
Lemma ex1_loads T : 0 < T < 1 -> loads o (PI * (INR 0 + 1)) T = Ok (P * sin (PI * T) + 1).
Proof.
  intros HT. assert (EX : exists f, loads o (PI * (INR 0 + 1)) T = Ok f).
  { pose proof HO as H. unfold sb_init, ex1, ex_beam, moving, stationary, mpl_init, setv in H. cbn -[points_SS weights sqrt INR] in H. rewrite weights2, andb_false_r in H. cbn -[INR sqrt] in H. injection H as <-. unfold loads. cbn [s_moving s_stat mapM]. unfold vehicle_load, point_loads_on_beam. cbn -[INR sqrt interp_x_y].
    unfold stationary_load. cbn -[INR sqrt interp_x_y]. unfold interp_x_y, px, py. cbn -[INR sqrt interp1]. 
    replace (interp1 [0 / 1 * sqrt (1 / 1); 1 / 1 * sqrt (1 / 1)] [1 / (1 * 1); 1 / (1 * 1)] false T) with (Ok 1); [cbn; eauto|]. symmetry. replace (1 / 1) with 1 by field. rewrite sqrt_1. replace (0 / 1 * 1) with 0 by field. replace (1 * 1) with 1 by ring. replace (1 / 1) with 1 by field. apply (flat_at T). lra. }
  destruct EX as (f & EX). rewrite EX. f_equal.
  assert (TT : T / 1 * sqrt (1 / 1) = T) by (replace (1 / 1) with 1 by field; rewrite sqrt_1; field).
  assert (FF := loads_phys solve12 1 1 1 1 1 3 5 0 Rlt_0_1 Rlt_0_1 Rlt_0_1 Rlt_0_1 (ex1 P) o _ _ 0 T f (ex1_beam P) (ex1_vehicles P) (ex1_standing P) HO). rewrite TT in FF. specialize (FF EX).
  replace f with (1 * 1 * f) by ring. rewrite FF. unfold force, vehicle_force, standing_force, sumR. cbn [map combine vx vF vv voff sx sP som fst snd fold_right].
  unfold axle_at. assert (E0 : Rltb 1 0 = false) by (apply Rltb_false; lra). rewrite E0. replace (0 + (0 + 0) + 1 * (T - 0)) with T by ring. assert (E1 : Rleb 0 T = true) by (apply Rleb_true; lra). assert (E2 : Rleb T 1 = true) by (apply Rleb_true; lra). rewrite E1, E2. cbn [andb].
  unfold value_at, interp_x_y. cbn [px py flat map length Nat.eqb negb fst snd mapM]. change [0; 1] with (px flat). change [1; 1] with (py flat). rewrite flat_at by lra. cbn [bind].
  unfold mode. cbn [INR]. replace ((0 + 1) * PI * T / 1) with (PI * T) by field. replace ((0 + 1) * PI * / 2 / 1) with (PI / 2) by field. rewrite sin_PI2. ring.
Qed.
Lemma ex1_field q qd T : 0 < T < 1 -> sb_field solve12 o (mkMats [[/ 2]] [[- (PI ^ 4 + 3) / 2]] [[0]] [1; 1]) [q; qd] T = Ok [qd; - (PI ^ 4 + 3) * q + 2 * (P * sin (PI * T) + 1)].
Proof.
  intros HT. destruct (init_phys solve12 1 1 1 1 1 3 5 0 (ex1 P) o (ex1_beam P) HO) as (I1 & I2 & I3 & I4 & I5 & I6 & I7 & I8 & I9 & I10). change (b_nquad (ex1 P)) with (Some 2%nat) in I10. destruct I10 as (Ij & EW & EQ).
  rewrite weights2 in EW. injection EW as <-. rewrite points2 in EQ. change (b_nterms (ex1 P)) with 1%nat in I7.
  unfold sb_field. rewrite I2, EQ. change (b_nterms (ex1 P)) with 1%nat. cbn [firstn skipn seq mapM]. rewrite I7. cbn [map seq nth]. rewrite (ex1_loads T HT). cbn [bind lam_qdotdot psi_q psi_qdot k3barj nth combine map].
  unfold solve12. assert (E2 : Reqb (/ 2) 0 = false) by (apply Reqb_false; lra). rewrite E2. cbn [bind app]. f_equal. apply f_equal2; [reflexivity|]. apply f_equal2; [|reflexivity]. unfold dot, sumR. cbn [combine map fold_right fst snd INR].
  replace (PI * (0 + 1) * 0) with 0 by ring. replace (PI * (0 + 1) * 1) with PI by ring. rewrite sin_0, sin_PI. field.
Qed.
End O.
(** *** the hypotheses are met: a vehicle crossing the beam while a standing load acts; the cubic stiffness is not zero *)
Theorem C153_witness : solves solve12 /\ exists P o M (q qd : nat -> R -> R), 0 < P /\ let i := ex1 P in
  beam_of i 1 1 1 1 1 3 5 0 /\ vehicles_of i [mkV [0] [P] 1 0] /\ standing_of i [mkSt (/ 2) flat None] /\ b_nquad i = Some 2%nat /\ b_nterms i = 1%nat /\
  depth_profile 0 1 (b_Ebar i) (fun _ => 1) /\ depth_profile 0 1 (b_Ibar i) (fun _ => 1) /\ depth_profile 0 1 (b_rhobar i) (fun _ => 1) /\ depth_profile 0 1 (b_Abar i) (fun _ => 1) /\ depth_profile 0 1 (b_k1bar i) (fun _ => 1) /\ depth_profile 0 1 (b_mubar i) (fun _ => 1) /\
  well_separated [b_Ebar i; b_Ibar i] /\ well_separated [b_rhobar i; b_Abar i] /\ b_k3bar i = b_k1bar i /\
  sb_init solve12 i = Ok o /\ time_independant_matrices o = Ok M /\
  (forall T, 0 < T < 1 -> exists d, sb_field solve12 o M (map (fun k => q k T) (seq 0 1) ++ map (fun k => qd k T) (seq 0 1)) T = Ok d /\
     forall k, (k < 1)%nat -> is_derive (q k) T (nth k d 0) /\ is_derive (qd k) T (nth (1 + k) d 0)) /\ q 0%nat (/ 2) = 1 + 2 / (PI ^ 4 + 3).
Proof.
  split; [exact solve12_solves|]. assert (PP := PI_RGT_0). assert (P4 : 0 < PI ^ 4) by (apply pow_lt; lra).
  set (P := (PI ^ 4 + 3 - PI ^ 2) / 2). destruct (ex1_init P) as (o & HO). exists P, o, (mkMats [[/ 2]] [[- (PI ^ 4 + 3) / 2]] [[0]] [1; 1]), (fun _ T => sin (PI * T) + 2 / (PI ^ 4 + 3)), (fun _ T => PI * cos (PI * T)).
  split; [unfold P; assert (3 < PI) by (pose proof PI2_3_2; lra); assert (9 < PI ^ 2) by nra; replace (PI ^ 4) with (PI ^ 2 * PI ^ 2) by ring; nra|]. cbn zeta.
  split; [apply ex1_beam|]. split; [apply ex1_vehicles|]. split; [apply ex1_standing|]. split; [reflexivity|]. split; [reflexivity|].
  do 6 (split; [apply flat_profile|]). split; [apply flat_separated|]. split; [apply flat_separated|]. split; [reflexivity|]. split; [exact HO|]. split; [apply (ex1_matrices P o HO)|]. split.
  - intros T HT. cbn [map seq app]. eexists. split; [apply (ex1_field P o HO); exact HT|]. intros k Hk. assert (k = 0%nat) by lia. subst k. cbn [nth Nat.add]. split.
    + auto_derive; auto. ring.
    + unfold P. auto_derive; auto. field. lra.
  - replace (PI * / 2) with (PI / 2) by field. rewrite sin_PI2. reflexivity.
Qed.

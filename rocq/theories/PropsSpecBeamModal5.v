(** * C170: a beam it applies to *)
From Coq Require Import Reals List Arith ZArith Bool Lia Lra.
From Coquelicot Require Import Coquelicot.
From Verif Require Import Base PiecewiseModel PolyLineModel SpecWrap SpecPolyLine SpecPiecewise SpecLoad SpectralModel SpecSpectral WrapModel PropsWrap BeamModel DingModel DingProofs PropsDing PropsBeam6 SpecGalerkin SpecBeamModel SpecBeamSpec SpecBeamProofs1 SpecBeamProofs2 PropsSpecBeam PropsSpecBeam2 PropsGalerkin PropsSpecBeam3 SpecModal SpecBeamMotion SpecBeamModalModel PropsSpecBeamModal ComplexCalc PropsSpecBeamModal2 ModalProofs5 PropsSpecBeamModal3 PropsSpecBeamModal4.
Import ListNotations.
Local Open Scope R_scope.

(** the beam of C169_example without the cubic spring *)
Definition ex0 (P : R) : sb_in := ex_beam 1 1 3 0 (Some [[0]]) (Some [[P]]) (Some [1]) None (Some [/ 2]) (Some [flat]) None.
Lemma ex0_beam P : beam_of (ex0 P) 1 1 1 1 1 3 0 0. Proof. unfold beam_of, ex0, ex_beam. cbn. repeat (match goal with |- _ /\ _ => split end); auto. Qed.
Lemma ex0_init P : exists o, sb_init solve12 (ex0 P) = Ok o.
Proof.
  unfold sb_init, ex0, ex_beam, moving, stationary, mpl_init, setv. cbn -[points_SS weights sqrt]. rewrite weights2. rewrite andb_false_r. eexists. reflexivity.
Qed.
Section O.
Variables (P : R) (o : sb).
Hypothesis HO : sb_init solve12 (ex0 P) = Ok o.
Lemma ex0_matrices : time_independant_matrices o = Ok (mkMats [[/ 2]] [[- (PI ^ 4 + 3) / 2]] [[0]] [1; 1]).
Proof.
  destruct (init_phys solve12 1 1 1 1 1 3 0 0 (ex0 P) o (ex0_beam P) HO) as (I1 & I2 & I3 & I4 & I5 & I6 & I7 & I8 & I9 & I10). change (b_nquad (ex0 P)) with (Some 2%nat) in I10. destruct I10 as (Ij & EW & EQ).
  change (b_nterms (ex0 P)) with 1%nat in I7. cbn [map seq INR] in I7. set (m := [PI * (0 + 1)]) in *. assert (Ev : eigenvalues m) by apply (beta_eigenvalues 1).
  destruct (C97_abf vectorized m 0 1 flat flat _ _ flat_profile flat_profile flat_separated Ev) as (LM & EL & IL).
  destruct (C97_DD_abDDf vectorized m 0 1 flat flat _ _ flat_profile flat_profile flat_separated Ev) as (BM & EB & IB).
  pose proof (C97_af vectorized m 0 1 flat _ 0 0 flat_profile Ev Nat.lt_0_1 Nat.lt_0_1) as IK.
  specialize (IL 0%nat 0%nat Nat.lt_0_1 Nat.lt_0_1). specialize (IB 0%nat 0%nat Nat.lt_0_1 Nat.lt_0_1). cbn [nth m] in IL, IB, IK.
  assert (HL : LM = [[1 / 2]]). { apply one_entry; [apply (square_abf _ _ _ _ _ EL)|]. apply (is_RInt_unique (V := R_CompleteNormedModule)) in IL. etransitivity; [symmetry; exact IL|]. apply (is_RInt_unique (V := R_CompleteNormedModule)). apply (is_RInt_ext (fun z => sin (PI * (0 + 1) * z) * sin (PI * (0 + 1) * z))); [|exact half_int]. intros z _. match goal with |- ?u = ?v => change (@eq R u v) end. ring. }
  assert (HK : pdim1sin_af_linear vectorized m flat = [[1 / 2]]). { apply one_entry; [apply square_af|]. apply (is_RInt_unique (V := R_CompleteNormedModule)) in IK. etransitivity; [symmetry; exact IK|]. apply (is_RInt_unique (V := R_CompleteNormedModule)). apply (is_RInt_ext (fun z => sin (PI * (0 + 1) * z) * sin (PI * (0 + 1) * z))); [|exact half_int]. intros z _. match goal with |- ?u = ?v => change (@eq R u v) end. ring. }
  assert (HB : BM = [[PI ^ 4 * (1 / 2)]]). { apply one_entry; [apply (square_DD _ _ _ _ _ EB)|]. apply (is_RInt_unique (V := R_CompleteNormedModule)) in IB. etransitivity; [symmetry; exact IB|]. apply (is_RInt_unique (V := R_CompleteNormedModule)). apply (is_RInt_ext (fun z => PI ^ 4 * (sin (PI * (0 + 1) * z) * sin (PI * (0 + 1) * z)))); [|apply (is_RInt_scal (V := R_NormedModule)), half_int]. intros z _. match goal with |- ?u = ?v => change (@eq R u v) end. ring. }
  unfold time_independant_matrices. rewrite I2, I7, EQ, points2. change (b_rhobar (ex0 P)) with flat. change (b_Abar (ex0 P)) with flat. change (b_Ebar (ex0 P)) with flat. change (b_Ibar (ex0 P)) with flat. change (b_k1bar (ex0 P)) with flat. change (b_mubar (ex0 P)) with flat. change (b_impl (ex0 P)) with vectorized.
  rewrite EL, EB. cbn [bind]. rewrite flat_knots. cbn [bind]. rewrite HL, HB, HK, I3, I4, I5. f_equal. unfold mscal, msub. cbn [map combine fst snd].
  replace (1 / 1) with 1 by field. rewrite sqrt_1. f_equal; repeat (apply f_equal2; [|reflexivity]); try lra; field.
Qed.
End O.
Lemma ex0_moving P o : sb_init solve12 (ex0 P) = Ok o -> exists X, s_moving o = Some [X] /\ s_stat o = Some ([/ 2], [flat], [None]) /\ s_in o = ex0 P /\ s_beta o = [PI] /\
  mxt X = [0] /\ mp X = [P] /\ mL X = Some 1 /\ mt0 X = 0 /\ mv_ X = Some 1 /\ mx0 X = 0.
Proof.
  intros H. unfold sb_init, ex0, ex_beam, moving, stationary, mpl_init, setv in H. cbn -[points_SS weights sqrt INR] in H. rewrite weights2, andb_false_r in H. cbn -[INR sqrt] in H. apply ok_eq in H. subst o. cbn [s_moving s_stat s_in s_beta].
  eexists. split; [reflexivity|]. replace (1 / 1) with 1 by field. rewrite sqrt_1. replace (0 / 1) with 0 by field. replace (1 / (1 * 1)) with 1 by field. replace (0 * 1) with 0 by ring. replace (1 * 1) with 1 by ring.
  cbn [mxt mp mL mt0 mv_ mx0]. replace (/ 2 / 1) with (/ 2) by field. change (INR 0) with 0. replace (PI * (0 + 1)) with PI by ring. replace (0 + 0) with 0 by ring. replace (P / 1) with P by field.
  repeat (match goal with |- _ /\ _ => split end); reflexivity.
Qed.
Lemma ex0_hyps P : P <> 0 -> exists o M eigs v Igamv F, let n := b_nterms (s_in o) in
  sb_init solve12 (ex0 P) = Ok o /\ time_independant_matrices o = Ok M /\ M = mkMats [[/ 2]] [[- (PI ^ 4 + 3) / 2]] [[0]] [1; 1] /\ eigs_and_v inv2 cinv2 eig2 n M = Ok (eigs, v, Igamv) /\
  good_loads o F /\ unloaded_before o 0 /\ (forall l, In l eigs -> l <> RtoC 0) /\
  (forall l u k, In l eigs -> In u (vehicles o) -> (k < n)%nat -> l <> (0, speed u * nth k (s_beta o) 0) /\ l <> (0, - (speed u * nth k (s_beta o) 0))) /\
  pushing o F 0 (/ 2) = P + 1 /\ pushing o F 0 (-1) = 0 /\ F = (fun _ => on_flat).
Proof.
  cbn zeta.
 intros HP. destruct (ex0_init P) as (o & HO). destruct (ex0_moving P o HO) as (X & HM & HS & HI & HB & X1 & X2 & X3 & X4 & X5 & X6).
  assert (PP := PI_RGT_0). assert (P4 : 0 < PI ^ 4) by (apply pow_lt; lra). set (w := sqrt (PI ^ 4 + 3)).
  assert (W : 0 < w) by (apply sqrt_lt_R0; lra). assert (W2 : w * w = PI ^ 4 + 3) by (apply sqrt_sqrt; lra).
  assert (AX : forall t, axle X 0 t = t). { intros t. unfold axle. rewrite X3, X4, X5, X6. unfold axle_at. rewrite (proj2 (Rltb_false 1 0)) by lra. ring. }
  assert (SP : span X = 1) by (unfold span; rewrite X3; reflexivity). assert (SV : speed X = 1) by (unfold speed; rewrite X5; reflexivity).
  exists o, (mkMats [[/ 2]] [[- (PI ^ 4 + 3) / 2]] [[0]] [1; 1]), [(0, w); (0, - w)], [[RtoC 1; RtoC 1]; [(0, - w); (0, w)]]. eexists. exists (fun _ => on_flat).
  split; [exact HO|]. split; [apply (ex0_matrices P o HO)|]. split; [reflexivity|]. split.
  { rewrite HI. change (b_nterms (ex0 P)) with 1%nat. unfold eigs_and_v. cbn [lam_qdotdot psi_q psi_qdot]. unfold make_gam, table. cbn [Nat.mul Nat.add seq map Nat.ltb Nat.leb Nat.eqb Nat.sub rat nth].
    unfold rat. cbn [nth]. unfold inv2 at 1. rewrite (proj2 (Reqb_false (1 * / 2 - 0 * 0) 0)) by lra. cbn [bind].
    unfold mdot, make_psi, table, rat, sumR. cbn [Nat.mul Nat.add seq map Nat.ltb Nat.leb Nat.eqb Nat.sub nth fold_right]. unfold eig2 at 1.
    match goal with |- context[Reqb ?e 0] => replace e with 0 by field end. match goal with |- context[Reqb ?e (-1)] => replace e with (-1) by field end.
    match goal with |- context[Rltb 0 ?e] => replace e with (PI ^ 4 + 3) by field end. match goal with |- context[(_ && Reqb ?e 0 && _)%bool] => replace e with 0 by field end.
    rewrite (proj2 (Reqb_true 0 0)) by auto. rewrite (proj2 (Reqb_true (-1) (-1))) by auto. rewrite (proj2 (Rltb_true 0 (PI ^ 4 + 3))) by lra. cbn [andb bind fst snd]. fold w.
    unfold rcdot, table, rat, cat, isum, LoadComplexModel.sumC. cbn [Nat.mul Nat.add seq map nth fold_right]. unfold cinv2.
    match goal with |- context[Reqb (snd ?D) 0] => replace D with ((0, w) : C) by (apply C_eq; cbn; field) end. cbn [fst snd]. rewrite (proj2 (Reqb_false w 0)) by lra. rewrite andb_false_r. cbn [bind]. reflexivity. }
  split. { unfold good_loads, vehicles, stands. rewrite HM, HS. cbn [combine]. repeat (match goal with |- _ /\ _ => split end); try reflexivity.
    - intros v [<-|[]]. exists 1, 1. rewrite X1, X2, X3, X5. repeat (match goal with |- _ /\ _ => split end); auto; try lra. intros p [<-|[]]. exact HP.
    - intros q [<-|[]]. cbn [snd]. exact flat_good. }
  split. { unfold unloaded_before, vehicles, stands. rewrite HM, HS. cbn [combine]. split.
    - intros v a t [<-|[]] Ha Ht. rewrite X1 in Ha. destruct Ha as [<-|[]]. rewrite AX, X6. lra.
    - intros q [<-|[]]. cbn. unfold SpecPiecewise.at_. cbn. lra. }
  split. { intros l [<-|[<-|[]]] E; apply (f_equal snd) in E; cbn in E; lra. }
  split. { unfold vehicles. rewrite HM, HB, HI. change (b_nterms (ex0 P)) with 1%nat. intros l u k Hl [<-|[]] Hk. assert (k = 0%nat) by lia. subst k. rewrite SV. cbn [nth].
    assert (NE : w <> PI). { intros E. rewrite E in W2. assert (PI ^ 4 = (PI * PI) * (PI * PI)) by ring. nra. }
    destruct Hl as [<-|[<-|[]]]; split; intros E; apply (f_equal snd) in E; cbn in E; lra. }
  unfold pushing, vehicles, stands, modeshape. rewrite HM, HS, HB. cbn [combine map fold_right fst snd nth]. unfold pressing. rewrite X1, X2, SP, X6. cbn [combine map fold_right fst snd]. rewrite !AX. unfold on_flat. split; [|split; [|reflexivity]].
  - rewrite !(proj2 (Rleb_true _ _)) by lra. cbn [andb]. replace (PI * / 2) with (PI / 2) by field. rewrite sin_PI2. ring.
  - rewrite (proj2 (Rleb_false 0 (-1))) by lra. cbn [andb]. ring.
Qed.
Lemma ex0_made P o : sb_init solve12 (ex0 P) = Ok o -> (forall u, In u (vehicles o) -> made u) /\ (forall w, In w (stands o) -> covers 0 1 (snd w)) /\ s_k3 o = 0.
Proof.
  intros H. split; [|split].
  - unfold sb_init, ex0, ex_beam, moving, stationary, mpl_init, setv in H. cbn -[points_SS weights sqrt INR] in H. rewrite weights2, andb_false_r in H. cbn -[INR sqrt] in H. apply ok_eq in H. subst o. unfold vehicles. cbn [s_moving].
    intros u [<-|[]]. assert (E1 : sqrt (1 / 1) = 1) by (replace (1 / 1) with 1 by field; apply sqrt_1). rewrite E1.
    exists [0 / 1], [P / (1 * 1)], (0 / 1), (1 * 1), (1 / 1), (0 / 1). split; [|split; [lra|split; [intros; lra|reflexivity]]].
    unfold mpl_init, setv. cbn -[INR sqrt]. replace (0 / 1 * 1) with 0 by field. reflexivity.
  - destruct (ex0_moving P o H) as (X & _ & HS & _). unfold stands. rewrite HS. cbn [combine]. intros w [<-|[]]. unfold covers, px, py, flat, SpecPiecewise.at_. cbn. lra.
  - destruct (init_phys solve12 1 1 1 1 1 3 0 0 (ex0 P) o (ex0_beam P) H) as (_ & _ & _ & _ & _ & I6 & _). rewrite I6. field.
Qed.
(** *** the hypotheses of C170 are met by a beam under a vehicle of any weight and a standing load; something does follow the numerical path *)
Theorem C170_example : solves solve12 /\ inverts_both inv2 /\ cinverts cinv2 /\ cdiagonalises eig2 /\ forall P, P <> 0 -> exists o M eigs v Igamv F q p,
  sb_init solve12 (ex0 P) = Ok o /\ time_independant_matrices o = Ok M /\ s_k3 o = 0 /\ eigs_and_v inv2 cinv2 eig2 (b_nterms (s_in o)) M = Ok (eigs, v, Igamv) /\
  good_loads o F /\ unloaded_before o 0 /\ (forall u, In u (vehicles o) -> made u) /\ (forall w, In w (stands o) -> covers 0 1 (snd w)) /\
  (forall l, In l eigs -> l <> RtoC 0) /\
  (forall l u k, In l eigs -> In u (vehicles o) -> (k < b_nterms (s_in o))%nat -> l <> (0, speed u * nth k (s_beta o) 0) /\ l <> (0, - (speed u * nth k (s_beta o) 0))) /\
  follows solve12 o M 0 1 q p /\ b_nterms (s_in o) = 1%nat /\ (exists t, 0 < t < 1 /\ quiet o t /\ pushing o F 0 t = P + 1).
Proof.
  split; [exact solve12_solves|]. split; [exact inv2_inverts|]. split; [exact cinv2_inverts|]. split; [exact eig2_diag|]. intros P HP.
  destruct (ex0_hyps P HP) as (o & M & eigs & v & Igamv & F & H). cbn zeta in H. destruct H as (HO & HM & EM & HE & HG & HU & Hnz & Hres & HP1 & _ & HF).
  destruct (ex0_made P o HO) as (HV & HC & HK). destruct (ex0_moving P o HO) as (X & MV & ST & HI & HB & X1 & X2 & X3 & X4 & X5 & X6).
  destruct (C169_motion inv2 cinv2 eig2 (fun _ _ _ _ _ _ _ => Err ValueError) o M eigs v Igamv F 0 inv2_inverts cinv2_inverts eig2_diag HM HE HG HU Hnz Hres) as (q & p & HMo & _).
  assert (N1 : b_nterms (s_in o) = 1%nat) by (rewrite HI; reflexivity).
  exists o, M, eigs, v, Igamv, F, q, p. do 10 (split; [assumption|]). split; [|split; [exact N1|]].
  - split; [apply HMo|]. intros t Ht HQ.
    assert (OK : exists d, sb_field solve12 o M (map (fun k => q k t) (seq 0 (b_nterms (s_in o))) ++ map (fun k => p k t) (seq 0 (b_nterms (s_in o)))) t = Ok d).
    { assert (LP := loads_pushing o F 0 1 0 t HG HV HC Ht HQ). destruct (parts solve12 solve12_solves (ex0 P) o M HO HM) as (N & Ij & EQ & _). unfold sb_field. rewrite EQ, N1. cbn [seq map firstn skipn app mapM]. rewrite LP. cbn [bind]. subst M. cbn [lam_qdotdot].
      unfold solve12. rewrite (proj2 (Reqb_false (/ 2) 0)) by lra. cbn [bind]. eauto. }
    destruct OK as (d & Ed). exists d. split; auto.
    apply (C170_field solve12 inv2 cinv2 eig2 (ex0 P) o M eigs v Igamv F 0 1 q p t d solve12_solves inv2_inverts cinv2_inverts eig2_diag HO HM HK HE HG HV HC HMo Ht HQ Ed).
  - exists (/ 2). split; [lra|]. split; [|exact HP1].
    assert (AX : forall t, axle X 0 t = t). { intros t. unfold axle. rewrite X3, X4, X5, X6. unfold axle_at. rewrite (proj2 (Rltb_false 1 0)) by lra. ring. }
    split; unfold vehicles, stands; rewrite ?MV, ?ST; cbn [combine].
    + intros u a [<-|[]] Ha. rewrite X1 in Ha. destruct Ha as [<-|[]]. rewrite AX. unfold span. rewrite X3, X6. split; lra.
    + intros w [<-|[]]. cbn. lra.
Qed.
Print Assumptions C170_example.
(** after the table of a standing load has ended the numerical path still applies its last value, the analytical path does not: at time 2 the beam of the example is loaded for the one, not for the other *)
Theorem C170_after_table_refuted : forall P, P <> 0 -> exists o F, sb_init solve12 (ex0 P) = Ok o /\ good_loads o F /\ quiet o 2 /\ loads o (nth 0 (s_beta o) 0) 2 = Ok 1 /\ pushing o F 0 2 = 0.
Proof.
  intros P HP. destruct (ex0_hyps P HP) as (o & M & eigs & v & Igamv & F & H). cbn zeta in H. destruct H as (HO & _ & _ & _ & HG & _ & _ & _ & _ & _ & HF).
  destruct (ex0_made P o HO) as (HV & _). destruct (ex0_moving P o HO) as (X & MV & ST & HI & HB & X1 & X2 & X3 & X4 & X5 & X6).
  assert (AX : forall t, axle X 0 t = t). { intros t. unfold axle. rewrite X3, X4, X5, X6. unfold axle_at. rewrite (proj2 (Rltb_false 1 0)) by lra. ring. }
  assert (PR : pressing (modeshape o 0) 2 X = 0). { unfold pressing. rewrite X1, X2, X6. cbn [combine map fold_right fst snd]. rewrite AX. unfold span. rewrite X3. rewrite (proj2 (Rleb_false 2 (0 + 1))) by lra. rewrite andb_false_r. ring. }
  exists o, F. split; auto. split; auto. split.
  { split; unfold vehicles, stands; rewrite ?MV, ?ST; cbn [combine].
    + intros u a [<-|[]] Ha. rewrite X1 in Ha. destruct Ha as [<-|[]]. rewrite AX. unfold span. rewrite X3, X6. split; lra.
    + intros w [<-|[]]. cbn. lra. }
  split.
  - unfold loads. rewrite MV, ST. cbn [mapM]. rewrite (made_load X) by (apply HV; unfold vehicles; rewrite MV; left; auto). cbn [bind mapM seq length]. unfold stationary_load, get. cbn [nth_error bind].
    destruct (PiecewiseProofs.interp1_ok (px flat) (py flat) false 2 eq_refl) as (r & ER); [discriminate|]. destruct flat_good as (G1 & _).
    destruct (SteinProofs4.interp1_load_value (px flat) (py flat) 2 r eq_refl G1 ltac:(discriminate) ER) as (_ & _ & V3 & _).
    assert (r = 1). { rewrite V3; [reflexivity|]. unfold px, flat, SpecPiecewise.at_. cbn. lra. } subst r.
    unfold interp_x_y. cbn [negb Nat.eqb length px py flat map mapM]. change (map fst flat) with (px flat). change [fst (0, 1); fst (1, 1)] with (px flat). change [snd (0, 1); snd (1, 1)] with (py flat). rewrite ER. cbn [bind nth sumR fold_right]. rewrite HB. cbn [nth].
    f_equal. unfold modeshape in PR. rewrite HB in PR. cbn [nth] in PR. unfold sumR. cbn [fold_right]. rewrite PR. replace (/ 2 * PI) with (PI / 2) by field. rewrite sin_PI2. ring.
  - unfold pushing, vehicles, stands. rewrite MV, ST. cbn [map combine fold_right fst snd]. rewrite PR, HF. unfold on_flat. rewrite (proj2 (Rleb_false 2 1)) by lra. rewrite andb_false_r. ring.
Qed.
Print Assumptions C170_after_table_refuted.

(** * C169: a beam it applies to *)
From Coq Require Import Reals List Arith ZArith Bool Lia Lra.
From Coquelicot Require Import Coquelicot.
From Verif Require Import Base PiecewiseModel PolyLineModel SpecPiecewise SpecLoad SpectralModel BeamModel DingModel PropsBeam6 SpecGalerkin SpecBeamModel SpecBeamSpec SpecBeamProofs2 PropsSpecBeam2 PropsSpecBeam3 SpecModal SpecBeamMotion SpecBeamModalModel PropsSpecBeamModal ComplexCalc PropsGalerkin.
Import ListNotations.
Local Open Scope R_scope.

Lemma ok_eq {A} (x y : A) : Ok x = Ok y -> x = y. Proof. intros H. congruence. Qed.
Definition inv2 (A : list (list R)) : result (list (list R)) :=
  match A with
  | [[a; b]; [c; d]] => let D := a * d - b * c in if Reqb D 0 then Err ValueError else Ok [[d / D; - b / D]; [- c / D; a / D]]
  | _ => Err ValueError
  end.
Definition cinv2 (A : list (list C)) : result (list (list C)) :=
  match A with
  | [[a; b]; [c; d]] => let D := Cminus (Cmult a d) (Cmult b c) in if (Reqb (fst D) 0 && Reqb (snd D) 0)%bool then Err ValueError else
      Ok [[Cdiv d D; Cdiv (Copp b) D]; [Cdiv (Copp c) D; Cdiv a D]]
  | _ => Err ValueError
  end.
(** of the matrices [[0, -1], [c, 0]] with c > 0 *)
Definition eig2 (M : list (list R)) : result (list C * list (list C)) :=
  match M with
  | [[a; b]; [c; d]] => if (Reqb a 0 && Reqb b (-1) && Reqb d 0 && Rltb 0 c)%bool then
      Ok ([(0, sqrt c); (0, - sqrt c)], [[RtoC 1; RtoC 1]; [(0, - sqrt c); (0, sqrt c)]]) else Err ValueError
  | _ => Err ValueError
  end.
Lemma inv2_inverts : inverts_both inv2.
Proof.
  intros A N H. unfold inv2 in H. destruct A as [|[|a [|b [|? ?]]] [|[|c [|d [|? ?]]] [|? ?]]]; try discriminate. cbn zeta in H. destruct (Reqb _ 0) eqn:E; [discriminate|]. apply Reqb_false in E. apply ok_eq in H. subst N.
  split; [split; [reflexivity|intros r [<-|[<-|[]]]; reflexivity]|]. cbn [length].
  intros [|[|i]] [|[|j]] Hi Hj; try lia; unfold sum, coef; cbn; split; field; exact E.
Qed.
Lemma cinv2_inverts : cinverts cinv2.
Proof.
  intros A N H. unfold cinv2 in H. destruct A as [|[|a [|b [|? ?]]] [|[|c [|d [|? ?]]] [|? ?]]]; try discriminate. cbn zeta in H. destruct (_ && _)%bool eqn:E; [discriminate|].
  assert (E' : Cminus (Cmult a d) (Cmult b c) <> RtoC 0).
  { intros Z. rewrite Z in E. cbn [fst snd RtoC] in E. rewrite (proj2 (Reqb_true 0 0) eq_refl) in E. discriminate. }
  apply ok_eq in H. subst N. set (D := Cminus (Cmult a d) (Cmult b c)) in *.
  split; [split; [reflexivity|intros r [<-|[<-|[]]]; reflexivity]|]. cbn [length].
  intros [|[|i]] [|[|j]] Hi Hj; try lia; unfold csum, ccoef; cbn [seq map fold_right nth Nat.eqb]; split; subst D; field; exact E'.
Qed.
Lemma eig2_diag : cdiagonalises eig2.
Proof.
  intros M w V H. unfold eig2 in H. destruct M as [|[|a [|b [|? ?]]] [|[|c [|d [|? ?]]] [|? ?]]]; try discriminate. destruct (_ && _)%bool eqn:E; [|discriminate].
  apply andb_prop in E as [E Ec]. apply andb_prop in E as [E Ed]. apply andb_prop in E as [Ea Eb]. apply Reqb_true in Ea, Eb, Ed. apply Rltb_true in Ec. subst a b d.
  assert (HH := ok_eq _ _ H). assert (W := f_equal fst HH). assert (V' := f_equal snd HH). cbn [fst snd] in W, V'. subst w V.
  assert (SQ : sqrt c * sqrt c = c) by (apply sqrt_sqrt; lra).
  split; [split; [reflexivity|intros r [<-|[<-|[]]]; reflexivity]|]. split; [reflexivity|]. cbn [length].
  intros [|[|i]] [|[|j]] Hi Hj; try lia; unfold csum, coef, ccoef; apply C_eq; cbn; try lra; try (rewrite <- SQ; ring).
Qed.
Lemma ex1_moving P o : sb_init solve12 (ex1 P) = Ok o -> exists X, s_moving o = Some [X] /\ s_stat o = Some ([/ 2], [flat], [None]) /\ s_in o = ex1 P /\ s_beta o = [PI] /\
  mxt X = [0] /\ mp X = [P] /\ mL X = Some 1 /\ mt0 X = 0 /\ mv_ X = Some 1 /\ mx0 X = 0.
Proof.
  intros H. unfold sb_init, ex1, ex_beam, moving, stationary, mpl_init, setv in H. cbn -[points_SS weights sqrt INR] in H. rewrite weights2, andb_false_r in H. cbn -[INR sqrt] in H. apply ok_eq in H. subst o. cbn [s_moving s_stat s_in s_beta].
  eexists. split; [reflexivity|]. replace (1 / 1) with 1 by field. rewrite sqrt_1. replace (0 / 1) with 0 by field. replace (1 / (1 * 1)) with 1 by field. replace (0 * 1) with 0 by ring. replace (1 * 1) with 1 by ring.
  cbn [mxt mp mL mt0 mv_ mx0]. replace (/ 2 / 1) with (/ 2) by field. change (INR 0) with 0. replace (PI * (0 + 1)) with PI by ring. replace (0 + 0) with 0 by ring. replace (P / 1) with P by field.
  repeat (match goal with |- _ /\ _ => split end); reflexivity.
Qed.
Definition on_flat (t : R) : R := if (Rleb 0 t && Rleb t 1)%bool then 1 else 0.
Lemma flat_good : good_table flat on_flat.
Proof.
  unfold good_table, load_within, px, py, flat, on_flat. cbn [map fst snd length]. repeat (match goal with |- _ /\ _ => split end); try lia.
  - intros i Hi. cbn in Hi. assert (i = 0%nat) by lia. subst i. unfold SpecPiecewise.at_. cbn. lra.
  - intros i Hi. cbn in Hi. assert (i = 0%nat) by lia. subst i. unfold SpecPiecewise.at_. cbn. lra.
  - intros k t Hk Ht. cbn in Hk. assert (k = 0%nat) by lia. subst k. unfold chord, SpecPiecewise.at_ in *. cbn in *. rewrite (proj2 (Rleb_true 0 t)) by lra. rewrite (proj2 (Rleb_true t 1)) by lra. cbn. field.
  - intros t Ht. unfold SpecPiecewise.at_ in Ht. cbn in Ht. destruct (Rleb 0 t) eqn:E1; auto. destruct (Rleb t 1) eqn:E2; auto. apply Rleb_true in E1, E2. lra.
Qed.
(** *** the hypotheses of C169_motion are met: a vehicle of any weight crossing a beam on which a load stands from time 0 to time 1 *)
Theorem C169_example : inverts_both inv2 /\ cinverts cinv2 /\ cdiagonalises eig2 /\ forall P, P <> 0 -> exists o M eigs v Igamv F,
  sb_init solve12 (ex1 P) = Ok o /\ time_independant_matrices o = Ok M /\ eigs_and_v inv2 cinv2 eig2 (b_nterms (s_in o)) M = Ok (eigs, v, Igamv) /\
  good_loads o F /\ unloaded_before o 0 /\ (forall l, In l eigs -> l <> RtoC 0) /\
  (forall l u k, In l eigs -> In u (vehicles o) -> (k < b_nterms (s_in o))%nat -> l <> (0, speed u * nth k (s_beta o) 0) /\ l <> (0, - (speed u * nth k (s_beta o) 0))) /\
  pushing o F 0 (/ 2) = P + 1 /\ pushing o F 0 (-1) = 0.
Proof.
  split; [exact inv2_inverts|]. split; [exact cinv2_inverts|]. split; [exact eig2_diag|]. intros P HP. destruct (ex1_init P) as (o & HO). destruct (ex1_moving P o HO) as (X & HM & HS & HI & HB & X1 & X2 & X3 & X4 & X5 & X6).
  assert (PP := PI_RGT_0). assert (P4 : 0 < PI ^ 4) by (apply pow_lt; lra). set (w := sqrt (PI ^ 4 + 3)).
  assert (W : 0 < w) by (apply sqrt_lt_R0; lra). assert (W2 : w * w = PI ^ 4 + 3) by (apply sqrt_sqrt; lra).
  assert (AX : forall t, axle X 0 t = t). { intros t. unfold axle. rewrite X3, X4, X5, X6. unfold axle_at. rewrite (proj2 (Rltb_false 1 0)) by lra. ring. }
  assert (SP : span X = 1) by (unfold span; rewrite X3; reflexivity). assert (SV : speed X = 1) by (unfold speed; rewrite X5; reflexivity).
  exists o, (mkMats [[/ 2]] [[- (PI ^ 4 + 3) / 2]] [[0]] [1; 1]), [(0, w); (0, - w)], [[RtoC 1; RtoC 1]; [(0, - w); (0, w)]]. eexists. exists (fun _ => on_flat).
  split; [exact HO|]. split; [apply (ex1_matrices P o HO)|]. split.
  { rewrite HI. change (b_nterms (ex1 P)) with 1%nat. unfold eigs_and_v. cbn [lam_qdotdot psi_q psi_qdot]. unfold make_gam, table. cbn [Nat.mul Nat.add seq map Nat.ltb Nat.leb Nat.eqb Nat.sub rat nth].
    unfold rat. cbn [nth]. unfold inv2 at 1. rewrite (proj2 (Reqb_false (1 * / 2 - 0 * 0) 0)) by lra. cbn [bind].
    unfold mdot, make_psi, table, rat, sumR. cbn [Nat.mul Nat.add seq map Nat.ltb Nat.leb Nat.eqb Nat.sub nth fold_right]. unfold eig2 at 1.
    match goal with |- context[Reqb ?e 0] => replace e with 0 by field end. match goal with |- context[Reqb ?e (-1)] => replace e with (-1) by field end.
    match goal with |- context[Rltb 0 ?e] => replace e with (PI ^ 4 + 3) by field end. match goal with |- context[(_ && Reqb ?e 0 && _)%bool] => replace e with 0 by field end.
    rewrite (proj2 (Reqb_true 0 0)) by auto. rewrite (proj2 (Reqb_true (-1) (-1))) by auto. rewrite (proj2 (Rltb_true 0 (PI ^ 4 + 3))) by lra. cbn [andb bind fst snd]. fold w.
    unfold rcdot, table, rat, cat, isum, LoadComplexModel.sumC. cbn [Nat.mul Nat.add seq map nth fold_right]. unfold cinv2.
    match goal with |- context[Reqb (snd ?D) 0] => replace D with ((0, w) : C) by (apply C_eq; cbn; field) end. cbn [fst snd]. rewrite (proj2 (Reqb_false w 0)) by lra. rewrite andb_false_r. cbn [bind]. reflexivity. }
  split. { unfold good_loads, vehicles, stands. rewrite HM, HS. cbn [combine]. repeat (match goal with |- _ /\ _ => split end); try reflexivity.
    - intros v [<-|[]]. exists 1, 1. rewrite X1, X2, X3, X5. repeat (match goal with |- _ /\ _ => split end); auto; try lra. intros p [<-|[]]. exact HP.
    - intros q [<-|[]]. cbn [snd]. exact flat_good. }
  split. { unfold unloaded_before, vehicles, stands. rewrite HM, HS. cbn [combine]. split.
    - intros v a t [<-|[]] Ha Ht. rewrite X1 in Ha. destruct Ha as [<-|[]]. rewrite AX, X6. lra.
    - intros q [<-|[]]. cbn. unfold SpecPiecewise.at_. cbn. lra. }
  split. { intros l [<-|[<-|[]]] E; apply (f_equal snd) in E; cbn in E; lra. }
  split. { unfold vehicles. rewrite HM, HB, HI. change (b_nterms (ex1 P)) with 1%nat. intros l u k Hl [<-|[]] Hk. assert (k = 0%nat) by lia. subst k. rewrite SV. cbn [nth].
    assert (NE : w <> PI). { intros E. rewrite E in W2. assert (PI ^ 4 = (PI * PI) * (PI * PI)) by ring. nra. }
    destruct Hl as [<-|[<-|[]]]; split; intros E; apply (f_equal snd) in E; cbn in E; lra. }
  unfold pushing, vehicles, stands, modeshape. rewrite HM, HS, HB. cbn [combine map fold_right fst snd nth]. unfold pressing. rewrite X1, X2, SP, X6. cbn [combine map fold_right fst snd]. rewrite !AX. unfold on_flat. split.
  - rewrite !(proj2 (Rleb_true _ _)) by lra. cbn [andb]. replace (PI * / 2) with (PI / 2) by field. rewrite sin_PI2. ring.
  - rewrite (proj2 (Rleb_false 0 (-1))) by lra. cbn [andb]. ring.
Qed.
Print Assumptions C169_example.

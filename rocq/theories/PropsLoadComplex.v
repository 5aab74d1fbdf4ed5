(** * C168: loads against complex eigenvalues *)
From Coq Require Import Reals List Arith Lia Lra Bool Sorted.
From Coquelicot Require Import Coquelicot.
From Verif Require Import Base PiecewiseModel SpecPiecewise PiecewiseProofs LayersProofs SpectralModel SpectralProofs SpectralProofs4 LoadModel BeamModel
  LoadComplexModel SpecLoad LoadProofs LoadProofs2 PropsLoad SpecComplex ComplexCalc LoadComplexProofs LoadComplexProofs2.
Import ListNotations.
Local Open Scope R_scope.

(** exp(-dT lam (t - tau)) *)
Definition decay (dT : R) (lam : C) (t tau : R) : C := cexp (Cmult (RtoC (- dT * (t - tau))) lam).
Lemma decay_dec dT lam t z : decay dT lam t z = dec dT lam t z.
Proof. unfold decay, dec. f_equal. apply C_eq; cbn; ring. Qed.

Theorem C168_Eload_linear : forall im loadtim loadmag eigs tvals dT load,
  nondecr loadtim -> (1 <= length loadtim)%nat -> length loadtim = length loadmag ->
  no_doubled_points loadtim loadmag -> load_is loadtim loadmag load ->
  (forall lam, In lam eigs -> Cmult (RtoC dT) lam <> RtoC 0) ->
  exists A, CEload_linear im loadtim loadmag eigs tvals dT = Ok A /\ length A = length tvals /\
    forall i j, (i < length tvals)%nat -> (j < length eigs)%nat ->
      is_CInt (fun tau => Cmult (RtoC (load tau)) (decay dT (nth j eigs (RtoC 0)) (nth i tvals 0) tau))
        (SpecPiecewise.at_ loadtim 0) (until loadtim (nth i tvals 0)) (nth j (nth i A []) (RtoC 0)).
Proof.
  intros im x y eigs tvals dT f Hn Hl1 Hl Hd Hf Hlam. unfold CEload_linear.
  apply (rowsC_spec (P := fun t lam v => is_CInt (fun tau => Cmult (RtoC (f tau)) (decay dT lam t tau)) (SpecPiecewise.at_ x 0) (until x t) v)).
  intros t _. destruct (containing_sets x y t Hl Hd) as (rc & cc & E & _). eexists. split; [exact E|].
  intros lam Hin. destruct (CElin_entry_eq x y dT t lam Hl Hd (Hlam lam Hin) im _ E) as (v & Ev & Pv). exists v. split; auto.
  apply (pieces_CInt x y (fun p q => KL p q dT lam t)); auto.
  intros k a b Hk Hlt Ha Hab Hb. unfold segK. cbv zeta.
  eapply CInt_ext; [|apply CInt_KL; auto].
  intros z. rewrite Rmin_left, Rmax_right by lra. intros Hz. cbv beta. rewrite decay_dec, (Hf k z Hk) by lra. f_equal. f_equal. unfold chord. field. lra.
Qed.
Print Assumptions C168_Eload_linear.
Theorem C168_Eload_sinlinear : forall im loadtim loadmag omega phase eigs tvals dT load,
  nondecr loadtim -> (1 <= length loadtim)%nat -> length loadtim = length loadmag ->
  no_doubled_points loadtim loadmag -> load_is loadtim loadmag load ->
  (forall lam, In lam eigs -> Cmult (RtoC dT) lam <> RtoC 0) ->
  (forall lam, In lam eigs -> Cmult (RtoC dT) lam <> (0, omega) /\ Cmult (RtoC dT) lam <> (0, - omega)) ->
  exists A, CEload_sinlinear im loadtim loadmag omega phase eigs tvals dT = Ok A /\ length A = length tvals /\
    forall i j, (i < length tvals)%nat -> (j < length eigs)%nat ->
      is_CInt (fun tau => Cmult (RtoC (load tau * sin (omega * tau + phase))) (decay dT (nth j eigs (RtoC 0)) (nth i tvals 0) tau))
        (SpecPiecewise.at_ loadtim 0) (until loadtim (nth i tvals 0)) (nth j (nth i A []) (RtoC 0)).
Proof.
  intros im x y om ph eigs tvals dT f Hn Hl1 Hl Hd Hf Hlam Hres. unfold CEload_sinlinear.
  apply (rowsC_spec (P := fun t lam v => is_CInt (fun tau => Cmult (RtoC (f tau * sin (om * tau + ph))) (decay dT lam t tau)) (SpecPiecewise.at_ x 0) (until x t) v)).
  intros t _. destruct (containing_sets x y t Hl Hd) as (rc & cc & E & _). eexists. split; [exact E|].
  intros lam Hin.
  assert (HD : Cplus (Cmult (Cmult (RtoC dT) lam) (Cmult (RtoC dT) lam)) (RtoC (om * om)) <> RtoC 0).
  { destruct (Hres lam Hin) as [N1 N2]. set (a := Cmult (RtoC dT) lam) in *. clearbody a.
    replace (Cplus (Cmult a a) (RtoC (om * om))) with (Cmult (Cminus a (0, om)) (Cminus a (0, - om))) by (apply C_eq; cbn; ring).
    apply Cmult_neq_0; apply Cminus_eq_contra; auto. }
  destruct (CEsin_entry_eq x y om ph dT t lam Hl Hd (Hlam lam Hin) HD im _ E) as (v & Ev & Pv). exists v. split; auto.
  apply (pieces_CInt x y (fun p q => KS p q om ph dT lam t)); auto.
  intros k a b Hk Hlt Ha Hab Hb. unfold segK. cbv zeta.
  eapply CInt_ext; [|apply CInt_KS; auto].
  intros z. rewrite Rmin_left, Rmax_right by lra. intros Hz. cbv beta. rewrite decay_dec, (Hf k z Hk) by lra. f_equal. f_equal. f_equal. unfold chord. field. lra.
Qed.
Print Assumptions C168_Eload_sinlinear.
(** A step and a ramp, a complex pair and a real eigenvalue: the hypotheses hold. *)
Theorem C168_example : exists A, CEload_sinlinear vectorized [0; 0; 1; 2] [0; 3; 3; 1] 5 (1/2) [(1, 2); (1, -2); (4, 0)] [1/2; 3/2; 4] 1 = Ok A /\ length A = 3%nat /\
  is_CInt (fun tau => Cmult (RtoC ((if Rle_dec tau 1 then 3 else 3 - 2 * (tau - 1)) * sin (5 * tau + 1/2))) (decay 1 (1, 2) (3/2) tau)) 0 (3/2) (nth 0 (nth 1 A []) (RtoC 0)).
Proof.
  set (f := fun tau => if Rle_dec tau 1 then 3 else 3 - 2 * (tau - 1)).
  assert (HN : forall a b, a <> 0 -> (a, b) <> RtoC 0) by (intros a b H E; apply H; injection E; auto).
  destruct (C168_Eload_sinlinear vectorized [0; 0; 1; 2] [0; 3; 3; 1] 5 (1/2) [(1, 2); (1, -2); (4, 0)] [1/2; 3/2; 4] 1 f) as (A & EA & LA & HA).
  - unfold nondecr. intros i Hi. cbn in Hi. destruct i as [|[|[|i]]]; cbn; try lra. lia.
  - cbn; lia.
  - reflexivity.
  - intros i Hi. cbn in Hi. destruct i as [|[|[|i]]]; cbn; try lra. lia.
  - intros k v Hk. cbn in Hk. destruct k as [|[|[|k]]]; unfold chord; cbn; intros Hv; unfold f; destruct (Rle_dec v 1); try lra; exfalso; lia.
  - intros lam Hin; destruct Hin as [Hin|[Hin|[Hin|[]]]]; subst lam; unfold Cmult; cbn; apply HN; lra.
  - intros lam Hin; destruct Hin as [Hin|[Hin|[Hin|[]]]]; subst lam; unfold Cmult; cbn; split; intros E; injection E; intros; lra.
  - exists A. split; auto. split; auto. specialize (HA 1%nat 0%nat ltac:(cbn; lia) ltac:(cbn; lia)). cbn [nth] in HA.
    replace (SpecPiecewise.at_ [0; 0; 1; 2] 0) with 0 in HA by reflexivity. replace (until [0; 0; 1; 2] (3 / 2)) with (3 / 2) in HA; [exact HA|].
    unfold until. cbn. rewrite Rmin_left, Rmax_right by lra. reflexivity.
Qed.
Print Assumptions C168_example.

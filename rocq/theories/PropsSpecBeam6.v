(** * C154, C155: a case *)
From Coq Require Import Reals List Arith ZArith Bool Lia Lra.
From Verif Require Import Base PiecewiseModel PolyLineModel SpecSpectral BeamModel DingModel SpecBeamModel SpecBeamSpec SpecBeamProofs1 SpecBeamProofs2 PropsSpecBeam PropsSpecBeam2 PropsSpecBeam3 PropsSpecBeam5 PropsGalerkin.
Import ListNotations.
Local Open Scope R_scope.

(** what meets the hypotheses of C154_physical, C154_units *)
Theorem C154_witness : exists o, beam_of (ex1 7) 1 1 1 1 1 3 5 0 /\ vehicles_of (ex1 7) [mkV [0] [7] 1 0] /\ standing_of (ex1 7) [mkSt (/ 2) flat None] /\
  b_tvals (ex1 7) = Some [0; 1] /\ b_tvalsn (ex1 7) = None /\ b_xvals (ex1 7) = Some [/ 2] /\ b_xvalsn (ex1 7) = None /\ sb_init solve12 (ex1 7) = Ok o /\ s_kf o = 1 /\ s_k1 o = 3 /\ s_t o = [0; 1].
Proof.
  destruct (ex1_init 7) as (o & HO). exists o. split; [apply ex1_beam|]. split; [apply ex1_vehicles|]. split; [apply ex1_standing|]. do 4 (split; [reflexivity|]). split; [exact HO|].
  destruct (C154_physical solve12 (ex1 7) o 1 1 1 1 1 3 5 0 [0; 1] [/ 2] (ex1_beam 7) eq_refl eq_refl eq_refl eq_refl HO) as (_ & K & _ & K1 & _ & _ & T & _). rewrite K, K1, T. replace (1 / 1) with 1 by field. rewrite sqrt_1. split; [field|]. split; [field|].
  cbn. repeat (apply f_equal2; [lra|]). reflexivity.
Qed.
Theorem C155_witness : exists o d w, sb_init solve12 (ex1 7) = Ok o /\ runme solve12 (fun _ _ ts => Ok (map (fun T => [T; 1]) ts)) o None None = Ok (d, Some w) /\ entry w 0 1 = 1.
Proof.
  destruct (ex1_init 7) as (o & HO). exists o. assert (EM := ex1_matrices 7 o HO).
  destruct (C154_physical solve12 (ex1 7) o 1 1 1 1 1 3 5 0 [0; 1] [/ 2] (ex1_beam 7) eq_refl eq_refl eq_refl eq_refl HO) as (_ & _ & _ & _ & _ & B & T & X).
  assert (I2 : s_in o = ex1 7) by apply (init_phys solve12 1 1 1 1 1 3 5 0 (ex1 7) o (ex1_beam 7) HO).
  eexists. eexists. split; [exact HO|]. unfold runme, sb_qk. rewrite EM, I2. cbn [bind]. rewrite T, X. change (b_force (ex1 7)) with true. change (b_nterms (ex1 7)) with 1%nat in *. unfold sb_wofx, sb_w. rewrite I2, B. change (b_nterms (ex1 7)) with 1%nat. change (b_L (ex1 7)) with (Some 1). cbn [map bind]. split; [reflexivity|].
  unfold entry. cbn -[sqrt PI]. unfold sumR. cbn -[sqrt PI]. replace (1 / 1) with 1 by field. rewrite sqrt_1. replace (PI * (0 + 1) * (/ 2 / 1)) with (PI / 2) by field. rewrite sin_PI2. ring.
Qed.

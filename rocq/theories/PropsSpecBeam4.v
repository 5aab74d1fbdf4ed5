(** * C153: loads that are misread; C154: the constructor of SpecBeam; C155: its output *)
From Coq Require Import Reals List Arith ZArith Bool Lia Lra.
From Coquelicot Require Import Coquelicot.
From Verif Require Import Base PiecewiseModel PolyLineModel SpecWrap SpecPolyLine SpectralModel SpecSpectral WrapModel PropsWrap BeamModel DingModel DingProofs PropsDing PropsBeam6 SpecBeamModel SpecBeamSpec SpecBeamProofs1 SpecBeamProofs2 PropsSpecBeam PropsSpecBeam2 PropsSpecBeam3 PropsGalerkin.
Import ListNotations.
Local Open Scope R_scope.

(** a vehicle that starts at time 5 and is then at the end of the beam presses in the middle *)
Theorem C153_start_time_refuted : exists i o, i = ex_beam 1 1 3 5 (Some [[0]]) (Some [[1]]) (Some [/ 10]) (Some [5]) None None None /\ sb_init solve12 i = Ok o /\
  loads o (PI * (INR 0 + 1)) 5 = Ok 1 /\ 1 * mode 1 0 (axle_at (/ 10) 1 5 0 0 5) = 0.
Proof.
  eexists. eexists. split; [reflexivity|]. split; [|split].
  - unfold sb_init, ex_beam, moving, stationary, mpl_init, setv. cbn -[points_SS weights sqrt]. rewrite weights2, andb_false_r. cbn [bind]. reflexivity.
  - unfold loads. cbn -[sqrt INR]. assert (S1 : sqrt (1 / 1) = 1) by (replace (1 / 1) with 1 by field; apply sqrt_1). rewrite S1.
    unfold vehicle_load, point_loads_on_beam. cbn -[sqrt INR Rltb Rleb]. unfold sumR. cbn [fold_right]. 
    assert (E1 : Rltb (/ 10 * 1) 0 = false) by (apply Rltb_false; lra). assert (E2 : Rleb 0 (/ 10 * 1) = true) by (apply Rleb_true; lra). rewrite !E1, !E2. cbn [orb].
    assert (E3 : Rltb 0 (/ 10 * 1) = true) by (apply Rltb_true; lra). rewrite !E3. cbn [combine map fst snd fold_right].
    match goal with |- context [Rltb 5 ?a] => assert (E4 : Rltb 5 a = false) by (apply Rltb_false; replace a with 5 by field; lra); rewrite E4 end.
    match goal with |- context [Rltb ?a 5] => assert (E5 : Rltb a 5 = false) by (apply Rltb_false; replace a with 15 by field; lra); rewrite E5 end. cbn [orb].
    f_equal. match goal with |- context [sin ?z] => replace z with (PI / 2) by (cbn [INR]; field) end. rewrite sin_PI2. field.
  - unfold axle_at, mode. assert (E : Rltb (/ 10) 0 = false) by (apply Rltb_false; lra). rewrite E. match goal with |- context [sin ?z] => replace z with 0 by field end. rewrite sin_0. ring.
Qed.
(** the phase of a standing load is divided by E A: with E A = 2, a load of phase pi does nothing instead of acting upwards *)
Theorem C153_phase_refuted : exists i o, i = ex_beam 2 1 3 5 None None None None (Some [/ 2]) (Some [flat]) (Some [Some (0, PI)]) /\ sb_init solve12 i = Ok o /\
  loads o (PI * (INR 0 + 1)) 0 = Ok 0 /\ value_at flat 0 * cos (0 * 0 + PI) * mode 1 0 (/ 2) = -1.
Proof.
  assert (V : value_at flat 0 = 1) by (unfold value_at, interp_x_y; cbn [px py flat map length Nat.eqb negb fst snd mapM]; change [0; 1] with (px flat); change [1; 1] with (py flat); rewrite flat_at by lra; reflexivity).
  eexists. eexists. split; [reflexivity|]. split; [|split].
  - unfold sb_init, ex_beam, moving, stationary, mpl_init, setv. cbn -[points_SS weights sqrt]. rewrite weights2, andb_false_r. cbn [bind]. reflexivity.
  - unfold loads. cbn -[sqrt INR interp_x_y]. assert (S1 : sqrt (2 / 2) = 1) by (replace (2 / 2) with 1 by field; apply sqrt_1). rewrite !S1. unfold stationary_load. cbn -[sqrt INR interp_x_y].
    assert (IV := interp_scale 1 (/ 2) ltac:(lra) (px flat) (py flat) false [0] eq_refl). assert (FV : interp_x_y (px flat) (py flat) [0] false = Ok [1]) by (unfold interp_x_y; cbn [length px py flat map fst snd Nat.eqb negb mapM]; change [0; 1] with (px flat); change [1; 1] with (py flat); rewrite flat_at by lra; reflexivity). rewrite FV in IV. cbn [rmap map px py flat fst snd] in IV.
    match goal with |- context [interp_x_y ?a ?b ?c false] => replace (interp_x_y a b c false) with (Ok [1 * / 2]) end.
    + cbn. unfold sumR. cbn. f_equal. match goal with |- context [cos ?z] => replace z with (PI / 2) by field end. rewrite cos_PI2. ring.
    + rewrite <- IV. f_equal; repeat (apply f_equal2; [field|]); reflexivity.
  - rewrite V. unfold mode. match goal with |- context [sin ?z] => replace z with (PI / 2) by (cbn [INR]; field) end. rewrite sin_PI2. replace (0 * 0 + PI) with PI by ring. rewrite cos_PI. ring.
Qed.

(** * C153: what SpecBeam does not do; a case the theorem applies to *)
From Coq Require Import Reals List Arith ZArith Bool Lia Lra.
From Coquelicot Require Import Coquelicot.
From Verif Require Import Base PiecewiseModel PolyLineModel SpecWrap SpecPolyLine SpectralModel SpecSpectral WrapModel PropsWrap BeamModel DingModel DingProofs PropsDing PropsBeam6 SpecBeamModel SpecBeamSpec SpecBeamProofs1 SpecBeamProofs2 PropsSpecBeam PropsGalerkin.
Import ListNotations.
Local Open Scope R_scope.

(** the same beam with other k3bar *)
Definition with_k3bar (i : sb_in) (p : points) : sb_in :=
  mkB (b_BC i) (b_nterms i) (b_E i) (b_I i) (b_rho i) (b_A i) (b_L i) (b_k1 i) (b_k3 i) (b_mu i)
    (b_mx i) (b_mF i) (b_mv i) (b_moff i) (b_mt0 i) (b_mx0 i) (b_mL i) (b_tvals i) (b_xvals i)
    (b_mxn i) (b_mFn i) (b_mvn i) (b_moffn i) (b_mt0n i) (b_mx0n i) (b_mLn i) (b_tvalsn i) (b_xvalsn i)
    (b_sx i) (b_sP i) (b_sop i) (b_sxn i) (b_sPn i) (b_sopn i) (b_kf i) (b_mun i) (b_k1n i) (b_k3n i) (b_nquad i)
    (b_Ebar i) (b_rhobar i) (b_Ibar i) (b_Abar i) (b_k1bar i) p (b_mubar i) (b_impl i) (b_analytical i) (b_force i).
(** *** the distribution of the cubic stiffness has no effect whatever: :859 reads that of the linear stiffness *)
Theorem C153_k3bar_refuted solve odeint i p o : sb_init solve i = Ok o ->
  exists o', sb_init solve (with_k3bar i p) = Ok o' /\ forall disk earlier, runme solve odeint o' disk earlier = runme solve odeint o disk earlier.
Proof.
  intros H.
  assert (M : moving (with_k3bar i p) = moving i) by reflexivity. assert (S : stationary (with_k3bar i p) = stationary i) by reflexivity.
  unfold sb_init in *. rewrite M, S. clear M S. cbn zeta in *.
  change (tscale (with_k3bar i p)) with (tscale i). change (divL (with_k3bar i p)) with (divL i).
  cbn [with_k3bar b_BC b_nterms b_E b_I b_rho b_A b_L b_k1 b_k3 b_mu b_tvals b_xvals b_tvalsn b_xvalsn b_kf b_mun b_k1n b_k3n b_nquad b_analytical].
  match type of H with (if ?b then _ else _) = _ => destruct b; [discriminate|] end.
  unbind H. cbn [bind]. destruct (b_BC i); try discriminate. unbind H. cbn [bind]. injection H as <-. eexists. split; [reflexivity|]. intros disk earlier. reflexivity.
Qed.

(** *** a case *)
(** np.linalg.solve for one and two equations *)
Definition solve12 (M : list (list R)) (r : list R) : result (list R) :=
  match M, r with
  | [[a]], [x] => if Reqb a 0 then Err ValueError else Ok [x / a]
  | [[a; b]; [c; d]], [x; y] => if Reqb (a * d - b * c) 0 then Err ValueError else Ok [(x * d - b * y) / (a * d - b * c); (a * y - c * x) / (a * d - b * c)]
  | _, _ => Err ValueError
  end.
Lemma solve12_solves : solves solve12.
Proof.
  intros M r x H. unfold solve12 in H. destruct M as [|[|a [|b [|? ?]]] [|[|c [|d [|? ?]]] [|? ?]]]; try discriminate; destruct r as [|u [|v [|? ?]]]; try discriminate.
  - destruct (Reqb a 0) eqn:E; [discriminate|]. apply Reqb_false in E. injection H as <-. split; [reflexivity|]. unfold dot, sumR. cbn. f_equal. field. exact E.
  - destruct (Reqb (a * d - b * c) 0) eqn:E; [discriminate|]. apply Reqb_false in E. injection H as <-. split; [reflexivity|]. unfold dot, sumR. cbn. f_equal; [|f_equal]; field; exact E.
Qed.
(** one mode, two quadrature points, uniform beam; E, A, k1, k3 as given, I = L = 1, rho = E *)
Definition ex_beam (E A k1 k3 : R) (mx mF : option (list (list R))) (mv mt0 : option (list R)) (sx_ : option (list R)) (sP_ : option (list points)) (sop : option (list (option (R * R)))) : sb_in :=
  mkB SS 1 (Some E) (Some 1) (Some E) (Some A) (Some 1) (Some k1) (Some k3) (Some 0)
    mx mF mv None mt0 None None (Some [0; 1]) (Some [/ 2]) None None None None None None None None None
    sx_ sP_ sop None None None None None None None (Some 2%nat) flat flat flat flat flat flat flat vectorized false true.
Lemma points2 : points_SS 2 = [0; 1].
Proof.
  unfold points_SS. cbn [map seq]. change (INR 2) with (1 + 1). change (INR 1) with 1. change (INR 0) with 0. replace (PI * 0 / (1 + 1 - 1)) with 0 by (field; lra). replace (PI * 1 / (1 + 1 - 1)) with PI by (field; lra). rewrite cos_0, cos_PI.
  apply f_equal2; [lra|]. apply f_equal2; [lra|]. reflexivity.
Qed.
Lemma weights2 : weights solve12 (points_SS 2) = Ok [/ 2; / 2].
Proof.
  rewrite points2. unfold weights. cbn [length seq map]. change (INR 1) with 1. change (INR 0) with 0. unfold solve12. assert (E : Reqb (0 ^ 0 * 1 ^ 1 - 1 ^ 0 * 0 ^ 1) 0 = false) by (apply Reqb_false; cbn; lra). rewrite E. cbn [pow].
  f_equal. apply f_equal2; [field|]. apply f_equal2; [field|]. reflexivity.
Qed.
Lemma flat_at t : 0 <= t <= 1 -> interp1 (px flat) (py flat) false t = Ok 1.
Proof.
  intros H. unfold interp1, segment_containing1, all_segs, flat, seg_mask. cbn -[nabs Rleb Reqb Rltb]. rewrite !nabs_R. replace (0 - 1) with (-1) by ring. replace (Rabs (-1)) with 1 by (rewrite Rabs_left; lra). rewrite Rminus_0_r.
  assert (E1 : Rleb (Rabs t) 1 = true) by (apply Rleb_true; rewrite Rabs_right; lra). assert (E2 : Rleb (Rabs (t - 1)) 1 = true) by (apply Rleb_true; rewrite Rabs_left1; lra). assert (E3 : Reqb 0 1 = false) by (apply Reqb_false; lra).
  rewrite E1, E2, E3. cbn. f_equal. field.
Qed.
Lemma flat_knots : interp_x_y (px flat) (py flat) [0; 1] false = Ok [1; 1].
Proof. unfold interp_x_y. cbn [px py map flat length Nat.eqb negb fst snd mapM]. change [0; 1] with (px flat). change [1; 1] with (py flat). rewrite !flat_at by lra. reflexivity. Qed.
Lemma flat_separated : well_separated [flat; flat].
Proof.
  intros u w Hu Hw. unfold distinct_enough. cbn in Hu, Hw. assert (X : forall y, 0 = y \/ 1 = y \/ 0 = y \/ 1 = y \/ False -> y = 0 \/ y = 1) by (intros y Hy; intuition). apply X in Hu. apply X in Hw.
  destruct Hu as [-> | ->], Hw as [-> | ->]; auto; right; repeat (rewrite ?Rminus_0_r, ?Rabs_R1, ?Rabs_R0, ?Rminus_0_l, ?Rabs_Ropp); lra.
Qed.

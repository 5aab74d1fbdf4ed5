(** * Vocabulary for SpecBeam *)
From Coq Require Import Reals List Arith ZArith Bool.
From Coquelicot Require Import Coquelicot.
From Verif Require Import Base PiecewiseModel PolyLineModel SpecWrap SpecPolyLine SpectralModel WrapModel BeamModel DingModel DingProofs PropsDing PropsBeam6 SpecBeamModel.
Import ListNotations.
Local Open Scope R_scope.

(** np.linalg.solve *)
Definition solves (solve : list (list R) -> list R -> result (list R)) : Prop := forall M r x, solve M r = Ok x -> length x = length r /\ map (fun row => dot row x) M = r.
(** the beam is given by physical quantities *)
Definition beam_of (i : sb_in) (E I rho A L k1 k3 mu : R) : Prop :=
  b_E i = Some E /\ b_I i = Some I /\ b_rho i = Some rho /\ b_A i = Some A /\ b_L i = Some L /\ b_k1 i = Some k1 /\ b_mu i = Some mu /\ (b_k3 i = Some k3 \/ b_k3 i = None /\ k3 = 0) /\
  b_kf i = None /\ b_mun i = None /\ b_k1n i = None /\ b_k3n i = None.
(** vehicles: axle coordinates, loads, velocity, offset *)
Record vehicle := mkV { vx : list R; vF : list R; vv : R; voff : R }.
(** given by physical quantities, starting at time 0 at the end of the beam *)
Definition vehicles_of (i : sb_in) (V : list vehicle) : Prop :=
  b_mxn i = None /\ b_mFn i = None /\ b_mvn i = None /\ b_moffn i = None /\ b_mt0 i = None /\ b_mt0n i = None /\ b_mx0 i = None /\ b_mx0n i = None /\ b_mL i = None /\ b_mLn i = None /\
  ((V = [] /\ b_mx i = None /\ b_mF i = None /\ b_mv i = None) \/
   (b_mx i = Some (map vx V) /\ b_mF i = Some (map vF V) /\ b_mv i = Some (map vv V) /\ (b_moff i = Some (map voff V) \/ b_moff i = None /\ forall v, In v V -> voff v = 0))) /\
  forall v, In v V -> length (vF v) = length (vx v) /\ vv v <> 0.
(** stationary loads: position, magnitude against time, circular frequency *)
Record standing := mkSt { sx : R; sP : points; som : option R }.
Definition standing_of (i : sb_in) (S : list standing) : Prop :=
  b_sxn i = None /\ b_sPn i = None /\ b_sopn i = None /\
  ((S = [] /\ b_sx i = None /\ b_sop i = None) \/
   (b_sx i = Some (map sx S) /\ b_sP i = Some (map sP S) /\ (b_sop i = Some (map (fun s => option_map (fun om => (om, 0)) (som s)) S) \/ b_sop i = None /\ forall s, In s S -> som s = None))).
(** what a vehicle on a beam from 0 to L does to a shape phi at time t: axles on the beam press with their loads *)
Definition vehicle_force (L t : R) (phi : R -> R) (v : vehicle) : R :=
  sumR (map (fun q => let x := axle_at (vv v) L 0 0 (fst q + voff v) t in if (Rleb 0 x && Rleb x L)%bool then snd q * phi x else 0) (combine (vx v) (vF v))).
(** value of a polyline at t as pinterp_x_y gives it (C01) *)
Definition value_at (P : points) (t : R) : R := match interp_x_y (px P) (py P) [t] false with Ok [m] => m | _ => 0 end.
Definition standing_force (t : R) (phi : R -> R) (s : standing) : R := value_at (sP s) t * (match som s with None => 1 | Some om => cos (om * t) end) * phi (sx s).
Definition force (L t : R) (phi : R -> R) (V : list vehicle) (S : list standing) : R := sumR (map (vehicle_force L t phi) V) + sumR (map (standing_force t phi) S).
(** second derivative of the mode shapes *)
Definition mode2 (L : R) (k : nat) (x : R) : R := - ((INR k + 1) * PI / L) ^ 2 * mode L k x.

(** * Vocabulary: the motion of the beam of SpecBeam with linear springs *)
From Coq Require Import Reals List Arith Bool.
From Coquelicot Require Import Coquelicot.
From Verif Require Import Base PiecewiseModel SpecPiecewise PolyLineModel SpecLoad SpecGalerkin SpecModal BeamModel DingModel PropsBeam6 SpecBeamModel.
Import ListNotations.
Local Open Scope R_scope.

(** a vehicle as the constructor makes it, moving, with a load on every axle *)
Definition ready (v : mpl) : Prop := exists s L, mv_ v = Some s /\ s <> 0 /\ mL v = Some L /\ 0 < L /\ length (mp v) = length (mxt v) /\ forall p, In p (mp v) -> p <> 0.
(** where the axle at distance a is at time t; whether that is on the beam *)
Definition axle (v : mpl) (a t : R) : R := match mv_ v, mL v with Some s, Some L => axle_at s L (mt0 v) (mx0 v) a t | _, _ => 0 end.
Definition span (v : mpl) : R := match mL v with Some L => L | None => 0 end.
Definition speed (v : mpl) : R := match mv_ v with Some s => s | None => 0 end.
(** what the axles on the beam do to a shape phi *)
Definition pressing (phi : R -> R) (t : R) (v : mpl) : R :=
  fold_right Rplus 0 (map (fun q => if (Rleb (mx0 v) (axle v (fst q) t) && Rleb (axle v (fst q) t) (mx0 v + span v))%bool then snd q * phi (axle v (fst q) t) else 0) (combine (mxt v) (mp v))).
(** F says what each stationary load's table means; the loads have no frequency *)
Definition vehicles (o : sb) : list mpl := match s_moving o with Some l => l | None => [] end.
Definition stands (o : sb) : list (R * points) := match s_stat o with Some (xs, Ps, _) => combine xs Ps | None => [] end.
Definition good_table (P : points) (f : R -> R) : Prop :=
  nondecr (px P) /\ (1 <= length (px P))%nat /\ no_doubled_points (px P) (py P) /\ load_within (px P) (py P) f.
Definition good_loads (o : sb) (F : points -> R -> R) : Prop :=
  (forall v, In v (vehicles o) -> ready v) /\ (forall q, In q (stands o) -> good_table (snd q) (F (snd q))) /\
  match s_stat o with Some (xs, Ps, ops) => length Ps = length xs /\ ops = map (fun _ => None) xs | None => True end.
(** the work of all loads on mode k *)
Definition modeshape (o : sb) (k : nat) (x : R) : R := sin (nth k (s_beta o) 0 * x).
Definition pushing (o : sb) (F : points -> R -> R) (k : nat) (t : R) : R :=
  fold_right Rplus 0 (map (pressing (modeshape o k) t) (vehicles o)) + fold_right Rplus 0 (map (fun q => F (snd q) t * modeshape o k (fst q)) (stands o)).
(** no load before T0 *)
Definition unloaded_before (o : sb) (T0 : R) : Prop :=
  (forall v a t, In v (vehicles o) -> In a (mxt v) -> t < T0 -> ~ mx0 v <= axle v a t <= mx0 v + span v) /\ (forall q, In q (stands o) -> T0 <= SpecPiecewise.at_ (px (snd q)) 0).
(** at time t no axle is at an end of the beam and no table of loads has a point *)
Definition quiet (o : sb) (t : R) : Prop :=
  (forall v a, In v (vehicles o) -> In a (mxt v) -> axle v a t <> mx0 v /\ axle v a t <> mx0 v + span v) /\ (forall q, In q (stands o) -> ~ In t (px (snd q))).
(** q are the amplitudes of the modes and p their velocities, at rest until T0, under the loads *)
Definition motion (o : sb) (M : mats) (F : points -> R -> R) (T0 : R) (q p : nat -> R -> R) : Prop :=
  let n := b_nterms (s_in o) in
  (forall k, (k < n)%nat -> q k T0 = 0 /\ p k T0 = 0 /\ forall t, continuous (q k) t /\ continuous (p k) t) /\
  forall t, quiet o t -> exists acc : nat -> R, forall k, (k < n)%nat ->
    is_derive (q k) t (p k t) /\ is_derive (p k) t (acc k) /\
    sum n (fun j => coef (lam_qdotdot M) k j * acc j) =
      sum n (fun j => coef (psi_q M) k j * q j t) + sum n (fun j => coef (psi_qdot M) k j * p j t) + pushing o F k t.

(** * Geometry: integrals over triangles and polygons, centroid and second moment *)
From Coq Require Import Reals List Bool Lia Lra.
From Coquelicot Require Import Coquelicot.
From Verif Require Import Base GeometryModel SpecGeometry GeometryProofs.
Import ListNotations.
Local Open Scope R_scope.

(** ** A quadratic polynomial over the unit triangle *)
Definition quad (c00 c10 c01 c20 c11 c02 s t : R) := c00 + c10 * s + c01 * t + c20 * s^2 + c11 * s * t + c02 * t^2.
Lemma quad_triangle (f : V3 -> R) a p q c00 c10 c01 c20 c11 c02 :
  (forall s t, f (point_of a p q s t) = quad c00 c10 c01 c20 c11 c02 s t) ->
  over_triangle f a p q (c00 / 2 + c10 / 6 + c01 / 6 + c20 / 12 + c11 / 24 + c02 / 12).
Proof.
  intros H.
  exists (fun s => c00 * (1 - s) + c10 * s * (1 - s) + c01 * (1 - s)^2 / 2 + c20 * s^2 * (1 - s) + c11 * s * (1 - s)^2 / 2 + c02 * (1 - s)^3 / 3).
  split.
  - intros s Hs. apply (is_RInt_ext (quad c00 c10 c01 c20 c11 c02 s)); [intros; symmetry; apply H|].
    replace (c00 * (1 - s) + c10 * s * (1 - s) + c01 * (1 - s)^2 / 2 + c20 * s^2 * (1 - s) + c11 * s * (1 - s)^2 / 2 + c02 * (1 - s)^3 / 3)
      with (minus ((fun t => c00 * t + c10 * s * t + c01 * t^2 / 2 + c20 * s^2 * t + c11 * s * t^2 / 2 + c02 * t^3 / 3) (1 - s))
                  ((fun t => c00 * t + c10 * s * t + c01 * t^2 / 2 + c20 * s^2 * t + c11 * s * t^2 / 2 + c02 * t^3 / 3) 0))
      by (unfold minus, plus, opp; cbn; field).
    apply (is_RInt_derive (V := R_CompleteNormedModule) (fun t => c00 * t + c10 * s * t + c01 * t^2 / 2 + c20 * s^2 * t + c11 * s * t^2 / 2 + c02 * t^3 / 3)).
    + intros t _. unfold quad. auto_derive; auto. cbn [pow]. field.
    + intros t _. apply (ex_derive_continuous (V := R_NormedModule)). unfold quad. auto_derive. auto.
  - set (G := fun s => c00 * (s - s^2/2) + c10 * (s^2/2 - s^3/3) + c01 / 2 * (s - s^2 + s^3/3) + c20 * (s^3/3 - s^4/4)
       + c11 / 2 * (s^2/2 - 2*s^3/3 + s^4/4) + c02 / 3 * (s - 3*s^2/2 + s^3 - s^4/4)).
    replace (c00 / 2 + c10 / 6 + c01 / 6 + c20 / 12 + c11 / 24 + c02 / 12) with (minus (G 1) (G 0)) by (unfold G, minus, plus, opp; cbn; field).
    apply (is_RInt_derive (V := R_CompleteNormedModule) G).
    + intros s _. unfold G. auto_derive; auto. cbn [pow]. field.
    + intros s _. apply (ex_derive_continuous (V := R_NormedModule)). auto_derive. auto.
Qed.

(** Coordinates are affine on the triangle. *)
Definition coordinate (X : V3 -> R) : Prop :=
  forall a p q s t, X (point_of a p q s t) = X a + s * (X p - X a) + t * (X q - X a).
Lemma coord_x : coordinate vx. Proof. intros a p q s t. cbn. ring. Qed.
Lemma coord_y : coordinate vy. Proof. intros a p q s t. cbn. ring. Qed.
Lemma coord_z : coordinate vz. Proof. intros a p q s t. cbn. ring. Qed.

Definition t1 (a p q : V3) : R := 1 / 2.
Definition tX (X : V3 -> R) (a p q : V3) : R := (X a + X p + X q) / 6.
Definition tX2 (X : V3 -> R) (c : R) (a p q : V3) : R :=
  ((X a - c)^2 + (X p - c)^2 + (X q - c)^2 + (X a - c) * (X p - c) + (X p - c) * (X q - c) + (X q - c) * (X a - c)) / 12.
Lemma tri_1 a p q : over_triangle (fun _ => 1) a p q (t1 a p q).
Proof.
  replace (t1 a p q) with (1 / 2 + 0 / 6 + 0 / 6 + 0 / 12 + 0 / 24 + 0 / 12) by (unfold t1; field).
  apply quad_triangle. intros. unfold quad. ring.
Qed.
Lemma tri_X X a p q : coordinate X -> over_triangle X a p q (tX X a p q).
Proof.
  intros H. replace (tX X a p q) with (X a / 2 + (X p - X a) / 6 + (X q - X a) / 6 + 0 / 12 + 0 / 24 + 0 / 12) by (unfold tX; field).
  apply quad_triangle. intros. rewrite H. unfold quad. ring.
Qed.
Lemma tri_X2 X c a p q : coordinate X -> over_triangle (fun v => (X v - c)^2) a p q (tX2 X c a p q).
Proof.
  intros H. replace (tX2 X c a p q) with ((X a - c)^2 / 2 + 2 * (X a - c) * (X p - X a) / 6 + 2 * (X a - c) * (X q - X a) / 6
     + (X p - X a)^2 / 12 + 2 * (X p - X a) * (X q - X a) / 24 + (X q - X a)^2 / 12) by (unfold tX2; field).
  apply quad_triangle. intros. rewrite H. unfold quad. ring.
Qed.
Lemma fan_of n a f (T : V3 -> V3 -> V3 -> R) E : (forall p q, over_triangle f a p q (T a p q)) ->
  over_fan n a f E (rsum (fun e => dot n (cross (vsub (fst e) a) (vsub (snd e) a)) * T a (fst e) (snd e)) E).
Proof. intros H. induction E as [|[p q] E IH]; [constructor|]. apply fan_cons; auto. Qed.

(** ** Green: the edge formulas are sums over the fan of triangles of any point a *)
Definition jac (X Y : V3 -> R) (a p q : V3) : R := (X p - X a) * (Y q - Y a) - (X q - X a) * (Y p - Y a).
Section Green.
Variables (X Y : V3 -> R) (pts cl : list V3).
Hypothesis E : pairs cl = edges pts.
Lemma green_1 a : if1dxdy X Y cl = rsum (fun e => jac X Y a (fst e) (snd e) * t1 a (fst e) (snd e)) (edges pts).
Proof.
  unfold if1dxdy. rewrite (esum_edges _ cl pts E). unfold jac, t1.
  apply (rsum_tele _ _ (fun p => - ((X a / 2 + X p / 2) * (- Y a + Y p)))). intros [p q] _. cbn [fst snd]. field.
Qed.
Lemma green_X a : ifxdxdy X Y cl = rsum (fun e => jac X Y a (fst e) (snd e) * tX X a (fst e) (snd e)) (edges pts).
Proof.
  unfold ifxdxdy. rewrite (esum_edges _ cl pts E). unfold jac, tX.
  apply (rsum_tele _ _ (fun p => - ((- Y a + Y p) * (X a ^ 2 / 6 + X a * X p / 6 + X p ^ 2 / 6)))). intros [p q] _. cbn [fst snd]. field.
Qed.
Lemma green_Y a : ifydxdy X Y cl = rsum (fun e => jac X Y a (fst e) (snd e) * tX Y a (fst e) (snd e)) (edges pts).
Proof.
  unfold ifydxdy. rewrite (esum_edges _ cl pts E). unfold jac, tX.
  apply (rsum_tele _ _ (fun q => - ((- Y a + Y q) * (X a * Y a / 3 + X a * Y q / 6 + X q * Y a / 6 + X q * Y q / 3)))).
  intros [p q] _. cbn [fst snd]. field.
Qed.
Lemma green_X2 c a : ifx2dxdy X Y c cl = rsum (fun e => jac X Y a (fst e) (snd e) * tX2 X c a (fst e) (snd e)) (edges pts).
Proof.
  unfold ifx2dxdy. rewrite (esum_edges _ cl pts E). unfold jac, tX2.
  apply (rsum_tele _ _ (fun q => - ((- Y a + Y q) * (X a ^ 3 / 12 + X a ^ 2 * X q / 12 - X a ^ 2 * c / 3 + X a * X q ^ 2 / 12
     - X a * X q * c / 3 + X a * c ^ 2 / 2 + X q ^ 3 / 12 - X q ^ 2 * c / 3 + X q * c ^ 2 / 2)))).
  intros [p q] _. cbn [fst snd]. field.
Qed.
Lemma green_Y2 c a : ify2dxdy X Y c cl = rsum (fun e => jac X Y a (fst e) (snd e) * tX2 Y c a (fst e) (snd e)) (edges pts).
Proof.
  unfold ify2dxdy. rewrite (esum_edges _ cl pts E). unfold jac, tX2.
  apply (rsum_tele _ _ (fun q => - ((- Y a + Y q) * (X a * Y a ^ 2 / 4 + X a * Y a * Y q / 6 - 2 * X a * Y a * c / 3
     + X a * Y q ^ 2 / 12 - X a * Y q * c / 3 + X a * c ^ 2 / 2 + X q * Y a ^ 2 / 12
     + X q * Y a * Y q / 6 - X q * Y a * c / 3 + X q * Y q ^ 2 / 4 - 2 * X q * Y q * c / 3
     + X q * c ^ 2 / 2)))).
  intros [p q] _. cbn [fst snd]. field.
Qed.
End Green.

(** ** Plane polygons: projections *)
Definition fan (n a : V3) (T : V3 -> V3 -> V3 -> R) (pts : list V3) : R :=
  rsum (fun e => dot n (cross (vsub (fst e) a) (vsub (snd e) a)) * T a (fst e) (snd e)) (edges pts).
Lemma proj_yz n a T pts : in_plane n a pts -> rsum (fun e => jac vy vz a (fst e) (snd e) * T a (fst e) (snd e)) (edges pts) = vx n * fan n a T pts.
Proof.
  intros [Hn Hp]. apply norm_unit in Hn. unfold fan. rewrite <- rsum_scal. apply rsum_ext. intros e He. apply edges_in in He.
  assert (C := f_equal vx (planar_cross n (vsub (fst e) a) (vsub (snd e) a) Hn (Hp _ (proj1 He)) (Hp _ (proj2 He)))).
  change (jac vy vz a (fst e) (snd e)) with ((vy (fst e) - vy a) * (vz (snd e) - vz a) - (vy (snd e) - vy a) * (vz (fst e) - vz a)).
  cbn [vscal cross vsub vx vy vz] in C. rewrite (Rmult_comm (vy (snd e) - vy a)). rewrite C. unfold cross, vsub. cbn [vx vy vz]. ring.
Qed.
Lemma proj_zx n a T pts : in_plane n a pts -> rsum (fun e => jac vz vx a (fst e) (snd e) * T a (fst e) (snd e)) (edges pts) = vy n * fan n a T pts.
Proof.
  intros [Hn Hp]. apply norm_unit in Hn. unfold fan. rewrite <- rsum_scal. apply rsum_ext. intros e He. apply edges_in in He.
  assert (C := f_equal vy (planar_cross n (vsub (fst e) a) (vsub (snd e) a) Hn (Hp _ (proj1 He)) (Hp _ (proj2 He)))).
  change (jac vz vx a (fst e) (snd e)) with ((vz (fst e) - vz a) * (vx (snd e) - vx a) - (vz (snd e) - vz a) * (vx (fst e) - vx a)).
  cbn [vscal cross vsub vx vy vz] in C. rewrite (Rmult_comm (vz (snd e) - vz a)). rewrite C. unfold cross, vsub. cbn [vx vy vz]. ring.
Qed.
Lemma proj_xy n a T pts : in_plane n a pts -> rsum (fun e => jac vx vy a (fst e) (snd e) * T a (fst e) (snd e)) (edges pts) = vz n * fan n a T pts.
Proof.
  intros [Hn Hp]. apply norm_unit in Hn. unfold fan. rewrite <- rsum_scal. apply rsum_ext. intros e He. apply edges_in in He.
  assert (C := f_equal vz (planar_cross n (vsub (fst e) a) (vsub (snd e) a) Hn (Hp _ (proj1 He)) (Hp _ (proj2 He)))).
  change (jac vx vy a (fst e) (snd e)) with ((vx (fst e) - vx a) * (vy (snd e) - vy a) - (vx (snd e) - vx a) * (vy (fst e) - vy a)).
  cbn [vscal cross vsub vx vy vz] in C. rewrite (Rmult_comm (vx (snd e) - vx a)). rewrite C. unfold cross, vsub. cbn [vx vy vz]. ring.
Qed.

(** ** The fan sums do not depend on the apex in the plane *)
Definition tUV (U V : V3 -> R) (a p q : V3) : R :=
  (2 * (U a * V a + U p * V p + U q * V q) + U a * V p + U p * V a + U p * V q + U q * V p + U q * V a + U a * V q) / 24.
Lemma jac_cocycle X Y (U V : V3 -> R) a b p q u0 u1 u2 v0 v1 v2 :
  (forall r, In r [a; b; p; q] -> U r = u0 + u1 * X r + u2 * Y r) ->
  (forall r, In r [a; b; p; q] -> V r = v0 + v1 * X r + v2 * Y r) ->
  jac X Y a p q * tUV U V a p q = jac X Y b p q * tUV U V b p q + (jac X Y a p b * tUV U V a p b - jac X Y a q b * tUV U V a q b).
Proof.
  intros HU HV. unfold jac, tUV. rewrite !HU, !HV by (cbn; auto 6).
  generalize (X a) (X b) (X p) (X q) (Y a) (Y b) (Y p) (Y q). clear. intros. field.
Qed.
Lemma plane_cocycle n (X Y U V : V3 -> R) k a b p q u0 u1 u2 v0 v1 v2 :
  dot n n = 1 -> k <> 0 ->
  (forall x y z, In x [a; b; p; q] -> In y [a; b; p; q] -> In z [a; b; p; q] -> jac X Y x y z = k * dot n (cross (vsub y x) (vsub z x))) ->
  (forall r, In r [a; b; p; q] -> U r = u0 + u1 * X r + u2 * Y r) ->
  (forall r, In r [a; b; p; q] -> V r = v0 + v1 * X r + v2 * Y r) ->
  let K a p q := dot n (cross (vsub p a) (vsub q a)) * tUV U V a p q in K a p q = K b p q + (K a p b - K a q b).
Proof.
  intros Hn Hk HJ HU HV K. assert (H := jac_cocycle X Y U V a b p q u0 u1 u2 v0 v1 v2 HU HV).
  rewrite !HJ in H by (cbn; auto 6). apply (Rmult_eq_reg_l k); auto. unfold K. lra.
Qed.
Definition flat (U : V3 -> R) : Prop := U = (fun _ => 1) \/ exists c, U = (fun v => vx v - c) \/ U = (fun v => vy v - c) \/ U = (fun v => vz v - c).
Lemma jac_plane n a p q : dot n n = 1 -> dot n (vsub p a) = 0 -> dot n (vsub q a) = 0 ->
  jac vy vz a p q = vx n * dot n (cross (vsub p a) (vsub q a)) /\
  jac vz vx a p q = vy n * dot n (cross (vsub p a) (vsub q a)) /\
  jac vx vy a p q = vz n * dot n (cross (vsub p a) (vsub q a)).
Proof.
  intros Hn Hp Hq. assert (C := planar_cross n _ _ Hn Hp Hq). set (D := dot n (cross (vsub p a) (vsub q a))) in *.
  assert (C1 := f_equal vx C). assert (C2 := f_equal vy C). assert (C3 := f_equal vz C). cbn [vscal cross vsub vx vy vz] in C1, C2, C3.
  unfold jac. repeat split; lra.
Qed.
Lemma flat_affine_yz n a U l : vx n <> 0 -> flat U -> (forall r, In r l -> dot n (vsub r a) = 0) ->
  exists u0 u1 u2, forall r, In r l -> U r = u0 + u1 * vy r + u2 * vz r.
Proof.
  intros Hn [->|(c & [->|[->| ->]])] Hl.
  - exists 1, 0, 0. intros. ring.
  - exists ((vx n * vx a + vy n * vy a + vz n * vz a) / vx n - c), (- vy n / vx n), (- vz n / vx n). intros r Hr. specialize (Hl r Hr).
    unfold dot, vsub in Hl. cbn [vx vy vz] in Hl. apply (Rmult_eq_reg_l (vx n)); auto. field_simplify; auto. lra.
  - exists (-c), 1, 0. intros. ring.
  - exists (-c), 0, 1. intros. ring.
Qed.
Lemma flat_affine_zx n a U l : vy n <> 0 -> flat U -> (forall r, In r l -> dot n (vsub r a) = 0) ->
  exists u0 u1 u2, forall r, In r l -> U r = u0 + u1 * vz r + u2 * vx r.
Proof.
  intros Hn [->|(c & [->|[->| ->]])] Hl.
  - exists 1, 0, 0. intros. ring.
  - exists (-c), 0, 1. intros. ring.
  - exists ((vx n * vx a + vy n * vy a + vz n * vz a) / vy n - c), (- vz n / vy n), (- vx n / vy n). intros r Hr. specialize (Hl r Hr).
    unfold dot, vsub in Hl. cbn [vx vy vz] in Hl. apply (Rmult_eq_reg_l (vy n)); auto. field_simplify; auto. lra.
  - exists (-c), 1, 0. intros. ring.
Qed.
Lemma flat_affine_xy n a U l : vz n <> 0 -> flat U -> (forall r, In r l -> dot n (vsub r a) = 0) ->
  exists u0 u1 u2, forall r, In r l -> U r = u0 + u1 * vx r + u2 * vy r.
Proof.
  intros Hn [->|(c & [->|[->| ->]])] Hl.
  - exists 1, 0, 0. intros. ring.
  - exists (-c), 1, 0. intros. ring.
  - exists (-c), 0, 1. intros. ring.
  - exists ((vx n * vx a + vy n * vy a + vz n * vz a) / vz n - c), (- vx n / vz n), (- vy n / vz n). intros r Hr. specialize (Hl r Hr).
    unfold dot, vsub in Hl. cbn [vx vy vz] in Hl. apply (Rmult_eq_reg_l (vz n)); auto. field_simplify; auto. lra.
Qed.
Lemma cocycle n U V a b p q : dot n n = 1 -> flat U -> flat V ->
  dot n (vsub b a) = 0 -> dot n (vsub p a) = 0 -> dot n (vsub q a) = 0 ->
  let K a p q := dot n (cross (vsub p a) (vsub q a)) * tUV U V a p q in K a p q = K b p q + (K a p b - K a q b).
Proof.
  intros Hn HU HV Hb Hp Hq.
  assert (L : forall r, In r [a; b; p; q] -> dot n (vsub r a) = 0).
  { intros r [<-|[<-|[<-|[<-|[]]]]]; auto. unfold dot, vsub. cbn [vx vy vz]. ring. }
  assert (L2 : forall x y, In x [a; b; p; q] -> In y [a; b; p; q] -> dot n (vsub y x) = 0).
  { intros x y Hx Hy. assert (Lx := L x Hx). assert (Ly := L y Hy). unfold dot, vsub in *. cbn [vx vy vz] in *. lra. }
  destruct (Req_EM_T (vx n) 0) as [Ex|Ex]; [destruct (Req_EM_T (vy n) 0) as [Ey|Ey]; [destruct (Req_EM_T (vz n) 0) as [Ez|Ez]|]|].
  - exfalso. unfold dot in Hn. rewrite Ex, Ey, Ez in Hn. lra.
  - destruct (flat_affine_xy n a U _ Ez HU L) as (u0 & u1 & u2 & HU'). destruct (flat_affine_xy n a V _ Ez HV L) as (v0 & v1 & v2 & HV').
    apply (plane_cocycle n vx vy U V (vz n) a b p q u0 u1 u2 v0 v1 v2); auto. intros. apply jac_plane; auto.
  - destruct (flat_affine_zx n a U _ Ey HU L) as (u0 & u1 & u2 & HU'). destruct (flat_affine_zx n a V _ Ey HV L) as (v0 & v1 & v2 & HV').
    apply (plane_cocycle n vz vx U V (vy n) a b p q u0 u1 u2 v0 v1 v2); auto. intros. apply jac_plane; auto.
  - destruct (flat_affine_yz n a U _ Ex HU L) as (u0 & u1 & u2 & HU'). destruct (flat_affine_yz n a V _ Ex HV L) as (v0 & v1 & v2 & HV').
    apply (plane_cocycle n vy vz U V (vx n) a b p q u0 u1 u2 v0 v1 v2); auto. intros. apply jac_plane; auto.
Qed.
Lemma fan_indep n U V a b pts : in_plane n a pts -> dot n (vsub b a) = 0 -> flat U -> flat V ->
  fan n a (tUV U V) pts = fan n b (tUV U V) pts.
Proof.
  intros [Hn Hp] Hb HU HV. apply norm_unit in Hn. unfold fan.
  apply (rsum_tele _ _ (fun p => dot n (cross (vsub p a) (vsub b a)) * tUV U V a p b)). intros e He. apply edges_in in He.
  apply (cocycle n U V a b (fst e) (snd e)); auto; apply Hp; tauto.
Qed.
Lemma fan_ext n a T T' pts : (forall p q, T a p q = T' a p q) -> fan n a T pts = fan n a T' pts.
Proof. intros H. apply rsum_ext. intros. rewrite H. auto. Qed.

(** ** The integrals over a polygon *)
Lemma polygon_integral n pts f T U V : in_plane n (nth 0 pts vzero) pts -> flat U -> flat V ->
  (forall a p q, over_triangle f a p q (T a p q)) -> (forall a p q, T a p q = tUV U V a p q) ->
  over_polygon n f pts (fan n (nth 0 pts vzero) T pts).
Proof.
  intros Hn HU HV HT HE a Ha. rewrite (fan_ext _ _ T (tUV U V)) by auto. rewrite (fan_indep n U V _ a) by auto.
  rewrite (fan_ext _ _ (tUV U V) T) by auto. apply fan_of. auto.
Qed.
Lemma flat_1 : flat (fun _ => 1). Proof. left. auto. Qed.
Lemma flat_x c : flat (fun v => vx v - c). Proof. right. exists c. auto. Qed.
Lemma flat_y c : flat (fun v => vy v - c). Proof. right. exists c. auto. Qed.
Lemma flat_z c : flat (fun v => vz v - c). Proof. right. exists c. auto. Qed.
Lemma int_1 n pts : in_plane n (nth 0 pts vzero) pts -> over_polygon n (fun _ => 1) pts (fan n (nth 0 pts vzero) t1 pts).
Proof.
  intros H. apply (polygon_integral n pts _ t1 (fun _ => 1) (fun _ => 1)); auto using flat_1; [apply tri_1|].
  intros. unfold t1, tUV. field.
Qed.
Definition is_coord (X : V3 -> R) : Prop := X = vx \/ X = vy \/ X = vz.
Lemma is_coord_flat X c : is_coord X -> flat (fun v => X v - c).
Proof. intros [->|[->| ->]]; auto using flat_x, flat_y, flat_z. Qed.
Lemma is_coord_coord X : is_coord X -> coordinate X.
Proof. intros [->|[->| ->]]; auto using coord_x, coord_y, coord_z. Qed.
Lemma int_X n pts X : is_coord X -> in_plane n (nth 0 pts vzero) pts -> over_polygon n X pts (fan n (nth 0 pts vzero) (tX X) pts).
Proof.
  intros HX H. apply (polygon_integral n pts _ (tX X) (fun v => X v - 0) (fun _ => 1)); auto using flat_1, is_coord_flat.
  - intros. apply tri_X. apply is_coord_coord. auto.
  - intros. unfold tX, tUV. field.
Qed.
Lemma int_X2 n pts X c : is_coord X -> in_plane n (nth 0 pts vzero) pts ->
  over_polygon n (fun v => (X v - c)^2) pts (fan n (nth 0 pts vzero) (tX2 X c) pts).
Proof.
  intros HX H. apply (polygon_integral n pts _ (tX2 X c) (fun v => X v - c) (fun v => X v - c)); auto using is_coord_flat.
  - intros. apply tri_X2. apply is_coord_coord. auto.
  - intros. unfold tX2, tUV. field.
Qed.
Lemma fan_area pts : proper_face pts -> fan (unit_normal pts) (nth 0 pts vzero) t1 pts = norm (area_vector pts).
Proof.
  intros H. assert (P := in_plane_self pts (nth 0 pts vzero) H ltac:(unfold dot, vsub; cbn [vx vy vz]; ring)).
  assert (E := area_planar _ _ _ P). assert (E2 := unit_normal_area pts (proj2 H)).
  assert (N := norm_unit _ (proj1 P)). set (n := unit_normal pts) in *. rewrite E in E2 at 1.
  transitivity (dot n n * norm (area_vector pts)); [|rewrite N; ring].
  transitivity (dot n (vscal (norm (area_vector pts)) n)); [|unfold dot, vscal; cbn [vx vy vz]; ring].
  rewrite <- E2. transitivity (dot n n * fan n (nth 0 pts vzero) t1 pts); [rewrite N; ring|].
  unfold fan, t1. transitivity (dot n n * rsum (fun e => dot n (cross (vsub (fst e) (nth 0 pts vzero)) (vsub (snd e) (nth 0 pts vzero))) / 2) (edges pts)).
  - f_equal. apply rsum_ext. intros. field.
  - unfold dot at 1 3, vscal; cbn [vx vy vz]. ring.
Qed.

(** * Geometry: polygon_centroid, polygon_2nd_moment_of_area, polyhedron_volume *)
From Coq Require Import Reals List Bool Lia Lra Permutation.
From Coquelicot Require Import Coquelicot.
From Verif Require Import Base GeometryModel SpecGeometry GeometryProofs GeometryProofs2.
Import ListNotations.
Local Open Scope R_scope.

Lemma Reqb_0 x : x = 0 -> Reqb x 0 = true.
Proof. intros ->. unfold Reqb. destruct (Req_EM_T 0 0); auto; contradiction. Qed.
Lemma Reqb_n0 x : x <> 0 -> Reqb x 0 = false.
Proof. intros H. unfold Reqb. destruct (Req_EM_T x 0); auto; contradiction. Qed.

(** ** The chain of projections *)
Definition calcd (j k : R) (v : R) : R := if Req_EM_T j 0 then if Req_EM_T k 0 then 0 else v else v.
Lemma by_projection_is u v n a c (Ix Iy Iz : R) : a <> 0 ->
  u vy vz (vy c) = vx n * Iy -> v vy vz (vz c) = vx n * Iz ->
  u vz vx (vz c) = vy n * Iz -> v vz vx (vx c) = vy n * Ix ->
  u vx vy (vx c) = vz n * Ix -> v vx vy (vy c) = vz n * Iy ->
  by_projection u v n a c = Ok (mkV (calcd (vy n) (vz n) (Ix / a)) (calcd (vx n) (vz n) (Iy / a)) (calcd (vx n) (vy n) (Iz / a))).
Proof.
  intros Ha H1 H2 H3 H4 H5 H6. unfold by_projection. rewrite H1, H2, H3, H4, H5, H6.
  assert (D : forall k I, k <> 0 -> fdiv (k * I) (k * a) = Ok (I / a)).
  { intros k I Hk. unfold fdiv. rewrite Reqb_n0; [f_equal; field; auto|]. intros E. apply Rmult_integral in E. tauto. }
  unfold calcd. unfold Reqb at 1 2 3 4 5 6.
  destruct (Req_EM_T (vx n) 0) as [Ex|Ex], (Req_EM_T (vy n) 0) as [Ey|Ey], (Req_EM_T (vz n) 0) as [Ez|Ez];
    rewrite ?D by auto; cbn [rmap bind]; rewrite ?D by auto; cbn [rmap bind]; reflexivity.
Qed.

(** Same for two projections only: what is computed uses the two other directions. *)
Lemma area_norm pts i : proper_face pts -> largest (area_vector pts) i -> comp i (area_vector pts) <> 0 ->
  polygon_area pts = Ok (match i with 1%nat => - norm (area_vector pts) | _ => norm (area_vector pts) end).
Proof. intros H Hi Hc. rewrite (polygon_area_is pts i (proj2 H) Hi). destruct Req_EM_T; [contradiction|]. auto. Qed.
Lemma self_plane pts : proper_face pts -> in_plane (unit_normal pts) (nth 0 pts vzero) pts.
Proof. intros H. apply in_plane_self; auto. unfold dot, vsub; cbn [vx vy vz]; ring. Qed.

Definition sigma (i : nat) : R := match i with 1%nat => -1 | _ => 1 end.
Lemma sigma_area i A : match i with 1%nat => - A | _ => A end = sigma i * A.
Proof. destruct i as [|[|i]]; unfold sigma; ring. Qed.
Definition I1 (pts : list V3) (X : V3 -> R) : R := fan (unit_normal pts) (nth 0 pts vzero) (tX X) pts.
Definition I2 (pts : list V3) (X : V3 -> R) (c : R) : R := fan (unit_normal pts) (nth 0 pts vzero) (tX2 X c) pts.

Lemma centroid_is pts i : proper_face pts -> largest (area_vector pts) i -> comp i (area_vector pts) <> 0 ->
  let n := unit_normal pts in let a := sigma i * norm (area_vector pts) in
  polygon_centroid pts = Ok (mkV (calcd (vy n) (vz n) (I1 pts vx / a)) (calcd (vx n) (vz n) (I1 pts vy / a)) (calcd (vx n) (vy n) (I1 pts vz / a))).
Proof.
  intros H Hi Hc n a. destruct (closed_ok pts (area_nonempty pts (proj2 H))) as (cl & Ec & Ep). unfold polygon_centroid. rewrite Ec. cbn [bind].
  rewrite eqn_ok by apply H. cbn [bind]. rewrite (area_norm pts i) by auto. cbn [bind fst]. rewrite sigma_area. fold a. fold n.
  assert (P := self_plane pts H). fold n in P.
  assert (Ha : a <> 0).
  { unfold a. assert (Q := norm_pos _ (proj2 H)). destruct i as [|[|i]]; unfold sigma; lra. }
  apply by_projection_is; auto; unfold I1; fold n.
  - rewrite (green_X vy vz pts cl Ep (nth 0 pts vzero)). apply proj_yz; auto.
  - rewrite (green_Y vy vz pts cl Ep (nth 0 pts vzero)). apply proj_yz; auto.
  - rewrite (green_X vz vx pts cl Ep (nth 0 pts vzero)). apply proj_zx; auto.
  - rewrite (green_Y vz vx pts cl Ep (nth 0 pts vzero)). apply proj_zx; auto.
  - rewrite (green_X vx vy pts cl Ep (nth 0 pts vzero)). apply proj_xy; auto.
  - rewrite (green_Y vx vy pts cl Ep (nth 0 pts vzero)). apply proj_xy; auto.
Qed.
Lemma second_is pts i c : proper_face pts -> largest (area_vector pts) i -> comp i (area_vector pts) <> 0 ->
  polygon_centroid pts = Ok c ->
  let n := unit_normal pts in let a := sigma i * norm (area_vector pts) in
  polygon_2nd_moment_of_area pts = Ok (mkV (calcd (vy n) (vz n) (I2 pts vx (vx c) / a)) (calcd (vx n) (vz n) (I2 pts vy (vy c) / a)) (calcd (vx n) (vy n) (I2 pts vz (vz c) / a))).
Proof.
  intros H Hi Hc Hcen n a. destruct (closed_ok pts (area_nonempty pts (proj2 H))) as (cl & Ec & Ep). unfold polygon_2nd_moment_of_area. rewrite Ec. cbn [bind].
  rewrite eqn_ok by apply H. cbn [bind]. rewrite (area_norm pts i) by auto. cbn [bind fst]. rewrite Hcen. cbn [bind]. rewrite sigma_area. fold a. fold n.
  assert (P := self_plane pts H). fold n in P.
  assert (Ha : a <> 0).
  { unfold a. assert (Q := norm_pos _ (proj2 H)). destruct i as [|[|i]]; unfold sigma; lra. }
  apply by_projection_is; auto; unfold I2; fold n.
  - rewrite (green_X2 vy vz pts cl Ep _ (nth 0 pts vzero)). apply proj_yz; auto.
  - rewrite (green_Y2 vy vz pts cl Ep _ (nth 0 pts vzero)). apply proj_yz; auto.
  - rewrite (green_X2 vz vx pts cl Ep _ (nth 0 pts vzero)). apply proj_zx; auto.
  - rewrite (green_Y2 vz vx pts cl Ep _ (nth 0 pts vzero)). apply proj_zx; auto.
  - rewrite (green_X2 vx vy pts cl Ep _ (nth 0 pts vzero)). apply proj_xy; auto.
  - rewrite (green_Y2 vx vy pts cl Ep _ (nth 0 pts vzero)). apply proj_xy; auto.
Qed.

(** ** Volume of a polyhedron *)
(** The flux of (x, 0, 0) through a face. *)
Definition flux (pts : list V3) : R :=
  let a := nth 0 pts vzero in rsum (fun e => jac vy vz a (fst e) (snd e) * tX vx a (fst e) (snd e)) (edges pts).
Lemma face_flux pts : proper_face pts -> face_volume pts = Ok (flux pts).
Proof.
  intros H. assert (P := self_plane pts H). destruct (closed_ok pts (area_nonempty pts (proj2 H))) as (cl & Ec & Ep).
  unfold face_volume. rewrite Ec. cbn [bind]. rewrite eqn_ok by apply H. cbn [bind fst snd]. cbv zeta.
  set (n := unit_normal pts) in *. set (d := - dot (mean pts) n). unfold Reqb. destruct (Req_EM_T (vx n) 0) as [E|E].
  - f_equal. unfold flux. cbv zeta. rewrite (proj_yz n _ (tX vx) pts P), E. ring.
  - f_equal. rewrite (esum_edges _ cl pts Ep). unfold flux. cbv zeta. set (a := nth 0 pts vzero) in *.
    assert (X : forall p, In p pts -> vx p = - (vy n * vy p + vz n * vz p + d) / vx n).
    { intros p Hp. assert (Q := plane_through pts p H Hp). fold n in Q. fold d in Q. unfold dot in Q. apply (Rmult_eq_reg_l (vx n)); auto. field_simplify; auto. lra. }
    assert (Ha : In a pts) by (unfold a; assert (N := area_nonempty pts (proj2 H)); destruct pts; [contradiction|left; auto]).
    assert (Xa := X a Ha).
    apply (rsum_tele _ _ (fun q => - ((- vz a + vz q) * ((- 2 * d * vy a - vy n * vy a ^ 2 - 2 * vz n * vy a * vz a) / (2 * vx n)
      + (d * vy a - d * vy q + vy n * vy a ^ 2 - vy n * vy a * vy q + 2 * vz n * vy a * vz a - vz n * vy a * vz q
         - vz n * vy q * vz a) / (2 * vx n)
      + (- vy n * vy a ^ 2 + 2 * vy n * vy a * vy q - vy n * vy q ^ 2 - 2 * vz n * vy a * vz a + 2 * vz n * vy a * vz q
         + 2 * vz n * vy q * vz a - 2 * vz n * vy q * vz q) / (6 * vx n))))).
    intros e He. apply edges_in in He. unfold jac, tX. rewrite (X _ (proj1 He)), (X _ (proj2 He)), Xa.
    generalize (vy a) (vz a) (vy (fst e)) (vz (fst e)) (vy (snd e)) (vz (snd e)) (vy n) (vz n) d. revert E. generalize (vx n). clear. intros. field. auto.
Qed.
Lemma volume_flux faces : (forall f, In f faces -> proper_face f) -> polyhedron_volume faces = Ok (rsum flux faces).
Proof.
  induction faces as [|f r IH]; intros H; [reflexivity|]. cbn [polyhedron_volume]. rewrite face_flux by (apply H; left; auto). cbn [bind].
  rewrite IH by (intros; apply H; right; auto). reflexivity.
Qed.
(** Difference to the pyramid: an antisymmetric function of the edges (Stokes). *)
Definition mxy (X Y : V3 -> R) (p q : V3) : R := (2 * X p * Y p + X p * Y q + X q * Y p + 2 * X q * Y q) / 6.
Definition h0 (p q : V3) : R := (- (vy q - vy p) * mxy vx vz p q + (vz q - vz p) * mxy vx vy p q) / 3.
Definition ho (o p q : V3) : R := h0 (vsub p o) (vsub q o) + vx o / 2 * vx (cross p q).
Lemma ho_anti o p q : ho o q p = - ho o p q.
Proof. unfold ho, h0, mxy, cross, vsub. cbn [vx vy vz]. field. Qed.
Lemma stokes o a p q : jac vy vz a p q * tX vx a p q = tetra o a p q + ho o p q + (ho o a p - ho o a q).
Proof.
  unfold jac, tX, tetra, ho, h0, mxy, det3, dot, cross, vsub. cbn [vx vy vz].
  generalize (vx o) (vy o) (vz o) (vx a) (vy a) (vz a) (vx p) (vy p) (vz p) (vx q) (vy q) (vz q). clear. intros. field.
Qed.
Lemma flux_pyramid o pts : flux pts = pyramid o pts + rsum (fun e => ho o (fst e) (snd e)) (edges pts).
Proof.
  unfold flux, pyramid. cbv zeta. rewrite <- rsum_plus. apply (rsum_tele _ _ (fun p => ho o (nth 0 pts vzero) p)).
  intros e _. rewrite (stokes o). ring.
Qed.
Lemma rsum_flat {A B} (f : B -> R) (g : A -> list B) l : rsum f (flat_map g l) = rsum (fun a => rsum f (g a)) l.
Proof. induction l as [|a l IH]; [reflexivity|]. cbn [flat_map]. rewrite rsum_app, IH. reflexivity. Qed.
Lemma closed_zero faces (h : V3 -> V3 -> R) : closed_surface faces -> (forall p q, h q p = - h p q) ->
  rsum (fun pts => rsum (fun e => h (fst e) (snd e)) (edges pts)) faces = 0.
Proof.
  intros Hc Hh. rewrite <- (rsum_flat (fun e => h (fst e) (snd e)) edges). set (E := flat_map edges faces) in *.
  assert (P := rsum_perm (fun e => h (fst e) (snd e)) _ _ Hc). fold E in P. rewrite rsum_map in P. cbn [fst snd] in P.
  rewrite (rsum_ext (fun a => h (snd a) (fst a)) (fun a => -1 * h (fst a) (snd a))) in P by (intros; rewrite Hh; ring).
  rewrite rsum_scal in P. lra.
Qed.
Lemma volume_pyramids faces o : (forall f, In f faces -> proper_face f) -> closed_surface faces ->
  polyhedron_volume faces = Ok (rsum (pyramid o) faces).
Proof.
  intros Hf Hc. rewrite volume_flux by auto. f_equal. rewrite (rsum_ext flux (fun pts => pyramid o pts + rsum (fun e => ho o (fst e) (snd e)) (edges pts))) by (intros; apply flux_pyramid).
  rewrite rsum_plus, (closed_zero faces (ho o)) by (auto; intros; apply ho_anti). ring.
Qed.

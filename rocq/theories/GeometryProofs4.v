(** * Geometry: invariance of the area, concrete solids *)
From Coq Require Import Reals List Bool Lia Lra Permutation.
From Coquelicot Require Import Coquelicot.
From Verif Require Import Base GeometryModel SpecGeometry GeometryProofs GeometryProofs2 GeometryProofs3.
Import ListNotations.
Local Open Scope R_scope.

Lemma chain_app l1 : forall p q l2 z, chain p (l1 ++ q :: l2) z = chain p l1 q ++ chain q l2 z.
Proof. induction l1 as [|a l1 IH]; intros; [reflexivity|]. cbn [app chain]. rewrite IH. reflexivity. Qed.
Lemma edges_rotate l1 l2 : Permutation (edges (l1 ++ l2)) (edges (l2 ++ l1)).
Proof.
  destruct l1 as [|p l1]; [rewrite app_nil_r; auto|]. destruct l2 as [|q l2]; [rewrite app_nil_r; auto|].
  cbn [app edges]. rewrite !chain_app. apply Permutation_app_comm.
Qed.
Lemma chain_rev r : forall p z, chain z (rev r) p = rev (map (fun e => (snd e, fst e)) (chain p r z)).
Proof.
  induction r as [|q r IH]; intros p z; [reflexivity|]. cbn [rev chain map fst snd]. rewrite chain_app, IH. reflexivity.
Qed.
Lemma edges_rev pts : Permutation (edges (rev pts)) (map (fun e => (snd e, fst e)) (edges pts)).
Proof.
  destruct pts as [|p r]; [auto|]. cbn [rev]. eapply Permutation_trans; [apply edges_rotate|]. cbn [app edges]. rewrite chain_rev.
  apply Permutation_sym, Permutation_rev.
Qed.
Lemma edges_map (f : V3 -> V3) pts : edges (map f pts) = map (fun e => (f (fst e), f (snd e))) (edges pts).
Proof.
  destruct pts as [|p r]; [reflexivity|]. cbn [map edges]. generalize p at 2 4 as z. revert p. induction r as [|q r IH]; intros p z; [reflexivity|].
  cbn [map chain fst snd]. rewrite IH. reflexivity.
Qed.
Lemma area_perm p1 p2 : Permutation (edges p1) (edges p2) -> area_vector p1 = area_vector p2.
Proof. intros H. unfold area_vector. rewrite !(rsum_perm _ _ _ H). auto. Qed.
Lemma area_rotate l1 l2 : area_vector (l1 ++ l2) = area_vector (l2 ++ l1).
Proof. apply area_perm, edges_rotate. Qed.
Lemma area_rev pts : area_vector (rev pts) = vscal (-1) (area_vector pts).
Proof.
  unfold area_vector. rewrite !(rsum_perm _ _ _ (edges_rev pts)), !rsum_map. cbn [fst snd].
  apply V3_eq; cbn [vscal vx vy vz]; rewrite <- rsum_scal; apply rsum_ext; intros e _; unfold cross; cbn [vx vy vz]; field.
Qed.
Lemma area_translate t pts : area_vector (map (vadd t) pts) = area_vector pts.
Proof.
  rewrite (area_from pts (vscal (-1) t)). unfold area_vector. rewrite edges_map, !rsum_map. cbn [fst snd].
  apply V3_eq; cbn [vx vy vz]; apply rsum_ext; intros e _; unfold cross, vsub, vadd, vscal; cbn [vx vy vz]; field.
Qed.
Lemma area_split p l1 q l2 : area_vector (p :: l1 ++ q :: l2) = vadd (area_vector (p :: l1 ++ [q])) (area_vector (p :: q :: l2)).
Proof.
  unfold area_vector. cbn [edges]. rewrite !chain_app. cbn [chain]. apply V3_eq; cbn [vadd vx vy vz]; rewrite !rsum_app; unfold rsum; cbn; field.
Qed.
Lemma polygon_area_zero pts : pts <> [] -> area_vector pts = vzero -> polygon_area pts = Err ZeroDivisionError.
Proof.
  intros Hne H. destruct (closed_ok pts Hne) as (cl & Ec & Ep). unfold polygon_area. rewrite Ec. cbn [bind]. unfold eqn_of_plane. rewrite Ec. cbn [bind]. cbv zeta.
  rewrite !(esum_edges _ cl pts Ep), newell_x, newell_y, newell_z, H. cbn [vx vy vz vzero].
  replace (2 * 0 * (2 * 0) + 2 * 0 * (2 * 0) + 2 * 0 * (2 * 0)) with 0 by ring. rewrite sqrt_0. unfold fdiv. rewrite Reqb_0 by auto. reflexivity.
Qed.
Lemma V3_dec (a b : V3) : {a = b} + {a <> b}.
Proof.
  destruct a as [x y z], b as [x' y' z']. destruct (Req_EM_T x x') as [->|H]; [|right; congruence].
  destruct (Req_EM_T y y') as [->|H]; [|right; congruence]. destruct (Req_EM_T z z') as [->|H]; [left; auto|right; congruence].
Qed.
Lemma polygon_area_area p1 p2 : p1 <> [] -> p2 <> [] -> area_vector p1 = area_vector p2 -> polygon_area p1 = polygon_area p2.
Proof.
  intros H1 H2 E. destruct (V3_dec (area_vector p1) vzero) as [Z|Z].
  - rewrite !polygon_area_zero; auto. congruence.
  - rewrite (polygon_area_is p1 (argmax3 (area_vector p1))) by (auto; apply argmax_largest).
    rewrite (polygon_area_is p2 (argmax3 (area_vector p1))) by (try congruence; rewrite <- E; apply argmax_largest). rewrite E. auto.
Qed.

(** Triangles. *)
Lemma area_triangle a b c : area_vector [a; b; c] = vscal (1/2) (cross (vsub b a) (vsub c a)).
Proof. unfold area_vector, rsum. apply V3_eq; cbn; field. Qed.
Lemma proper_triangle a b c : cross (vsub b a) (vsub c a) <> vzero -> proper_face [a; b; c].
Proof.
  intros H. assert (HA : area_vector [a; b; c] <> vzero).
  { rewrite area_triangle. intros E. apply H. apply V3_eq; [apply (f_equal vx) in E|apply (f_equal vy) in E|apply (f_equal vz) in E]; cbn in *; lra. }
  split; auto. exists (unit_normal [a; b; c]), a. split; [apply unit_normal_1; auto|].
  unfold unit_normal. set (k := / norm (area_vector [a; b; c])). rewrite area_triangle.
  intros p [<-|[<-|[<-|[]]]]; unfold dot, vscal, cross, vsub; cbn [vx vy vz]; ring.
Qed.
(** A parallelogram. *)
Lemma proper_parallelogram a u v : cross u v <> vzero -> proper_face [a; vadd a u; vadd (vadd a u) v; vadd a v].
Proof.
  intros H. set (l := [a; vadd a u; vadd (vadd a u) v; vadd a v]).
  assert (E : area_vector l = cross u v) by (unfold l, area_vector, rsum; apply V3_eq; cbn; field).
  assert (HA : area_vector l <> vzero) by congruence. split; auto. exists (unit_normal l), a. split; [apply unit_normal_1; auto|].
  unfold unit_normal. rewrite E. set (k := / norm (cross u v)). unfold l.
  intros p [<-|[<-|[<-|[<-|[]]]]]; unfold dot, vscal, cross, vsub, vadd; cbn [vx vy vz]; ring.
Qed.

(** Closed surfaces from index lists *)
Lemma closed_by_index (v : nat -> V3) (L : list (nat * nat)) faces :
  flat_map edges faces = map (fun e => (v (fst e), v (snd e))) L ->
  NoDup L -> NoDup (map (fun e => (snd e, fst e)) L) -> (forall e, In e L <-> In e (map (fun e => (snd e, fst e)) L)) -> closed_surface faces.
Proof.
  intros HE N1 N2 HI. unfold closed_surface. cbv zeta. rewrite HE, map_map. cbn [fst snd].
  assert (M := map_map (fun e : nat * nat => (snd e, fst e)) (fun e : nat * nat => (v (fst e), v (snd e))) L). cbn [fst snd] in M. rewrite <- M.
  apply Permutation_map. apply NoDup_Permutation; auto.
Qed.
Ltac nodup := repeat (constructor; [cbn; intuition congruence|]); constructor.
Ltac in_iff := let e := fresh in intros e; cbn; split; intros ?; repeat match goal with H : _ \/ _ |- _ => destruct H as [<-|H] | H : False |- _ => destruct H end; auto 30.
Definition tetrahedron (a b c d : V3) : list (list V3) := [[a; c; b]; [a; b; d]; [b; c; d]; [a; d; c]].
Lemma tetra_closed a b c d : closed_surface (tetrahedron a b c d).
Proof.
  apply (closed_by_index (fun i => nth i [a; b; c; d] vzero) [(0,2);(2,1);(1,0);(0,1);(1,3);(3,0);(1,2);(2,3);(3,1);(0,3);(3,2);(2,0)]%nat).
  - reflexivity.
  - nodup.
  - cbn. nodup.
  - in_iff.
Qed.
Lemma det_cross_neq u v w : det3 u v w <> 0 -> cross u v <> vzero /\ cross v w <> vzero /\ cross w u <> vzero.
Proof.
  intros H. split; [|split]; intros E; apply H; unfold det3.
  - transitivity (dot w (cross u v)); [unfold dot, cross; cbn; ring|]. rewrite E. unfold dot. cbn. ring.
  - rewrite E. unfold dot. cbn. ring.
  - transitivity (dot v (cross w u)); [unfold dot, cross; cbn; ring|]. rewrite E. unfold dot. cbn. ring.
Qed.
Lemma vneg_neq u v : u = vscal (-1) v -> v <> vzero -> u <> vzero.
Proof.
  intros -> H E. apply H. apply V3_eq; [apply (f_equal vx) in E|apply (f_equal vy) in E|apply (f_equal vz) in E]; cbn in *; lra.
Qed.
Lemma tetra_volume a b c d : det3 (vsub b a) (vsub c a) (vsub d a) <> 0 ->
  polyhedron_volume (tetrahedron a b c d) = Ok (det3 (vsub b a) (vsub c a) (vsub d a) / 6).
Proof.
  intros H. rewrite (volume_pyramids _ a).
  - f_equal. unfold rsum, pyramid, tetrahedron. cbn [map edges chain nth fold_right rsum fst snd]. unfold rsum. cbn [map fold_right fst snd].
    unfold tetra, det3, dot, cross, vsub. cbn [vx vy vz]. field.
  - destruct (det_cross_neq _ _ _ H) as (H1 & H2 & H3).
    intros f [<-|[<-|[<-|[<-|[]]]]]; apply proper_triangle.
    + apply (vneg_neq _ _) with (2 := H1). apply V3_eq; cbn; ring.
    + apply (vneg_neq _ _) with (2 := H3). apply V3_eq; cbn; ring.
    + intros E. apply H. unfold det3.
      transitivity (dot (vsub b a) (cross (vsub c b) (vsub d b))); [unfold dot, cross, vsub; cbn [vx vy vz]; ring|]. rewrite E. unfold dot. cbn. ring.
    + apply (vneg_neq _ _) with (2 := H2). apply V3_eq; cbn; ring.
  - apply tetra_closed.
Qed.

(** make_hexahedron *)
Definition hexa_corners (o u v w : V3) : list V3 :=
  [o; vadd o w; vadd (vadd o u) w; vadd o u; vadd o v; vadd (vadd o v) w; vadd (vadd (vadd o u) v) w; vadd (vadd o u) v].
Lemma hexa_faces p0 p1 p2 p3 p4 p5 p6 p7 : make_hexahedron [p0; p1; p2; p3; p4; p5; p6; p7] =
  Ok [[p0; p3; p2; p1]; [p2; p3; p7; p6]; [p7; p4; p5; p6]; [p1; p5; p4; p0]; [p5; p1; p2; p6]; [p4; p7; p3; p0]].
Proof. reflexivity. Qed.
Lemma hexa_closed coords faces : make_hexahedron coords = Ok faces -> closed_surface faces.
Proof.
  intros H.
  apply (closed_by_index (fun i => nth i coords vzero) [(0,3);(3,2);(2,1);(1,0); (2,3);(3,7);(7,6);(6,2); (7,4);(4,5);(5,6);(6,7);
     (1,5);(5,4);(4,0);(0,1); (5,1);(1,2);(2,6);(6,5); (4,7);(7,3);(3,0);(0,4)]%nat).
  - destruct coords as [|p0 [|p1 [|p2 [|p3 [|p4 [|p5 [|p6 [|p7 l]]]]]]]]; try discriminate.
    cbn in H. injection H as <-. reflexivity.
  - nodup.
  - cbn. nodup.
  - in_iff.
Qed.
Ltac leq := repeat (apply (f_equal2 cons); [apply V3_eq; cbn; ring|]); reflexivity.
Lemma hexa_volume o u v w : det3 u v w <> 0 ->
  exists faces, make_hexahedron (hexa_corners o u v w) = Ok faces /\ polyhedron_volume faces = Ok (det3 u v w).
Proof.
  intros H. eexists. split; [apply hexa_faces|].
  rewrite (volume_pyramids _ o).
  - f_equal. unfold rsum, pyramid. cbn [map edges chain nth fold_right fst snd]. unfold rsum. cbn [map fold_right fst snd].
    unfold tetra, det3, dot, cross, vsub, vadd. cbn [vx vy vz]. field.
  - destruct (det_cross_neq _ _ _ H) as (H1 & H2 & H3).
    assert (Q : forall l a x y, l = [a; vadd a x; vadd (vadd a x) y; vadd a y] -> cross x y <> vzero -> proper_face l) by (intros l a x y ->; apply proper_parallelogram).
    intros f [<-|[<-|[<-|[<-|[<-|[<-|[]]]]]]].
    + apply (Q _ o u w); [leq|]. apply (vneg_neq _ _) with (2 := H3). apply V3_eq; cbn; ring.
    + apply (Q _ (vadd (vadd o u) w) (vscal (-1) w) v); [leq|]. intros E. apply H2. apply V3_eq; [apply (f_equal vx) in E|apply (f_equal vy) in E|apply (f_equal vz) in E]; cbn in *; lra.
    + apply (Q _ (vadd (vadd o u) v) (vscal (-1) u) w); [leq|]. intros E. apply H3. apply V3_eq; [apply (f_equal vx) in E|apply (f_equal vy) in E|apply (f_equal vz) in E]; cbn in *; lra.
    + apply (Q _ (vadd o w) v (vscal (-1) w)); [leq|]. intros E. apply H2. apply V3_eq; [apply (f_equal vx) in E|apply (f_equal vy) in E|apply (f_equal vz) in E]; cbn in *; lra.
    + apply (Q _ (vadd (vadd o v) w) (vscal (-1) v) u); [leq|]. intros E. apply H1. apply V3_eq; [apply (f_equal vx) in E|apply (f_equal vy) in E|apply (f_equal vz) in E]; cbn in *; lra.
    + apply (Q _ (vadd o v) u (vscal (-1) v)); [leq|]. intros E. apply H1. apply V3_eq; [apply (f_equal vx) in E|apply (f_equal vy) in E|apply (f_equal vz) in E]; cbn in *; lra.
  - apply (hexa_closed (hexa_corners o u v w)). reflexivity.
Qed.

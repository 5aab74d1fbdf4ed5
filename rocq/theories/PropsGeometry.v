(** * Properties C44, C45, C82-C85: polygons and polyhedra (geometry.py) *)
From Coq Require Import Reals List Bool Lia Lra Permutation.
From Coquelicot Require Import Coquelicot.
From Verif Require Import Base GeometryModel SpecGeometry GeometryProofs GeometryProofs2 GeometryProofs3 GeometryProofs4.
Import ListNotations.
Open Scope R_scope.

Lemma normal_area_unit pts n A : normal_area pts n A -> area_vector pts <> vzero /\ n = unit_normal pts /\ A = norm (area_vector pts) /\ proper_face pts.
Proof.
  intros (Hn & HA & E & Hp).
  assert (N : norm (area_vector pts) = A) by (rewrite E, norm_scal, Hn, Rabs_pos_eq by lra; ring).
  assert (Z : area_vector pts <> vzero) by (intros E0; apply norm_0 in E0; lra).
  split; auto. split; [|split; auto].
  - unfold unit_normal. rewrite N, E. apply V3_eq; cbn; field; lra.
  - split; auto. exists n, (nth 0 pts vzero). split; auto. intros p H. apply Hp; auto.
    assert (M := area_nonempty pts Z). destruct pts; [contradiction|left; auto].
Qed.
Lemma proper_normal_area pts : proper_face pts -> normal_area pts (unit_normal pts) (norm (area_vector pts)).
Proof.
  intros H. split; [apply unit_normal_1; apply H|]. split; [apply norm_pos; apply H|]. split; [apply unit_normal_area; apply H|].
  intros; apply in_plane_unit; auto.
Qed.

(** ** C45 *)
Theorem C45_plane : forall pts, proper_face pts ->
  exists n d A, eqn_of_plane pts = Ok (n, d) /\ normal_area pts n A /\ forall p, In p pts -> dot n p + d = 0.
Proof.
  intros pts H. exists (unit_normal pts), (- dot (mean pts) (unit_normal pts)), (norm (area_vector pts)).
  split; [apply eqn_ok; apply H|]. split; [apply proper_normal_area; auto|]. intros. apply plane_through; auto.
Qed.
(** The normal points to the side from which the vertices run anti-clockwise: reversing flips it. *)
Theorem C45_reversed : forall pts n d, proper_face pts -> eqn_of_plane pts = Ok (n, d) ->
  eqn_of_plane (rev pts) = Ok (vscal (-1) n, - d).
Proof.
  intros pts n d H E. rewrite eqn_ok in E by apply H.
  assert (Z : area_vector (rev pts) <> vzero).
  { rewrite area_rev. intros E0. apply (proj2 H). apply V3_eq; [apply (f_equal vx) in E0|apply (f_equal vy) in E0|apply (f_equal vz) in E0]; cbn in *; lra. }
  assert (U : unit_normal (rev pts) = vscal (-1) (unit_normal pts)).
  { unfold unit_normal. rewrite area_rev, norm_scal, Rabs_left by lra. assert (P := norm_pos _ (proj2 H)). apply V3_eq; cbn; field; lra. }
  assert (M : mean (rev pts) = mean pts).
  { unfold mean. rewrite rev_length.
    assert (S1 : forall f, vsum f (rev pts) = vsum f pts).
    { intros f. unfold vsum. apply (rsum_perm f). apply Permutation_sym, Permutation_rev. }
    rewrite !S1. auto. }
  rewrite eqn_ok by auto. rewrite U, M. injection E as <- <-. f_equal. f_equal. unfold dot, vscal. cbn [vx vy vz]. ring.
Qed.
Print Assumptions C45_plane.

(** ** C44 *)
(** The computed area, for every list of vertices whatsoever. *)
Theorem C44_area : forall pts i, area_vector pts <> vzero -> largest (area_vector pts) i ->
  (comp i (area_vector pts) <> 0 -> i <> 1%nat -> polygon_area pts = Ok (norm (area_vector pts))) /\
  (comp i (area_vector pts) <> 0 -> i = 1%nat -> polygon_area pts = Ok (- norm (area_vector pts))) /\
  (comp i (area_vector pts) = 0 -> polygon_area pts = Err ZeroDivisionError).
Proof.
  intros pts i H Hi. rewrite (polygon_area_is pts i H Hi). destruct Req_EM_T as [E|E].
  - repeat split; intros; try contradiction; auto.
  - repeat split; intros; try contradiction; auto.
    + destruct i as [|[|i]]; auto. contradiction.
    + subst i. auto.
Qed.
(** For a plane polygon that is the surface integral of 1. *)
Theorem C44_true_area : forall pts n A, normal_area pts n A -> over_polygon n (fun _ => 1) pts A.
Proof.
  intros pts n A H. destruct (normal_area_unit pts n A H) as (_ & -> & -> & Hp). rewrite <- fan_area by auto. apply int_1. apply self_plane. auto.
Qed.
(** Starting elsewhere, or moving the polygon, changes nothing at all. *)
Theorem C44_start_and_position : forall l1 l2 t,
  polygon_area (l1 ++ l2) = polygon_area (l2 ++ l1) /\ polygon_area (map (vadd t) (l1 ++ l2)) = polygon_area (l1 ++ l2).
Proof.
  intros l1 l2 t. destruct (l1 ++ l2) as [|p l] eqn:E.
  - apply app_eq_nil in E. destruct E as [-> ->]. split; reflexivity.
  - split.
    + rewrite <- E. apply polygon_area_area; [congruence| |apply area_rotate].
      intros E2. apply app_eq_nil in E2. destruct E2 as [-> ->]. discriminate.
    + apply polygon_area_area; [discriminate|discriminate|apply area_translate].
Qed.
(** Cutting along a diagonal: the area vectors add up; for a triangle it is half the cross product of two sides. *)
Theorem C44_area_vector : forall p l1 q l2 a b c,
  area_vector (p :: l1 ++ q :: l2) = vadd (area_vector (p :: l1 ++ [q])) (area_vector (p :: q :: l2)) /\
  area_vector [a; b; c] = vscal (1/2) (cross (vsub b a) (vsub c a)) /\
  4 * norm (area_vector [a; b; c]) ^ 2 = dot (vsub b a) (vsub b a) * dot (vsub c a) (vsub c a) - dot (vsub b a) (vsub c a) ^ 2 /\
  area_vector (rev (p :: l1)) = vscal (-1) (area_vector (p :: l1)).
Proof.
  intros. split; [apply area_split|]. split; [apply area_triangle|]. split; [|apply area_rev].
  replace (norm (area_vector [a; b; c]) ^ 2) with (norm (area_vector [a; b; c]) * norm (area_vector [a; b; c])) by ring.
  rewrite norm_sq, area_triangle. unfold dot, cross, vsub, vscal. cbn [vx vy vz]. field.
Qed.
(** Polygons in a horizontal plane: the shoelace formula, anti-clockwise only. *)
Lemma horizontal_area pts z : (forall p, In p pts -> vz p = z) -> area_vector pts = mkV 0 0 (shoelace pts).
Proof.
  intros H. unfold area_vector. apply V3_eq; cbn [vx vy vz].
  - transitivity (rsum (fun e => (- (z / 2) * (vy (snd e))) - (- (z / 2) * vy (fst e))) (edges pts)); [|apply (tele (fun p => - (z / 2) * vy p))].
    apply rsum_ext. intros e He. apply edges_in in He. unfold cross. cbn [vx]. rewrite !(H _ (proj1 He)), !(H _ (proj2 He)). field.
  - transitivity (rsum (fun e => ((z / 2) * (vx (snd e))) - ((z / 2) * vx (fst e))) (edges pts)); [|apply (tele (fun p => (z / 2) * vx p))].
    apply rsum_ext. intros e He. apply edges_in in He. unfold cross. cbn [vy]. rewrite !(H _ (proj1 He)), !(H _ (proj2 He)). field.
  - unfold shoelace. apply rsum_ext. intros e _. unfold cross. cbn [vz]. field.
Qed.
Theorem C44_shoelace : forall pts z, (forall p, In p pts -> vz p = z) -> 0 < shoelace pts -> polygon_area pts = Ok (shoelace pts).
Proof.
  intros pts z H HS. assert (E := horizontal_area pts z H).
  assert (Z : area_vector pts <> vzero) by (rewrite E; intros E0; apply (f_equal vz) in E0; cbn in E0; lra).
  destruct (C44_area pts 2 Z) as (G & _ & _).
  - rewrite E. split; [lia|]. split; intros j Hj; destruct j as [|[|[|j]]]; cbn; try lia; lra.
  - rewrite G; [|rewrite E; cbn; lra|lia]. f_equal. rewrite E. unfold norm, dot. cbn [vx vy vz].
    replace (0 * 0 + 0 * 0 + shoelace pts * shoelace pts) with (Rsqr (shoelace pts)) by (unfold Rsqr; ring). apply sqrt_Rsqr. lra.
Qed.
(** Clockwise in a horizontal plane: nan, although the area is not zero. *)
Theorem C44_clockwise_refuted : forall pts z, (forall p, In p pts -> vz p = z) -> shoelace pts < 0 ->
  polygon_area pts = Err ZeroDivisionError.
Proof.
  intros pts z H HS. assert (E := horizontal_area pts z H).
  assert (Z : area_vector pts <> vzero) by (rewrite E; intros E0; apply (f_equal vz) in E0; cbn in E0; lra).
  destruct (C44_area pts 0 Z) as (_ & _ & G).
  - rewrite E. split; [lia|]. split; intros j Hj; destruct j as [|[|[|j]]]; cbn; try lia; lra.
  - apply G. rewrite E. reflexivity.
Qed.
(** A polygon facing mostly in the +y direction gets a negative area. *)
Definition ex_xz : list V3 := [mkV 0 0 0; mkV 0 0 1; mkV 1 0 1; mkV 1 0 0].
Theorem C44_facing_y_refuted : polygon_area ex_xz = Ok (-1) /\ normal_area ex_xz (mkV 0 1 0) 1.
Proof.
  assert (E : area_vector ex_xz = mkV 0 1 0) by (unfold area_vector, rsum; apply V3_eq; cbn; field).
  assert (N : norm (mkV 0 1 0) = 1) by (unfold norm, dot; cbn; replace (0 * 0 + 1 * 1 + 0 * 0) with 1 by ring; apply sqrt_1).
  assert (Z : area_vector ex_xz <> vzero) by (rewrite E; intros E0; apply (f_equal vy) in E0; cbn in E0; lra).
  split.
  - destruct (C44_area ex_xz 1 Z) as (_ & G & _).
    + rewrite E. split; [lia|]. split; intros j Hj; destruct j as [|[|[|j]]]; cbn; try lia; lra.
    + rewrite G; [rewrite E, N; auto|rewrite E; cbn; lra|auto].
  - split; auto. split; [lra|]. split; [rewrite E; apply V3_eq; cbn; ring|].
    unfold ex_xz. intros p q Hp Hq. cbn in Hp, Hq. unfold dot, vsub. cbn [vx vy vz].
    destruct Hp as [<-|[<-|[<-|[<-|[]]]]], Hq as [<-|[<-|[<-|[<-|[]]]]]; cbn; ring.
Qed.
Print Assumptions C44_area.
Print Assumptions C44_true_area.
Print Assumptions C44_start_and_position.
Print Assumptions C44_clockwise_refuted.
Print Assumptions C44_facing_y_refuted.
Definition ex_sq : list V3 := [mkV 0 0 0; mkV 2 0 0; mkV 2 3 0; mkV 0 3 0].
Example C44_witness : polygon_area ex_sq = Ok 6.
Proof.
  replace 6 with (shoelace ex_sq) by (unfold shoelace, rsum; cbn; field). apply (C44_shoelace ex_sq 0).
  - intros p Hp. cbn in Hp. destruct Hp as [<-|[<-|[<-|[<-|[]]]]]; auto.
  - unfold shoelace, rsum; cbn; lra.
Qed.
Definition ex_tri : list V3 := [mkV 1 0 0; mkV 0 1 0; mkV 0 0 1].
Lemma ex_tri_area : area_vector ex_tri = mkV (1/2) (1/2) (1/2).
Proof. unfold area_vector, rsum; apply V3_eq; cbn; field. Qed.
Lemma ex_tri_proper : proper_face ex_tri.
Proof. apply proper_triangle. intros E. apply (f_equal vx) in E. cbn in E. lra. Qed.
Example C44_witness3 : exists A, polygon_area ex_tri = Ok A /\ 4 * A ^ 2 = 3 /\ 0 < A.
Proof.
  assert (Z := proj2 ex_tri_proper). exists (norm (area_vector ex_tri)). destruct (C44_area ex_tri 0 Z) as (G & _ & _).
  - rewrite ex_tri_area. split; [lia|]. split; intros j Hj; destruct j as [|[|[|j]]]; cbn; try lia; lra.
  - rewrite G; [|rewrite ex_tri_area; cbn; lra|lia]. split; auto. split; [|apply norm_pos; auto].
    replace (norm (area_vector ex_tri) ^ 2) with (norm (area_vector ex_tri) * norm (area_vector ex_tri)) by ring.
    rewrite norm_sq, ex_tri_area. unfold dot. cbn. field.
Qed.

(** ** C82 *)
Lemma good_area pts n A : normal_area pts n A -> polygon_area pts = Ok A ->
  exists i, largest (area_vector pts) i /\ comp i (area_vector pts) <> 0 /\ i <> 1%nat.
Proof.
  intros H E. destruct (normal_area_unit pts n A H) as (Z & _ & HA & _). exists (argmax3 (area_vector pts)).
  assert (L := argmax_largest (area_vector pts)). split; auto. rewrite (polygon_area_is pts _ Z L) in E. destruct Req_EM_T as [E0|E0]; [discriminate|].
  split; auto. intros E1. rewrite E1 in E. injection E as E. assert (0 < A) by apply H. rewrite <- HA in E. lra.
Qed.
Lemma calcd_out (X : V3 -> R) n x y z : a_coordinate X -> ~ others_zero X n ->
  X (mkV (calcd (vy n) (vz n) x) (calcd (vx n) (vz n) y) (calcd (vx n) (vy n) z)) = X (mkV x y z).
Proof.
  assert (C : forall j k v, ~ (j = 0 /\ k = 0) -> calcd j k v = v) by (intros j k v H; unfold calcd; destruct (Req_EM_T j 0), (Req_EM_T k 0); tauto).
  assert (Dxy : vx <> vy) by (intros E; apply (f_equal (fun f => f (mkV 0 1 2))) in E; cbn in E; lra).
  assert (Dxz : vx <> vz) by (intros E; apply (f_equal (fun f => f (mkV 0 1 2))) in E; cbn in E; lra).
  assert (Dyz : vy <> vz) by (intros E; apply (f_equal (fun f => f (mkV 0 1 2))) in E; cbn in E; lra).
  intros [->|[->| ->]] H; cbn [vx vy vz]; apply C; intros Hz; apply H; unfold others_zero; repeat split; intros; try tauto; exfalso; congruence.
Qed.
Lemma calcd_zero (X : V3 -> R) n x y z : a_coordinate X -> others_zero X n ->
  X (mkV (calcd (vy n) (vz n) x) (calcd (vx n) (vz n) y) (calcd (vx n) (vy n) z)) = 0.
Proof.
  assert (C : forall j k v, (j = 0 /\ k = 0) -> calcd j k v = 0) by (intros j k v (-> & ->); unfold calcd; destruct (Req_EM_T 0 0); auto; contradiction).
  intros [->|[->| ->]] (H1 & H2 & H3); cbn [vx vy vz]; apply C; auto.
Qed.
Lemma X_mk X pts k : a_coordinate X -> X (mkV (I1 pts vx / k) (I1 pts vy / k) (I1 pts vz / k)) = I1 pts X / k.
Proof. intros [->|[->| ->]]; reflexivity. Qed.
(** Whenever the area is computed correctly, each coordinate that varies over the polygon is the true
    centroid's: its integral over the polygon divided by the area. *)
Theorem C82_centroid : forall pts n A, normal_area pts n A -> polygon_area pts = Ok A ->
  exists c, polygon_centroid pts = Ok c /\
    forall X, a_coordinate X ->
      (~ others_zero X n -> over_polygon n X pts (X c * A)) /\
      (others_zero X n -> X c = 0).
Proof.
  intros pts n A H E. destruct (good_area pts n A H E) as (i & L & C0 & Hi). destruct (normal_area_unit pts n A H) as (Z & -> & HA & Hp).
  assert (P : 0 < A) by apply H. eexists. split; [apply (centroid_is pts i); auto|]. rewrite <- HA.
  replace (sigma i) with 1 by (destruct i as [|[|i]]; auto; contradiction). rewrite Rmult_1_l. intros X HX. split.
  - intros Ho. rewrite calcd_out by auto. rewrite X_mk by auto. replace (I1 pts X / A * A) with (I1 pts X) by (field; lra).
    apply int_X; auto. apply self_plane. auto.
  - intros Ho. apply calcd_zero; auto.
Qed.
(** In particular in the x-y plane (z = 0) all three coordinates are right. *)
Theorem C82_plane_polygon : forall pts, (forall p, In p pts -> vz p = 0) -> 0 < shoelace pts ->
  exists c, polygon_centroid pts = Ok c /\ vz c = 0 /\
    over_polygon (mkV 0 0 1) vx pts (vx c * shoelace pts) /\ over_polygon (mkV 0 0 1) vy pts (vy c * shoelace pts).
Proof.
  intros pts H HS. assert (E := horizontal_area pts 0 H).
  assert (N : normal_area pts (mkV 0 0 1) (shoelace pts)).
  { split; [unfold norm, dot; cbn; replace (0 * 0 + 0 * 0 + 1 * 1) with 1 by ring; apply sqrt_1|]. split; auto. split; [rewrite E; apply V3_eq; cbn; ring|].
    intros p q Hp Hq. unfold dot, vsub. cbn [vx vy vz]. rewrite (H p Hp), (H q Hq). ring. }
  destruct (C82_centroid pts _ _ N (C44_shoelace pts 0 H HS)) as (c & Hc & HX). exists c. split; auto.
  assert (Dxz : vx <> vz) by (intros E1; apply (f_equal (fun f => f (mkV 0 1 2))) in E1; cbn in E1; lra).
  assert (Dyz : vy <> vz) by (intros E1; apply (f_equal (fun f => f (mkV 0 1 2))) in E1; cbn in E1; lra).
  split; [|split].
  - apply (HX vz); [right; right; auto|]. repeat split; intros; auto; exfalso; congruence.
  - apply (HX vx); [left; auto|]. intros (G & _). destruct (G eq_refl) as [_ G2]. cbn in G2. lra.
  - apply (HX vy); [right; left; auto|]. intros (_ & G & _). destruct (G eq_refl) as [_ G2]. cbn in G2. lra.
Qed.
(** A polygon in the plane z = 5 gets the centroid z = 0, and one facing +y the mirrored centroid. *)
Lemma nmkV a b c : norm (mkV a b c) = sqrt (a * a + b * b + c * c). Proof. reflexivity. Qed.
Definition ex_z5 : list V3 := map (vadd (mkV 0 0 5)) ex_sq.
Theorem C82_level_refuted : exists c, polygon_centroid ex_z5 = Ok c /\ vz c = 0 /\ forall p, In p ex_z5 -> vz p = 5.
Proof.
  assert (Hz : forall p, In p ex_z5 -> vz p = 5) by (intros p Hp; cbn in Hp; destruct Hp as [<-|[<-|[<-|[<-|[]]]]]; cbn; ring).
  assert (S6 : shoelace ex_z5 = 6) by (unfold shoelace, rsum; cbn; field).
  assert (E := horizontal_area ex_z5 5 Hz).
  assert (N : normal_area ex_z5 (mkV 0 0 1) 6).
  { split; [rewrite nmkV; replace (0 * 0 + 0 * 0 + 1 * 1) with 1 by ring; apply sqrt_1|]. split; [lra|]. split; [rewrite E, S6; apply V3_eq; cbn; ring|].
    intros p q Hp Hq. unfold dot, vsub. cbn [vx vy vz]. rewrite (Hz p Hp), (Hz q Hq). ring. }
  assert (A6 : polygon_area ex_z5 = Ok 6) by (rewrite <- S6; apply (C44_shoelace ex_z5 5); auto; rewrite S6; lra).
  destruct (C82_centroid _ _ _ N A6) as (c & Hc & HX). exists c. split; auto. split; auto.
  assert (Dxz : vx <> vz) by (intros E1; apply (f_equal (fun f => f (mkV 0 1 2))) in E1; cbn in E1; lra).
  assert (Dyz : vy <> vz) by (intros E1; apply (f_equal (fun f => f (mkV 0 1 2))) in E1; cbn in E1; lra).
  apply (HX vz); [right; right; auto|]. repeat split; intros; auto; exfalso; congruence.
Qed.
Lemma Ok_inj_ {A} (a b : A) : Ok a = Ok b -> a = b. Proof. congruence. Qed.
Theorem C82_facing_y_refuted : forall pts n A c, normal_area pts n A -> polygon_area pts = Ok (- A) -> polygon_centroid pts = Ok c ->
  forall X, a_coordinate X -> ~ others_zero X n -> over_polygon n X pts (- X c * A).
Proof.
  intros pts n A c H E Hc X HX Ho. destruct (normal_area_unit pts n A H) as (Z & -> & HA & Hp). assert (P : 0 < A) by apply H.
  assert (L := argmax_largest (area_vector pts)). rewrite (polygon_area_is pts _ Z L) in E. destruct Req_EM_T as [E0|E0]; [discriminate|]. injection E as E.
  assert (E1 : argmax3 (area_vector pts) = 1%nat) by (destruct (argmax3 (area_vector pts)) as [|[|k]]; auto; exfalso; rewrite <- HA in E; lra).
  assert (CI := centroid_is pts _ Hp L E0). cbv zeta in CI. rewrite CI in Hc. apply Ok_inj_ in Hc. rewrite <- Hc. rewrite calcd_out by auto. rewrite X_mk by auto. rewrite E1, <- HA. unfold sigma.
  replace (- (I1 pts X / (-1 * A)) * A) with (I1 pts X) by (field; lra). apply int_X; auto. apply self_plane. auto.
Qed.
Print Assumptions C82_centroid.
Print Assumptions C82_plane_polygon.
Print Assumptions C82_level_refuted.
Example C82_witness : (forall p, In p ex_sq -> vz p = 0) /\ 0 < shoelace ex_sq.
Proof. split; [intros p Hp; cbn in Hp; destruct Hp as [<-|[<-|[<-|[<-|[]]]]]; auto|unfold shoelace, rsum; cbn; lra]. Qed.

(** ** C83 *)
Lemma const_integrals pts n X : a_coordinate X -> others_zero X n -> norm n = 1 ->
  (forall p q, In p pts -> In q pts -> dot n (vsub p q) = 0) -> forall p q, In p pts -> In q pts -> X p = X q.
Proof.
  intros HX (O1 & O2 & O3) Hn H p q Hp Hq. specialize (H p q Hp Hq). apply norm_unit in Hn. unfold dot, vsub in *. cbn [vx vy vz] in H.
  destruct HX as [->|[->| ->]].
  - destruct (O1 eq_refl) as [E1 E2]. rewrite E1, E2 in *. destruct (Rmult_integral (vx n) (vx p - vx q)) as [G|G]; [lra|rewrite G in Hn; lra|lra].
  - destruct (O2 eq_refl) as [E1 E2]. rewrite E1, E2 in *. destruct (Rmult_integral (vy n) (vy p - vy q)) as [G|G]; [lra|rewrite G in Hn; lra|lra].
  - destruct (O3 eq_refl) as [E1 E2]. rewrite E1, E2 in *. destruct (Rmult_integral (vz n) (vz p - vz q)) as [G|G]; [lra|rewrite G in Hn; lra|lra].
Qed.
Lemma X_mk2 X pts c k : a_coordinate X -> X (mkV (I2 pts vx (vx c) / k) (I2 pts vy (vy c) / k) (I2 pts vz (vz c) / k)) = I2 pts X (X c) / k.
Proof. intros [->|[->| ->]]; reflexivity. Qed.
Lemma others_dec X n : a_coordinate X -> others_zero X n \/ ~ others_zero X n.
Proof.
  assert (Dxy : vx <> vy) by (intros E; apply (f_equal (fun f => f (mkV 0 1 2))) in E; cbn in E; lra).
  assert (Dxz : vx <> vz) by (intros E; apply (f_equal (fun f => f (mkV 0 1 2))) in E; cbn in E; lra).
  assert (Dyz : vy <> vz) by (intros E; apply (f_equal (fun f => f (mkV 0 1 2))) in E; cbn in E; lra).
  intros [->|[->| ->]]; unfold others_zero.
  - destruct (Req_EM_T (vy n) 0), (Req_EM_T (vz n) 0); [left; repeat split; intros; auto; exfalso; congruence| | |]; right; intros (G & _); specialize (G eq_refl); tauto.
  - destruct (Req_EM_T (vx n) 0), (Req_EM_T (vz n) 0); [left; repeat split; intros; auto; exfalso; congruence| | |]; right; intros (_ & G & _); specialize (G eq_refl); tauto.
  - destruct (Req_EM_T (vx n) 0), (Req_EM_T (vy n) 0); [left; repeat split; intros; auto; exfalso; congruence| | |]; right; intros (_ & _ & G); specialize (G eq_refl); tauto.
Qed.
(** Whenever the area is computed correctly, the result is the integral of the squared distance from the
    centroid in each coordinate, divided by the area. *)
Theorem C83_second_moment : forall pts n A, normal_area pts n A -> polygon_area pts = Ok A ->
  exists m, polygon_2nd_moment_of_area pts = Ok m /\
    forall X, a_coordinate X -> exists c, over_polygon n X pts (c * A) /\ over_polygon n (fun v => (X v - c)^2) pts (X m * A).
Proof.
  intros pts n A H E. destruct (good_area pts n A H E) as (i & L & C0 & Hi). destruct (C82_centroid pts n A H E) as (c & Hc & HX).
  destruct (normal_area_unit pts n A H) as (Z & En & HA & Hp). assert (P : 0 < A) by apply H. assert (SP := self_plane pts Hp). rewrite <- En in SP.
  eexists. split; [apply (second_is pts i c); auto|]. rewrite <- HA, <- En.
  replace (sigma i) with 1 by (destruct i as [|[|i]]; auto; contradiction). rewrite Rmult_1_l. intros X HXc. destruct (HX X HXc) as [G1 G2].
  destruct (others_dec X n HXc) as [Ho|Ho].
  - exists (X (nth 0 pts vzero)). rewrite calcd_zero by auto. set (a := nth 0 pts vzero) in *.
    assert (Ha : In a pts) by (unfold a; assert (M := area_nonempty pts Z); destruct pts; [contradiction|left; auto]).
    assert (K : forall p, In p pts -> X p = X a) by (intros p Hpp; apply (const_integrals pts n X HXc Ho (proj1 H) (proj2 (proj2 (proj2 H)))); auto).
    split.
    + replace (X a * A) with (fan n a (tX X) pts); [apply int_X; auto|]. rewrite HA, <- fan_area, <- En by auto. unfold fan. fold a. rewrite <- rsum_scal.
      apply rsum_ext. intros e He. apply edges_in in He. unfold tX, t1. rewrite (K _ (proj1 He)), (K _ (proj2 He)). field.
    + rewrite Rmult_0_l. replace 0 with (fan n a (tX2 X (X a)) pts); [apply int_X2; auto|]. unfold fan. apply rsum_zero.
      intros e He. apply edges_in in He. unfold tX2. rewrite (K _ (proj1 He)), (K _ (proj2 He)). field.
  - exists (X c). split; auto. rewrite calcd_out by auto. rewrite X_mk2 by auto. replace (I2 pts X (X c) / A * A) with (I2 pts X (X c)) by (field; lra).
    unfold I2. rewrite <- En. apply int_X2; auto.
Qed.
Print Assumptions C83_second_moment.
Example C83_witness : normal_area ex_sq (mkV 0 0 1) 6 /\ polygon_area ex_sq = Ok 6.
Proof.
  split; [|apply C44_witness]. destruct C82_witness as [Hz _]. split; [rewrite nmkV; replace (0 * 0 + 0 * 0 + 1 * 1) with 1 by ring; apply sqrt_1|].
  split; [lra|]. split; [rewrite (horizontal_area ex_sq 0 Hz); apply V3_eq; cbn; try ring; unfold shoelace, rsum; cbn; field|].
  intros p q Hp Hq. unfold dot, vsub. cbn [vx vy vz]. rewrite (Hz p Hp), (Hz q Hq). ring.
Qed.

(** ** C84 *)
(** Closed polyhedron with plane faces: the sum, over the faces, of the signed volumes of the pyramids
    from any point o. *)
Theorem C84_volume : forall faces o, (forall f, In f faces -> proper_face f) -> closed_surface faces ->
  polyhedron_volume faces = Ok (rsum (pyramid o) faces).
Proof. apply volume_pyramids. Qed.
Theorem C84_tetrahedron : forall a b c d, det3 (vsub b a) (vsub c a) (vsub d a) <> 0 ->
  let faces := [[a; c; b]; [a; b; d]; [b; c; d]; [a; d; c]] in
  closed_surface faces /\ polyhedron_volume faces = Ok (det3 (vsub b a) (vsub c a) (vsub d a) / 6).
Proof. intros a b c d H. split; [apply tetra_closed|apply tetra_volume; auto]. Qed.
(** Moving the polyhedron does not change the volume. *)
Lemma proper_translate t f : proper_face f -> proper_face (map (vadd t) f).
Proof.
  intros [(n & a & Hn & Hp) HA]. split; [|rewrite area_translate; auto]. exists n, (vadd t a). split; auto.
  intros p Hq. apply in_map_iff in Hq. destruct Hq as (q & <- & Hq). rewrite <- (Hp q Hq). unfold dot, vsub, vadd. cbn [vx vy vz]. ring.
Qed.
Lemma closed_translate t faces : closed_surface faces -> closed_surface (map (map (vadd t)) faces).
Proof.
  unfold closed_surface. cbv zeta. intros H.
  assert (E : flat_map edges (map (map (vadd t)) faces) = map (fun e => (vadd t (fst e), vadd t (snd e))) (flat_map edges faces)).
  { clear H. induction faces as [|f r IH]; [reflexivity|]. cbn [map flat_map]. rewrite IH, edges_map, map_app. auto. }
  rewrite E, map_map. cbn [fst snd].
  assert (M := map_map (fun e : V3 * V3 => (snd e, fst e)) (fun e : V3 * V3 => (vadd t (fst e), vadd t (snd e))) (flat_map edges faces)).
  cbn [fst snd] in M. rewrite <- M. apply Permutation_map. auto.
Qed.
Theorem C84_translation : forall faces t, (forall f, In f faces -> proper_face f) -> closed_surface faces ->
  polyhedron_volume (map (map (vadd t)) faces) = polyhedron_volume faces.
Proof.
  intros faces t Hf Hc. rewrite (volume_pyramids faces vzero) by auto. rewrite (volume_pyramids _ t).
  - f_equal. rewrite rsum_map. apply rsum_ext. intros f Hi. unfold pyramid. rewrite edges_map, rsum_map. apply rsum_ext. intros e _. cbn [fst snd].
    assert (Hne : f <> []) by (apply area_nonempty; apply Hf; auto). destruct f as [|p r]; [contradiction|]. cbn [map nth].
    unfold tetra, det3, dot, cross, vsub, vadd, vzero. cbn [vx vy vz]. field.
  - intros f Hi. apply in_map_iff in Hi. destruct Hi as (g & <- & Hg). apply proper_translate. auto.
  - apply closed_translate. auto.
Qed.
(** A polyhedron cut in two along a face: the volumes add up (the common face is passed through in both directions). *)
Lemma coplanar_det n u v w : dot n n = 1 -> dot n u = 0 -> dot n v = 0 -> dot n w = 0 -> det3 u v w = 0.
Proof.
  intros Hn Hu Hv Hw. unfold det3. rewrite (planar_cross n v w) by auto.
  transitivity (dot n (cross v w) * dot n u); [unfold dot, vscal; cbn [vx vy vz]; ring|rewrite Hu; ring].
Qed.
Lemma flux_face_edges n o f : in_plane n o f -> f <> [] -> flux f = rsum (fun e => ho o (fst e) (snd e)) (edges f).
Proof.
  intros [Hn Hp] Hne. apply norm_unit in Hn. rewrite (flux_pyramid o f). unfold pyramid. rewrite rsum_zero; [ring|].
  intros e He. apply edges_in in He. unfold tetra. rewrite (coplanar_det n); auto; [field| | |]; apply Hp; try tauto.
  destruct f; [contradiction|left; auto].
Qed.
Lemma flux_rev f : proper_face f -> flux (rev f) = - flux f.
Proof.
  intros [(n & a & Hn & Hp) HA]. assert (Hne := area_nonempty f HA).
  rewrite (flux_face_edges n a (rev f)).
  - rewrite (flux_face_edges n a f) by (auto; split; auto). rewrite (rsum_perm _ _ _ (edges_rev f)), rsum_map. cbn [fst snd].
    rewrite (rsum_ext _ (fun e => -1 * ho a (fst e) (snd e))) by (intros; rewrite ho_anti; ring). rewrite rsum_scal. ring.
  - split; auto. intros p Hr. apply Hp. apply in_rev. auto.
  - intros E. apply Hne. rewrite <- (rev_involutive f), E. reflexivity.
Qed.
Lemma proper_rev f : proper_face f -> proper_face (rev f).
Proof.
  intros [(n & a & Hn & Hp) HA]. split.
  - exists n, a. split; auto. intros p Hr. apply Hp. apply in_rev. auto.
  - rewrite area_rev. intros E0. apply HA. apply V3_eq; [apply (f_equal vx) in E0|apply (f_equal vy) in E0|apply (f_equal vz) in E0]; cbn [vx vy vz vscal vzero] in *; lra.
Qed.
Theorem C84_additive : forall faces1 faces2 f, (forall g, In g (f :: faces1 ++ faces2) -> proper_face g) ->
  exists v1 v2, polyhedron_volume (f :: faces1) = Ok v1 /\ polyhedron_volume (rev f :: faces2) = Ok v2 /\
    polyhedron_volume (faces1 ++ faces2) = Ok (v1 + v2).
Proof.
  intros l1 l2 f H. assert (Pf : proper_face f) by (apply H; left; auto).
  assert (Pr := proper_rev f Pf).
  eexists _, _. split; [apply volume_flux|split; [apply volume_flux|]].
  - intros g [<-|Hg]; auto. apply H. right. apply in_or_app. auto.
  - intros g [<-|Hg]; auto. apply H. right. apply in_or_app. auto.
  - rewrite volume_flux by (intros g Hg; apply H; right; auto). f_equal. rewrite rsum_app. assert (Fr := flux_rev f Pf). unfold rsum in *. cbn [map fold_right]. lra.
Qed.
(** Turning every face round (all faces listed clockwise seen from outside) changes only the sign. *)
Theorem C84_orientation : forall faces v, (forall f, In f faces -> proper_face f) ->
  polyhedron_volume faces = Ok v -> polyhedron_volume (map (@rev V3) faces) = Ok (- v).
Proof.
  intros faces v H Hv. rewrite volume_flux in Hv by auto. injection Hv as <-. rewrite volume_flux.
  - f_equal. rewrite rsum_map. rewrite (rsum_ext _ (fun f => -1 * flux f)) by (intros f Hf; rewrite flux_rev by auto; ring). rewrite rsum_scal. ring.
  - intros g Hg. apply in_map_iff in Hg. destruct Hg as (f & <- & Hf). apply proper_rev. auto.
Qed.
Print Assumptions C84_volume.
Print Assumptions C84_tetrahedron.
Print Assumptions C84_translation.
Print Assumptions C84_additive.
Print Assumptions C84_orientation.
Definition ex_o := mkV 0 0 0. Definition ex_i := mkV 1 0 0. Definition ex_j := mkV 0 2 0. Definition ex_k := mkV 1 1 3.
Example C84_witness : let faces := [[ex_o; ex_j; ex_i]; [ex_o; ex_i; ex_k]; [ex_i; ex_j; ex_k]; [ex_o; ex_k; ex_j]] in
  (forall f, In f faces -> proper_face f) /\ closed_surface faces /\ polyhedron_volume faces = Ok 1.
Proof.
  cbv zeta. split.
  - intros f [<-|[<-|[<-|[<-|[]]]]]; apply proper_triangle; intros E;
      first [apply (f_equal vz) in E; cbn in E; lra|apply (f_equal vy) in E; cbn in E; lra|apply (f_equal vx) in E; cbn in E; lra].
  - destruct (C84_tetrahedron ex_o ex_i ex_j ex_k) as [Hc Hv].
    + unfold det3, dot, cross, vsub, ex_o, ex_i, ex_j, ex_k. cbn [vx vy vz]. lra.
    + split; auto. rewrite Hv. f_equal. unfold det3, dot, cross, vsub, ex_o, ex_i, ex_j, ex_k. cbn [vx vy vz]. field.
Qed.

(** ** C85 *)
(** The six faces of a hexahedron form a closed surface whatever the eight corners are ... *)
Theorem C85_closed : forall coords faces, make_hexahedron coords = Ok faces -> closed_surface faces.
Proof. exact hexa_closed. Qed.
(** ... each face has four corners, each corner is in three faces ... *)
Theorem C85_faces : forall coords faces, make_hexahedron coords = Ok faces ->
  length faces = 6%nat /\ (forall f, In f faces -> length f = 4%nat) /\
  Permutation (concat faces) (let c := firstn 8 coords in c ++ c ++ c).
Proof.
  intros coords faces H. destruct coords as [|p0 [|p1 [|p2 [|p3 [|p4 [|p5 [|p6 [|p7 l]]]]]]]]; try discriminate.
  cbn in H. injection H as <-. split; [reflexivity|]. split; [intros f [<-|[<-|[<-|[<-|[<-|[<-|[]]]]]]]; reflexivity|].
  cbn [firstn concat app].
  set (d := vzero). set (c := [p0; p1; p2; p3; p4; p5; p6; p7]).
  change (Permutation (map (fun i => nth i c d) [0;3;2;1; 2;3;7;6; 7;4;5;6; 1;5;4;0; 5;1;2;6; 4;7;3;0]%nat)
    (map (fun i => nth i c d) [0;1;2;3;4;5;6;7; 0;1;2;3;4;5;6;7; 0;1;2;3;4;5;6;7]%nat)).
  apply Permutation_map. clear. apply (Permutation_count_occ Nat.eq_dec). intros x.
  do 8 (destruct x as [|x]; [reflexivity|]). reflexivity.
Qed.
(** ... fewer than eight corners raise ... *)
Theorem C85_raises : forall coords, (length coords < 8)%nat -> make_hexahedron coords = Err IndexError.
Proof.
  intros coords H. destruct coords as [|p0 [|p1 [|p2 [|p3 [|p4 [|p5 [|p6 [|p7 l]]]]]]]]; try reflexivity. cbn in H. lia.
Qed.
(** ... and for the parallelepiped with edges u, v, w (listed as documented: bottom then top) the
    polyhedron has volume u . (v x w), i.e. the faces are listed anti-clockwise seen from outside. *)
Theorem C85_parallelepiped : forall o u v w, det3 u v w <> 0 ->
  exists faces, make_hexahedron [o; vadd o w; vadd (vadd o u) w; vadd o u; vadd o v; vadd (vadd o v) w; vadd (vadd (vadd o u) v) w; vadd (vadd o u) v] = Ok faces /\
    polyhedron_volume faces = Ok (det3 u v w).
Proof. exact hexa_volume. Qed.
Print Assumptions C85_closed.
Print Assumptions C85_faces.
Print Assumptions C85_parallelepiped.
Example C85_witness : det3 (mkV 2 0 0) (mkV 0 3 0) (mkV 1 0 4) = 24.
Proof. unfold det3, dot, cross. cbn [vx vy vz]. ring. Qed.

(** * Property theorems: layered functions and meshes (C10, C18, C61, C62, C63) *)
From Coq Require Import Reals List Arith Lia Lra.
From Coquelicot Require Import Coquelicot.
From Verif Require Import Base PiecewiseModel LayersModel MeshModel SpecPiecewise SpecPiecewiseApi
  LayersProofs MeshProofs.
Import ListNotations.
Open Scope R_scope.

(** Two layers [0,1] and [1,3], the second function with a jump. *)
Definition ex_la : list (layer R) := [mkLayer 0 1 2 3; mkLayer 1 3 3 1].
Definition ex_lb : list (layer R) := [mkLayer 0 1 0 1; mkLayer 1 3 5 (-1)].
Example ex_layers_ok : contiguous ex_la /\ downward ex_la /\ contiguous ex_lb /\ downward ex_lb /\
  same_x ex_la ex_lb /\ covers ex_la (1/2) (5/2).
Proof.
  assert (C : forall l, l = ex_la \/ l = ex_lb -> contiguous l /\ downward l).
  { intros l [-> | ->]; (split; [intros i d Hi; cbn in Hi; destruct i as [|[|i]]; cbn; try lra; lia|]);
    intros a [<-|[<-|[]]]; cbn; lra. }
  destruct (C ex_la) as [H1 H2]; auto. destruct (C ex_lb) as [H3 H4]; auto.
  repeat split; auto. exists (mkLayer 0 1 2 3), (mkLayer 1 3 3 1). cbn. repeat split; lra.
Qed.

(** C10: the product integral is the integral of the product of the two functions. *)
Theorem C10_product_integral : forall (la lb : list (layer R)) (f g : R -> R) xi xj,
  contiguous la -> downward la -> same_x la lb -> described_by la f -> described_by lb g ->
  covers la xi xj -> xi < xj ->
  exists I, integrate_product la lb [xi] [xj] = Ok [I] /\ is_RInt (fun t => f t * g t) xi xj I.
Proof.
  intros la lb f g xi xj H1 H2 H3 H4 H5 H6 H7.
  destruct (integrate_product1_RInt la lb f g xi xj) as (I & E & HI); auto.
  exists I. split; auto. unfold integrate_product. cbn. rewrite E. reflexivity.
Qed.
Print Assumptions C10_product_integral.
Example C10_witness : exists f g I, described_by ex_la f /\ described_by ex_lb g /\
  integrate_product ex_la ex_lb [1/2] [5/2] = Ok [I] /\ is_RInt (fun t => f t * g t) (1/2) (5/2) I.
Proof.
  destruct ex_layers_ok as (H1 & H2 & H3 & H4 & H5 & H6).
  destruct (described_exists ex_la) as [f Hf]; auto. destruct (described_exists ex_lb) as [g Hg]; auto.
  destruct (C10_product_integral ex_la ex_lb f g (1/2) (5/2)) as (I & HI); auto; try lra.
  exists f, g, I. tauto.
Qed.

(** C62: layered functions: value inside a layer, integral and average. *)
Theorem C62_layer_interp : forall (l : list (layer R)) choose_max a v,
  contiguous l -> downward l -> In a l -> lx1 a < v < lx2 a ->
  interp_x1_x2_y1_y2 l [v] choose_max = Ok [layer_line a v].
Proof.
  intros l cm a v H1 H2 H3 H4. unfold interp_x1_x2_y1_y2. cbn.
  rewrite (interp_layers1_inside l cm v a); auto.
Qed.
Print Assumptions C62_layer_interp.
(** Outside all layers the value at the nearest end is returned; on a boundary between two layers
    choose_max picks the top of the layer below, otherwise the bottom of the layer above is returned. *)
Theorem C62_layer_extrapolation : forall (first : layer R) rest final choose_max v,
  contiguous (first :: rest) -> downward (first :: rest) -> last (first :: rest) first = final ->
  (v < lx1 first -> interp_x1_x2_y1_y2 (first :: rest) [v] choose_max = Ok [ly1 first]) /\
  (lx2 final < v -> interp_x1_x2_y1_y2 (first :: rest) [v] choose_max = Ok [ly2 final]).
Proof.
  intros f l z cm v H1 H2 Hz. destruct (interp_layers1_outside (f :: l) cm v H1 H2) as [G1 G2]; [discriminate|].
  assert (E : nth (length (f :: l) - 1) (f :: l) d0 = z).
  { rewrite <- Hz. clear. cbn [length]. replace (S (length l) - 1)%nat with (length l) by lia.
    revert f. induction l as [|a l IH]; intros f; [reflexivity|]. change (nth (length l) (a :: l) d0 = last (a :: l) f).
    rewrite IH. clear. revert a f. induction l as [|b l IH]; intros a f; [reflexivity|]. change (last (b :: l) a = last (b :: l) f). rewrite <- (IH b a). apply IH. }
  rewrite E in G2. unfold interp_x1_x2_y1_y2. cbn [mapM].
  split; intros Hv; [rewrite G1 by exact Hv|rewrite G2 by exact Hv]; reflexivity.
Qed.
Print Assumptions C62_layer_extrapolation.
Theorem C62_layer_boundary : forall (l1 : list (layer R)) a b l2 choose_max,
  contiguous (l1 ++ a :: b :: l2) -> downward (l1 ++ a :: b :: l2) ->
  interp_x1_x2_y1_y2 (l1 ++ a :: b :: l2) [lx2 a] choose_max = Ok [if choose_max then ly1 b else ly2 a].
Proof.
  intros l1 a b l2 cm H1 H2.
  assert (Hl : (S (length l1) < length (l1 ++ a :: b :: l2))%nat) by (rewrite app_length; cbn [length]; lia).
  assert (G := interp_layers1_boundary _ cm (length l1) H1 H2 Hl).
  rewrite !app_nth2 in G by lia. replace (S (length l1) - length l1)%nat with 1%nat in G by lia. rewrite Nat.sub_diag in G. cbn [nth] in G.
  unfold interp_x1_x2_y1_y2. cbn [mapM]. rewrite G. reflexivity.
Qed.
Print Assumptions C62_layer_boundary.
Theorem C62_layer_integral : forall (l : list (layer R)) (f : R -> R) xi xj,
  contiguous l -> downward l -> described_by l f -> covers l xi xj -> xi < xj ->
  exists I r, integrate_x1_x2_y1_y2_between_xi_xj l [xi] [xj] = Ok [I] /\
              avg_x1_x2_y1_y2_between_xi_xj l [xi] [xj] = Ok [r] /\
              is_RInt f xi xj I /\ r * (xj - xi) = I.
Proof.
  intros l f xi xj H1 H2 H3 H4 H5.
  destruct (integrate_layers1_RInt l f xi xj) as (I & E & HI); auto.
  destruct (avg_layers1_spec l f xi xj) as (r & Er & Hr); auto.
  exists I, r. unfold integrate_x1_x2_y1_y2_between_xi_xj, avg_x1_x2_y1_y2_between_xi_xj. cbn.
  rewrite E, Er. repeat split; auto.
  rewrite <- (is_RInt_unique (V := R_CompleteNormedModule) _ _ _ _ HI).
  rewrite <- (is_RInt_unique (V := R_CompleteNormedModule) _ _ _ _ Hr). reflexivity.
Qed.
Print Assumptions C62_layer_integral.
Example C62_witness : interp_x1_x2_y1_y2 ex_lb [2] true = Ok [2].
Proof.
  destruct ex_layers_ok as (_ & _ & H3 & H4 & _).
  rewrite (C62_layer_interp ex_lb true (mkLayer 1 3 5 (-1)) 2); auto.
  - repeat f_equal. unfold layer_line; cbn. field.
  - right; left; auto.
  - cbn; lra.
Qed.

(** C18: graded meshes. *)
Theorem C18_mesh : forall n h p symmetry, (2 <= n)%nat -> 0 < p ->
  exists l, subdivide_into_elements n h p symmetry = Ok l /\ length l = n /\ sumn l = h /\
    (0 < h -> forall i, (i < n)%nat -> 0 < at_ l i) /\
    (symmetry = false -> forall i, (S i < n)%nat -> at_ l (S i) = p * at_ l i) /\
    (symmetry = true -> (forall i, (2 * S i < n)%nat -> at_ l (S i) = p * at_ l i) /\
                        (forall i, (i < n)%nat -> at_ l (n - 1 - i) = at_ l i)).
Proof.
  intros n h p s Hn Hp. destruct (subdivide_spec n h p s Hn Hp) as (c & l & E & Hl & Hs & Hc & Hi).
  exists l. split; auto. split; auto. split; auto. split; [|split].
  - intros Hh i Hin. rewrite Hi by auto. apply Rmult_lt_0_compat; [|apply pow_lt; auto].
    assert (Hd : 0 < (if Reqb p 1 then INR n else psum n p s)).
    { destruct (Reqb p 1) eqn:Ep; [apply lt_0_INR; lia|]. apply Reqb_false in Ep. apply psum_pos; auto. }
    rewrite <- Hc in Hh. nra.
  - intros -> i Hin. rewrite !Hi by lia. cbn [pow]. ring.
  - intros ->. split.
    + intros i Hin. rewrite !Hi by lia. replace (Nat.min (S i) (n - 1 - S i)) with (S i) by lia.
      replace (Nat.min i (n - 1 - i)) with i by lia. cbn [pow]. ring.
    + intros i Hin. rewrite !Hi by lia. f_equal. f_equal. lia.
Qed.
Print Assumptions C18_mesh.
Theorem C18_mesh_errors : forall n h p symmetry,
  subdivide_into_elements n h p symmetry = Err ValueError <-> ((n <= 1)%nat \/ p <= 0).
Proof.
  intros n h p s. split.
  - intros H. destruct (le_lt_dec n 1); auto. destruct (Rle_dec p 0); auto.
    destruct (C18_mesh n h p s) as (m & E & _); try lia; try lra. congruence.
  - unfold subdivide_into_elements. intros [H|H].
    + destruct (Rleb p 0); auto. destruct (Nat.leb_spec n 1); auto. lia.
    + assert (Rleb p 0 = true) as -> by (apply Rleb_true; auto). auto.
Qed.
Print Assumptions C18_mesh_errors.
Example C18_witness : subdivide_into_elements 3 7 2 false = Ok [1; 2; 4].
Proof.
  unfold subdivide_into_elements.
  assert (Rleb 2 0 = false) as -> by (apply Rleb_false; lra).
  assert (Reqb 2 1 = false) as -> by (apply Reqb_false; lra).
  cbn. repeat f_equal; field.
Qed.

(** C61: subdividing a line keeps the vertices and stays on the line, in order. *)
Theorem C61_subdivide : forall (x y : list R) dx min_segments xn yn,
  length x = length y -> x <> [] -> (1 <= min_segments)%nat ->
  subdivide_x_y_into_segments x y dx min_segments None = Ok (xn, yn) ->
  length xn = length yn /\
  (forall i, (i < length x)%nat -> In (at_ x i, at_ y i) (combine xn yn)) /\
  (forall q, In q (combine xn yn) ->
     q = (at_ x (length x - 1), at_ y (length x - 1)) \/
     exists i s, (S i < length x)%nat /\ 0 <= s < 1 /\
       fst q = at_ x i + s * (at_ x (S i) - at_ x i) /\
       snd q = at_ y i + s * (at_ y (S i) - at_ y i)) /\
  (nondecr x -> nondecr xn).
Proof.
  intros x y dx m xn yn H1 H2 H3 H4.
  destruct (subdivide_open_spec x y dx m H1 H2 H3 xn yn H4) as (A & B & C).
  repeat split; auto. intros Hn. eapply subdivide_open_nondecr; eauto.
Qed.
Print Assumptions C61_subdivide.
Example C61_witness : subdivide_x_y_into_segments [0; 4] [1; 3] (Some 8) 2 None = Ok ([0; 2; 4], [1; 2; 3]).
Proof.
  unfold subdivide_x_y_into_segments. cbn [length Nat.eqb negb get nth_error bind get_last rev app].
  assert (Reqb 8 0 = false) as -> by (apply Reqb_false; lra). cbn [andb pairs combine map fst snd].
  assert (nseg 8 2 0 4 = 2%nat) as ->.
  { unfold nseg. replace (Int_part ((4 - 0) / 8)) with 0%Z; [reflexivity|].
    symmetry. unfold Int_part. replace (up ((4 - 0) / 8)) with 1%Z; [reflexivity|].
    apply tech_up; lra. }
  cbn. repeat f_equal; field.
Qed.

(** C63: layer_coords returns every layer boundary. *)
Theorem C63_layer_boundaries : forall (h : list R) segs min_segs z,
  (1 <= min_segs)%nat -> layer_coords h segs min_segs = Ok z ->
  (forall k, (k < length h)%nat -> In (sumn (firstn k h)) z) /\ In (sumn h) z.
Proof. exact layer_coords_boundaries. Qed.
Print Assumptions C63_layer_boundaries.
Example C63_witness : exists z, layer_coords [2; 3] 4 1 = Ok z.
Proof. eexists. unfold layer_coords. cbn [cumsum_from get_last rev app bind]. reflexivity. Qed.

(** * The contributions of boundary loads, depth by depth *)
From Coq Require Import Reals List Arith ZArith Lia Lra Bool Sorted.
From Coquelicot Require Import Coquelicot.
From Verif Require Import Base PiecewiseModel LayersModel SpecPiecewise SpecPiecewiseApi PiecewiseProofs PiecewiseProofs2 PiecewiseProofs4 LayersProofs PropsLayers
  PolyLineModel SpecPolyLine SpecSuper PolyLineProofs2 PolyLineProofs3 PolyLineProofs4 PolyLineProofs5 PolyLineProofs6 PolyLineProofs7
  SpectralModel SpecSpectral PropsSpectral WrapModel SpecWrap WrapProofs PropsWrap LoadProofs2 SpecLoad TimeProofs TimeProofs2 SpecSpeccon SpecconModel SpecconProofs SpecconProofs2.
Import ListNotations.
Open Scope R_scope.
Local Notation at_ := SpecPiecewise.at_.
Local Notation entry := SpecSpectral.entry.

Lemma outer_gives yb (g : nat -> R) p tvals nz : length yb = nz -> (forall i, (i < nz)%nat -> nth i yb 0 = g i) ->
  shape (outer yb (map (value p) tvals)) nz (length tvals) /\
  forall i j, (i < nz)%nat -> (j < length tvals)%nat -> entry (outer yb (map (value p) tvals)) i j = g i * value p (nth j tvals 0).
Proof.
  intros L H. split.
  - pose proof (outer_shape yb (map (value p) tvals)) as S. rewrite L, map_length in S. exact S.
  - intros i j Hi Hj. change SpecSpectral.entry with PolyLineProofs7.entry. rewrite outer_entry by (rewrite ?map_length; lia).
    rewrite H by auto. rewrite (nth_map_in _ _ _ _ 0) by auto. reflexivity.
Qed.
Lemma every_row_gives nz tvals p : (1 <= length p)%nat -> exists A, every_row nz tvals p = Ok A /\ shape A nz (length tvals) /\
  forall i j, (i < nz)%nat -> (j < length tvals)%nat -> entry A i j = 1 * value p (nth j tvals 0).
Proof.
  intros H. unfold every_row. rewrite values_ok by auto. cbn [bind]. eexists. split; [reflexivity|]. split.
  - split; [apply repeat_length|]. intros row Hr. apply repeat_spec in Hr. subst. apply map_length.
  - intros i j Hi Hj. unfold SpecSpectral.entry.
    assert (E : nth i (repeat (map (value p) tvals) nz) [] = map (value p) tvals).
    { apply (repeat_spec nz). apply nth_In. rewrite repeat_length. auto. }
    rewrite E, (nth_map_in _ _ _ _ 0) by auto. ring.
Qed.
Lemma one_layer_interp y1 y2 v : 0 <= v <= 1 -> interp_layers1 [mkLayer 0 1 y1 y2] false v = Ok (y1 + (y2 - y1) * v).
Proof.
  intros Hv. rewrite (interp_layers1_in _ false v 0%nat).
  - unfold layer_line. cbn. f_equal. field.
  - intros i d Hi. cbn in Hi. lia.
  - cbn. lia.
  - change (lxs [mkLayer 0 1 y1 y2]) with [0; 1].
    destruct (segment_containing1_spec [0; 1] false v) as [(_ & N)|(i & E & (Hi & _) & _)].
    + exfalso. apply (N 0%nat). split; [cbn; lia|]. split; [cbn; lra|]. cbn. rewrite Rmin_left, Rmax_right by lra. auto.
    + cbn in Hi. assert (i = 0%nat) by lia. subst i. exact E.
Qed.
Lemma interp_multiply_gives y1 y2 tvals outz p : (forall z, In z outz -> 0 <= z <= 1) -> (1 <= length p)%nat ->
  exists A, interp_multiply [mkLayer 0 1 y1 y2] tvals outz p = Ok A /\ shape A (length outz) (length tvals) /\
    forall i j, (i < length outz)%nat -> (j < length tvals)%nat -> entry A i j = (y1 + (y2 - y1) * nth i outz 0) * value p (nth j tvals 0).
Proof.
  intros Hz H. unfold interp_multiply. rewrite values_ok by auto. cbn [bind]. unfold interp_x1_x2_y1_y2.
  rewrite (mapM_map _ (fun v => y1 + (y2 - y1) * v)) by (intros z Hin; apply one_layer_interp; auto). cbn [bind].
  eexists. split; [reflexivity|]. apply (outer_gives _ (fun i => y1 + (y2 - y1) * nth i outz 0)); [apply map_length|].
  intros i Hi. rewrite (nth_map_in _ _ _ _ 0) by auto. reflexivity.
Qed.
Lemma one_layer_avg y1 y2 u w : 0 <= u -> u < w -> w <= 1 -> exists r, avg_layers1 [mkLayer 0 1 y1 y2] u w = Ok r /\
  is_RInt (fun z => y1 + (y2 - y1) * z) u w (r * (w - u)).
Proof.
  intros H0 H1 H2. destruct (avg_layers1_spec [mkLayer 0 1 y1 y2] (fun z => y1 + (y2 - y1) * z) u w) as (r & E & Hr); auto.
  - intros i d Hi. cbn in Hi. lia.
  - intros a [<-|[]]. cbn. lra.
  - intros a z [<-|[]] Hz. unfold layer_line. cbn in *. field.
  - exists (mkLayer 0 1 y1 y2), (mkLayer 0 1 y1 y2). cbn. repeat split; auto.
  - exists r. auto.
Qed.
Lemma mapM_spec {T U} (f : T -> result U) (P : T -> U -> Prop) l : (forall x, In x l -> exists y, f x = Ok y /\ P x y) ->
  exists v, mapM f l = Ok v /\ Forall2 P l v.
Proof.
  induction l as [|a l IH]; intros H; [exists []; split; [reflexivity|constructor]|].
  destruct (H a (or_introl eq_refl)) as (y & Ey & Py). destruct IH as (v & Ev & Fv); [intros; apply H; right; auto|].
  exists (y :: v). cbn. rewrite Ey. cbn. rewrite Ev. split; [reflexivity|constructor; auto].
Qed.
Lemma Forall2_nth' {T U} (P : T -> U -> Prop) l v i d d' : Forall2 P l v -> (i < length l)%nat -> P (nth i l d) (nth i v d').
Proof. intros F. revert i. induction F; intros [|i] Hi; cbn in *; auto; try lia. apply IHF. lia. Qed.
Lemma combine_split' (z : list (R * R)) : combine (map fst z) (map snd z) = z.
Proof. induction z as [|[a b] z IH]; auto. cbn. rewrite IH. auto. Qed.
Definition in_unit (z : list (R * R)) : Prop := forall q, In q z -> 0 <= fst q /\ fst q < snd q /\ snd q <= 1.
Lemma avg_multiply_gives y1 y2 tvals z : in_unit z -> exists g : nat -> R,
  (forall i, (i < length z)%nat -> is_RInt (fun s => y1 + (y2 - y1) * s) (fst (nth i z (0, 0))) (snd (nth i z (0, 0)))
     (g i * (snd (nth i z (0, 0)) - fst (nth i z (0, 0))))) /\
  forall p, (1 <= length p)%nat -> exists A, avg_multiply [mkLayer 0 1 y1 y2] tvals (map fst z) (map snd z) p = Ok A /\ shape A (length z) (length tvals) /\
    forall i j, (i < length z)%nat -> (j < length tvals)%nat -> entry A i j = g i * value p (nth j tvals 0).
Proof.
  intros Hz. destruct (mapM_spec (fun q => avg_layers1 [mkLayer 0 1 y1 y2] (fst q) (snd q))
    (fun q r => is_RInt (fun s => y1 + (y2 - y1) * s) (fst q) (snd q) (r * (snd q - fst q))) z) as (v & Ev & Fv).
  { intros q Hq. destruct (Hz q Hq) as (A & B & C). apply one_layer_avg; auto. }
  exists (fun i => nth i v 0). split; [intros i Hi; apply (Forall2_nth' _ _ _ _ (0, 0) 0 Fv Hi)|].
  intros p H. unfold avg_multiply. rewrite values_ok by auto. cbn [bind]. unfold avg_x1_x2_y1_y2_between_xi_xj. rewrite combine_split', Ev. cbn [bind].
  eexists. split; [reflexivity|]. apply outer_gives; auto. symmetry. eapply Forall2_length; eauto.
Qed.
(** Integral of the product of two profiles between depths. *)
Lemma grid_covers (L : list (layer R)) G u w z0 z1 : StronglySorted Rlt G -> (2 <= length G)%nat -> map lx1 L = removelast G -> map lx2 L = tl G ->
  at_ G 0 = z0 -> at_ G (length G - 1) = z1 -> z0 <= u -> w <= z1 -> contiguous L /\ downward L /\ covers L u w.
Proof.
  intros SG L2 H1 H2 E0 E1 Hu Hw. pose proof (pairs_grid _ _ H1 H2) as PG.
  assert (LL : length L = (length G - 1)%nat) by (rewrite <- (map_length (fun l => (lx1 l, lx2 l)) L), PG; apply pairs_length).
  assert (X : forall i, (S i < length G)%nat -> lx1 (nth i L d0) = at_ G i /\ lx2 (nth i L d0) = at_ G (S i)).
  { intros i Hi. assert (nth i (map (fun l => (lx1 l, lx2 l)) L) (0, 0) = (at_ G i, at_ G (S i))) by (rewrite PG; apply pairs_nth; auto).
    rewrite (nth_map_in _ _ _ _ d0) in H by lia. injection H; auto. }
  split; [|split].
  - intros i d Hi. rewrite (nth_indep _ d d0), (nth_indep L d d0) by lia. destruct (X i) as [_ ->]; [lia|]. destruct (X (S i)) as [-> _]; [lia|]. reflexivity.
  - intros a Ha. apply (In_nth _ _ d0) in Ha. destruct Ha as (i & Hi & <-). destruct (X i) as [-> ->]; [lia|]. apply sorted_nth; auto; lia.
  - destruct L as [|l0 L']; [cbn in LL; lia|]. destruct (exists_last (l := l0 :: L')) as (Q & y & E); [discriminate|].
    exists l0, y. split; [reflexivity|]. split; [rewrite E, rev_app_distr; reflexivity|].
    destruct (X 0%nat) as [E2 _]; [lia|]. cbn [nth] in E2.
    assert (E3 : nth (length G - 2) (l0 :: L') d0 = y).
    { assert (length Q = (length G - 2)%nat). { apply (f_equal (@length _)) in E. rewrite app_length in E. cbn [length] in E, LL. lia. }
      rewrite E, app_nth2 by lia. rewrite H, Nat.sub_diag. reflexivity. }
    destruct (X (length G - 2)%nat) as [_ E4]; [lia|]. rewrite E3 in E4. replace (S (length G - 2)) with (length G - 1)%nat in E4 by lia. lra.
Qed.
Lemma product_gives z0 z1 a c f g z : depth_profile z0 z1 a f -> depth_profile z0 z1 c g -> well_separated [a; c] ->
  (forall q, In q z -> z0 <= fst q /\ fst q < snd q /\ snd q <= z1) ->
  exists B C I, polyline_make_x_common [a; c] = Ok [B; C] /\
    integrate_product (convert_x_y_to_x1_x2_y1_y2 B) (convert_x_y_to_x1_x2_y1_y2 C) (map fst z) (map snd z) = Ok I /\
    Forall2 (fun q v => is_RInt (fun s => f s * g s) (fst q) (snd q) v) z I.
Proof.
  intros Pa Pc W Hz. destruct (common_refined z0 z1 [a; c] [f; g]) as (G & SG & G2 & HG & Rg & I0 & I1 & E & F); auto.
  inversion F as [|? ? ? ? Ra F1]; subst. inversion F1 as [|? ? ? ? Rc _]; subst. clear F F1.
  destruct Ra as (_ & Ca & Da). destruct Rc as (_ & Cc & Dc). cbn [map] in E.
  set (B := emits (vleft a) (vright a) G) in *. set (C := emits (vleft c) (vright c) G) in *.
  destruct (grid_layers_x (vleft a) (vright a) G) as [A1 A2]. destruct (grid_layers_x (vleft c) (vright c) G) as [B1 B2].
  rewrite <- Ca in A1, A2. rewrite <- Cc in B1, B2.
  assert (E0 : at_ G 0 = z0).
  { assert (In (at_ G 0) G) by (apply nth_In; lia). destruct G as [|x G]; [cbn in G2; lia|]. apply Rle_antisym; [apply (hd_min G); auto|apply Rg; auto]. }
  assert (E1 : at_ G (length G - 1) = z1).
  { assert (In (at_ G (length G - 1)) G) by (apply nth_In; lia). apply Rle_antisym; [apply Rg; auto|].
    assert (NE : G <> []) by (intros ->; cbn in G2; lia). rewrite (last_at G 0 NE). apply last_max; auto. }
  destruct (mapM_spec (fun q => integrate_product1 (convert_x_y_to_x1_x2_y1_y2 B) (convert_x_y_to_x1_x2_y1_y2 C) (fst q) (snd q))
    (fun q v => is_RInt (fun s => f s * g s) (fst q) (snd q) v) z) as (v & Ev & Fv).
  { intros q Hq. destruct (Hz q Hq) as (Q1 & Q2 & Q3).
    destruct (grid_covers (convert_x_y_to_x1_x2_y1_y2 B) G (fst q) (snd q) z0 z1) as (K1 & K2 & K3); auto.
    apply integrate_product1_RInt; auto.
    - split; congruence.
    - apply Da.
    - apply Dc. }
  exists B, C, v. split; [exact E|]. split; auto. unfold integrate_product. rewrite combine_split'. exact Ev.
Qed.
Lemma single_load_gives z0 z1 a c f g tvals z : depth_profile z0 z1 a f -> depth_profile z0 z1 c g -> well_separated [a; c] ->
  (forall q, In q z -> z0 <= fst q /\ fst q < snd q /\ snd q <= z1) -> exists k : nat -> R,
  (forall i, (i < length z)%nat -> is_RInt (fun s => f s * g s) (fst (nth i z (0, 0))) (snd (nth i z (0, 0))) (k i)) /\
  forall p, (1 <= length p)%nat -> exists A, single_load p a c None tvals (map fst z) (map snd z) true = Ok A /\ shape A (length z) (length tvals) /\
    forall i j, (i < length z)%nat -> (j < length tvals)%nat -> entry A i j = k i * value p (nth j tvals 0).
Proof.
  intros Pa Pc W Hz. destruct (product_gives z0 z1 a c f g z Pa Pc W Hz) as (B & C & v & E & Ev & Fv).
  exists (fun i => nth i v 0). split; [intros i Hi; apply (Forall2_nth' _ _ _ _ (0, 0) 0 Fv Hi)|].
  intros p H. unfold single_load, load_values. rewrite E. cbn [bind]. rewrite values_ok by auto. cbn [bind]. rewrite Ev. cbn [bind].
  eexists. split; [reflexivity|]. apply outer_gives; auto. symmetry. eapply Forall2_length; eauto.
Qed.

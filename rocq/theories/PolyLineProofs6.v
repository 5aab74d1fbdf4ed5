(** * Sums of lines, product integrals, superposition *)
From Coq Require Import Reals List Arith Lia Lra Bool Sorted.
From Coquelicot Require Import Coquelicot.
From Verif Require Import Base PiecewiseModel LayersModel SpecPiecewise SpecPiecewiseApi
  PiecewiseProofs PiecewiseProofs2 PiecewiseProofs3 LayersProofs PolyLineModel SpecPolyLine PolyLineProofs2 PolyLineProofs3 PolyLineProofs4 PolyLineProofs5.
Import ListNotations.
Open Scope R_scope.

Lemma kept_length p ks : length (kept_points p ks) = length ks. Proof. apply map_length. Qed.
Lemma kept_nth p ks i : (i < length ks)%nat -> nth i (kept_points p ks) (0, 0) = nth (nth i ks 0%nat) p (0, 0).
Proof.
  intros H. unfold kept_points. rewrite (nth_indep _ (0, 0) (nth 0 p (0, 0))) by (rewrite map_length; auto).
  rewrite (map_nth (fun k => nth k p (0, 0))). auto.
Qed.
Lemma sorted_nth (ks : list nat) : StronglySorted lt ks -> forall i j, (i < j < length ks)%nat -> (nth i ks 0 < nth j ks 0)%nat.
Proof.
  induction 1 as [|a ks S IH F]; intros i j H; cbn in H; [lia|]. destruct j as [|j]; [lia|]. destruct i as [|i]; cbn.
  - rewrite List.Forall_forall in F. apply F. apply nth_In. lia.
  - apply IH. lia.
Qed.
Lemma last_nth (ks : list nat) d : last ks d = nth (length ks - 1) ks d.
Proof.
  induction ks as [|a ks IH]; auto. destruct ks as [|b ks]; auto. change (last (a :: b :: ks) d) with (last (b :: ks) d). rewrite IH.
  cbn [length]. replace (S (S (length ks)) - 1)%nat with (S (S (length ks) - 1)) by lia. reflexivity.
Qed.

Lemma rightward_kept p : rightward p -> forall atol, 0 <= atol -> rightward (remove_superfluous_from_x_y atol p) /\
  (forall u, In u (px (remove_superfluous_from_x_y atol p)) -> In u (px p)).
Proof.
  intros (Hn & Hl & Hw) atol Ha. destruct (remove_superfluous_spec atol p Ha Hl) as (ks & S1 & H0 & HL & E & Hr & _).
  rewrite E. 
  assert (X : forall i, (i < length ks)%nat -> at_ (px (kept_points p ks)) i = at_ (px p) (nth i ks 0%nat)).
  { intros i Hi. rewrite !px_at, kept_nth; auto. }
  assert (L : (2 <= length ks)%nat).
  { destruct ks as [|a [|b ks]]; cbn in *; try discriminate; try lia. inversion H0; subst. lia. }
  assert (N0 : nth 0 ks 0%nat = 0%nat) by (destruct ks; cbn in *; congruence).
  assert (NL : nth (length ks - 1) ks 0%nat = (length p - 1)%nat) by (rewrite <- last_nth; auto).
  split.
  - split; [|split].
    + intros i Hi. rewrite px_length, kept_length in Hi. rewrite !X by lia. apply nondecr_le; auto.
      * apply Nat.lt_le_incl. apply sorted_nth; auto.
      * rewrite px_length. apply Hr. apply nth_In. lia.
    + rewrite kept_length. auto.
    + rewrite kept_length, !X by lia. rewrite N0, NL. auto.
  - intros u Hu. unfold px, kept_points in Hu. rewrite map_map in Hu. apply in_map_iff in Hu. destruct Hu as (k & <- & Hk).
    apply in_map. apply nth_In. auto.
Qed.

(** ** PolyLine + PolyLine *)
Lemma add_points_eq op p q a b : drawn_rightward p a -> drawn_rightward q b -> well_separated [a; b] ->
  let a' := remove_superfluous_from_x_y (/ 100000000) a in
  let b' := remove_superfluous_from_x_y (/ 100000000) b in
  exists G, grid_of [a'; b'] G /\ (2 <= length G)%nat /\
  add_points op p q = Ok (emits (fun x => op (vleft a' x) (vleft b' x)) (fun x => op (vright a' x) (vright b' x)) G).
Proof.
  intros Da Db W a' b'. destruct (orient_spec p a Da) as [Mp Op]. destruct (orient_spec q b Db) as [Mq Oq].
  destruct (rightward_kept a (proj1 Da) (/ 100000000)) as [Ra Sa]; [lra|].
  destruct (rightward_kept b (proj1 Db) (/ 100000000)) as [Rb Sb]; [lra|].
  destruct (visits_eq [a'; b']) as (G & HG & EV); [discriminate| | |].
  - intros r [<-|[<-|[]]] C; unfold a', b' in C; [destruct Ra as (_ & L & _)|destruct Rb as (_ & L & _)]; rewrite C in L; cbn in L; lia.
  - intros u w Hu Hw. apply W; cbn in *; rewrite app_nil_r in *; apply in_or_app.
    + apply in_app_or in Hu. destruct Hu; auto.
    + apply in_app_or in Hw. destruct Hw; auto.
  - assert (G2 : (2 <= length G)%nat).
    { destruct (rightward_two a' Ra) as (u & w & Hu & Hw & Huw).
      apply (two_length G u w); auto; apply HG; cbn; apply in_or_app; auto. }
    exists G. split; auto. split; auto. unfold add_points. rewrite Mp, Mq. cbn [negb orb]. rewrite Op, Oq. cbn [bind].
    fold a' b'. rewrite EV. cbn [bind]. rewrite flat_map_map. cbn [map]. apply emits_new. auto.
Qed.
Lemma add_points_spec op (A : forall a b c d v, op (a + b * v) (c + d * v) = op a c + op b d * v) p q a b f g :
  drawn_rightward p a -> drawn_rightward q b -> well_separated [a; b] ->
  let a' := remove_superfluous_from_x_y (/ 100000000) a in
  let b' := remove_superfluous_from_x_y (/ 100000000) b in
  value_of a' f -> value_of b' g -> noticeable_steps2 op a' b' ->
  exists s G, add_points op p q = Ok s /\ grid_of [a'; b'] G /\
    map lx1 (convert_x_y_to_x1_x2_y1_y2 s) = removelast G /\ map lx2 (convert_x_y_to_x1_x2_y1_y2 s) = tl G /\
    contiguous (convert_x_y_to_x1_x2_y1_y2 s) /\ downward (convert_x_y_to_x1_x2_y1_y2 s) /\
    described_by (convert_x_y_to_x1_x2_y1_y2 s) (fun t => op (f t) (g t)).
Proof.
  intros Da Db W a' b' Vf Vg N. destruct (add_points_eq op p q a b Da Db W) as (G & HG & G2 & E).
  eexists _, G. split; [exact E|]. split; [exact HG|]. fold a' b'. rewrite convert_emits; [|apply HG|intros; apply N].
  destruct (grid_layers_x (fun x => op (vleft a' x) (vleft b' x)) (fun x => op (vright a' x) (vright b' x)) G) as [X1 X2].
  split; auto. split; auto. split; [apply grid_layers_contiguous|]. split; [apply grid_layers_downward; apply HG|].
  apply grid_described; auto.
  - apply (rightward_kept a); [apply Da|lra].
  - apply (rightward_kept b); [apply Db|lra].
  - apply HG.
  - intros c Hc. apply HG. cbn. rewrite app_nil_r. apply in_or_app. auto.
Qed.

(** ** polyline_make_x_common *)
Lemma make_x_common_spec ls os fs : Forall2 drawn_rightward ls os -> Forall2 value_of os fs -> (2 <= length ls)%nat -> well_separated os ->
  List.Forall noticeable_steps os ->
  exists rs G, polyline_make_x_common ls = Ok rs /\ grid_of os G /\ length rs = length ls /\
   forall k f, nth_error fs k = Some f -> exists r, nth_error rs k = Some r /\
    let L := convert_x_y_to_x1_x2_y1_y2 r in
    map lx1 L = removelast G /\ map lx2 L = tl G /\ contiguous L /\ downward L /\ described_by L f.
Proof.
  intros F V L W N. destruct (make_x_common_eq ls os F L W) as (G & HG & G2 & E). eexists _, G. split; [exact E|]. split; auto.
  split; [rewrite map_length; symmetry; eapply Forall2_length; eauto|].
  intros k f Hf.
  assert (Ho : exists o, nth_error os k = Some o /\ value_of o f).
  { clear - V Hf. revert k Hf; induction V as [|o g os' fs' H V IH]; intros [|k] Hf; cbn in *; try discriminate.
    - inversion Hf; subst. eauto.
    - apply IH; auto. }
  destruct Ho as (o & Ho & Vo). assert (Hin : In o os) by (eapply nth_error_In; eauto).
  assert (Ro : rightward o). { clear - F Hin. induction F; [contradiction|]. destruct Hin as [<-|Hin]; auto. apply H. }
  rewrite List.Forall_forall in N.
  exists (emits (vleft o) (vright o) G). split; [erewrite map_nth_error; eauto|]. cbv zeta.
  rewrite convert_emits; [|apply HG|intros; apply clean_line; auto].
  destruct (grid_layers_x (vleft o) (vright o) G) as [X1 X2].
  split; auto. split; auto. split; [apply grid_layers_contiguous|]. split; [apply grid_layers_downward; apply HG|].
  apply grid_described1; auto; [apply HG|]. intros c Hc. apply HG. apply in_concat. exists (px o). split; auto. apply in_map. auto.
Qed.

(** ** Integral of the product of two lines *)
Lemma product_spec b c b' c' f g : drawn_rightward b b' -> drawn_rightward c c' -> well_separated [b'; c'] ->
  noticeable_steps b' -> noticeable_steps c' -> value_of b' f -> value_of c' g ->
  exists B C, polyline_make_x_common [b; c] = Ok [B; C] /\
   forall xi xj, Forall2 (between [b'; c']) xi xj ->
    exists I, integrate_product (convert_x_y_to_x1_x2_y1_y2 B) (convert_x_y_to_x1_x2_y1_y2 C) xi xj = Ok I /\
     length I = length xi /\
     forall i, (i < length xi)%nat -> is_RInt (fun t => f t * g t) (nth i xi 0) (nth i xj 0) (nth i I 0).
Proof.
  intros Db Dc W Nb Nc Vf Vg.
  destruct (make_x_common_eq [b; c] [b'; c']) as (G & HG & G2 & E); auto.
  exists (emits (vleft b') (vright b') G), (emits (vleft c') (vright c') G). split; [exact E|].
  pose proof (proj1 HG) as SG.
  rewrite !convert_emits by (auto; intros; apply clean_line; auto; (apply Db || apply Dc)).
  intros xi xj F.
  assert (P : forall u w, between [b'; c'] u w -> exists I, integrate_product1 (grid_layers (vleft b') (vright b') G) (grid_layers (vleft c') (vright c') G) u w = Ok I /\ is_RInt (fun t => f t * g t) u w I).
  { intros u w (Huw & x & y & Hx & Hy & Hxu & Hwy). apply integrate_product1_RInt; auto.
    - apply grid_layers_contiguous.
    - apply grid_layers_downward; auto.
    - destruct (grid_layers_x (vleft b') (vright b') G) as [X1 X2]. destruct (grid_layers_x (vleft c') (vright c') G) as [Y1 Y2].
      split; congruence.
    - apply grid_described1; auto; [apply Db|]. intros z Hz. apply HG. cbn. apply in_or_app. auto.
    - apply grid_described1; auto; [apply Dc|]. intros z Hz. apply HG. cbn. rewrite app_nil_r. apply in_or_app. auto.
    - apply HG in Hx. apply HG in Hy. destruct (grid_covers (vleft b') (vright b') G x y SG Hx Hy) as (l1 & l2 & A1 & A2 & A3 & A4); [lra|].
      exists l1, l2. repeat split; auto; lra. }
  unfold integrate_product. clear - F P. induction F as [|u w xi xj H F IH].
  - exists []. cbn. repeat split; auto. intros i Hi. lia.
  - destruct (P u w H) as (I & EI & HI). destruct IH as (Is & EIs & LI & HIs). exists (I :: Is). cbn [combine mapM fst snd]. rewrite EI. cbn [bind].
    rewrite EIs. cbn [bind]. split; auto. split; [cbn; auto|]. intros [|i] Hi; cbn; auto. apply HIs. cbn in Hi. lia.
Qed.

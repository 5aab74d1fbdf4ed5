(** * Superposition of loads; equality of lines *)
From Coq Require Import Reals List Arith Lia Lra Bool Sorted.
From Coquelicot Require Import Coquelicot.
From Verif Require Import Base PiecewiseModel LayersModel SpecPiecewise SpecPiecewiseApi
  PiecewiseProofs PiecewiseProofs2 LayersProofs PolyLineModel SpecPolyLine SpecSuper PolyLineProofs2 PolyLineProofs3 PolyLineProofs4 PolyLineProofs5 PolyLineProofs6.
Import ListNotations.
Open Scope R_scope.

Definition shape (m : list (list R)) (r c : nat) : Prop := length m = r /\ forall row, In row m -> length row = c.
Definition entry (m : list (list R)) (i j : nat) : R := nth j (nth i m []) 0.
Lemma shape_row m r c i : shape m r c -> (i < r)%nat -> length (nth i m []) = c.
Proof. intros [H1 H2] Hi. apply H2. apply nth_In. lia. Qed.
Lemma nth_combine_gen {A B} (l : list A) (m : list B) i a b : length l = length m -> nth i (combine l m) (a, b) = (nth i l a, nth i m b).
Proof. apply combine_nth. Qed.
Lemma madd_shape m n r c : shape m r c -> shape n r c -> shape (madd m n) r c.
Proof.
  intros Hm Hn. split.
  - unfold madd. rewrite map_length, combine_length. destruct Hm as [-> _], Hn as [-> _]. lia.
  - intros row H. unfold madd in H. apply in_map_iff in H. destruct H as ([u v] & <- & H). cbn.
    rewrite map_length, combine_length. rewrite (proj2 Hm u), (proj2 Hn v); [lia| |]; [eapply in_combine_r; eauto|eapply in_combine_l; eauto].
Qed.
Lemma madd_entry m n r c i j : shape m r c -> shape n r c -> (i < r)%nat -> (j < c)%nat ->
  entry (madd m n) i j = entry m i j + entry n i j.
Proof.
  intros Hm Hn Hi Hj. unfold entry, madd.
  set (f := fun p : list R * list R => map (fun q => fst q + snd q) (combine (fst p) (snd p))).
  rewrite (nth_indep _ [] (f ([], []))) by (rewrite map_length, combine_length; destruct Hm as [-> _], Hn as [-> _]; lia).
  rewrite map_nth, nth_combine_gen by (destruct Hm as [-> _], Hn as [-> _]; auto). unfold f. cbn [fst snd].
  set (g := fun q : R * R => fst q + snd q).
  assert (L1 := shape_row m r c i Hm Hi). assert (L2 := shape_row n r c i Hn Hi).
  rewrite (nth_indep _ 0 (g (0, 0))) by (rewrite map_length, combine_length, L1, L2; lia).
  rewrite map_nth, nth_combine_gen by congruence. reflexivity.
Qed.
Lemma zeros_shape r c : shape (zeros r c) r c.
Proof.
  split; [apply repeat_length|]. intros row H. apply repeat_spec in H. subst. apply repeat_length.
Qed.
Lemma zeros_entry r c i j : (i < r)%nat -> (j < c)%nat -> entry (zeros r c) i j = 0.
Proof.
  intros Hi Hj. unfold entry, zeros. 
  assert (E : nth i (repeat (repeat 0 c) r) [] = repeat 0 c).
  { apply (repeat_spec r (repeat 0 c)). apply nth_In. rewrite repeat_length. auto. }
  rewrite E. apply (repeat_spec c 0). apply nth_In. rewrite repeat_length. auto.
Qed.
Lemma outer_shape yb ya : shape (outer yb ya) (length yb) (length ya).
Proof.
  split; [apply map_length|]. intros row H. unfold outer in H. apply in_map_iff in H. destruct H as (b & <- & _). apply map_length.
Qed.
Lemma outer_entry yb ya i j : (i < length yb)%nat -> (j < length ya)%nat -> entry (outer yb ya) i j = nth i yb 0 * nth j ya 0.
Proof.
  intros Hi Hj. unfold entry, outer. rewrite (nth_indep _ [] (map (fun a => 0 * a) ya)) by (rewrite map_length; auto).
  rewrite (map_nth (fun b => map (fun a => b * a) ya)).
  rewrite (nth_indep _ 0 (nth i yb 0 * 0)) by (rewrite map_length; auto). rewrite (map_nth (fun a => nth i yb 0 * a)). auto.
Qed.

Lemma load_values_spec a om xai cm fa : (forall t, interp_x_y (px a) (py a) [t] cm = Ok [fa t]) ->
  exists ya, load_values a om xai cm = Ok ya /\ length ya = length xai /\
    forall j, (j < length xai)%nat -> nth j ya 0 = fa (nth j xai 0) * cos_factor om (nth j xai 0).
Proof.
  intros H.
  assert (E : interp_x_y (px a) (py a) xai cm = Ok (map fa xai)).
  { unfold interp_x_y in *. rewrite px_length, py_length, Nat.eqb_refl in *. cbn [negb] in *. apply mapM_map. intros t _.
    specialize (H t). cbn in H. destruct (interp1 (px a) (py a) cm t); cbn in H; congruence. }
  unfold load_values. rewrite E. cbn [bind]. destruct om as [[o ph]|].
  - eexists; split; [reflexivity|]. split; [rewrite map_length, combine_length, map_length; lia|]. intros j Hj.
    set (g := fun p : R * R => fst p * cos (o * snd p + ph)).
    rewrite (nth_indep _ 0 (g (fa 0, 0))) by (rewrite map_length, combine_length, map_length; lia).
    rewrite map_nth, nth_combine_gen by apply map_length. unfold g. cbn [fst snd cos_factor]. rewrite map_nth. auto.
  - eexists; split; [reflexivity|]. split; [apply map_length|]. intros j Hj. cbn.
    rewrite (nth_indep _ 0 (fa 0)) by (rewrite map_length; auto). rewrite map_nth. ring.
Qed.

Lemma single_load_spec ld m c c' fc xai xbi xbj cm :
  load_means cm c' xbi xbj ld m -> drawn_rightward c c' -> noticeable_steps c' -> value_of c' fc ->
  (exists B C, polyline_make_x_common [ld_b ld; c] = Ok [B; C]) /\
  exists M, single_load (ld_a ld) (ld_b ld) c (ld_om ld) xai xbi xbj cm = Ok M /\ shape M (length xbi) (length xai) /\
   forall i j, (i < length xbi)%nat -> (j < length xai)%nat ->
    ex_RInt (fun x => m_b m x * fc x) (nth i xbi 0) (nth i xbj 0) /\
    entry M i j = m_a m (nth j xai 0) * cos_factor (ld_om ld) (nth j xai 0) * RInt (fun x => m_b m x * fc x) (nth i xbi 0) (nth i xbj 0).
Proof.
  intros (Ha & b' & Db & W & Nb & Vb & F) Dc Nc Vc.
  destruct (product_spec (ld_b ld) c b' c' (m_b m) fc) as (B & C & E & HI); auto. split; [eauto|].
  destruct (HI xbi xbj F) as (I & EI & LI & HII). destruct (load_values_spec (ld_a ld) (ld_om ld) xai cm (m_a m) Ha) as (ya & Ey & Ly & Hy).
  unfold single_load. rewrite E. cbn [bind]. rewrite Ey. cbn [bind]. rewrite EI. cbn [bind]. eexists; split; [reflexivity|].
  split; [rewrite <- LI, <- Ly; apply outer_shape|]. intros i j Hi Hj. specialize (HII i Hi). split; [eexists; exact HII|].
  rewrite outer_entry by lia. rewrite Hy by auto.
  rewrite (is_RInt_unique (V := R_CompleteNormedModule) _ _ _ _ HII). ring.
Qed.

Definition item_of (om : option (R * R)) : om_item := match om with None => ItemNone | Some (o, p) => ItemPair o p end.
Lemma super_loop_spec lds ms c c' fc xai xbi xbj cm out :
  Forall2 (load_means cm c' xbi xbj) lds ms -> drawn_rightward c c' -> noticeable_steps c' -> value_of c' fc ->
  shape out (length xbi) (length xai) ->
  exists M, super_loop (map (fun ld => (ld_a ld, ld_b ld, item_of (ld_om ld))) lds) c xai xbi xbj cm out = Ok M /\ shape M (length xbi) (length xai) /\
   forall i j, (i < length xbi)%nat -> (j < length xai)%nat ->
    entry M i j = entry out i j + load_sum lds ms fc (nth j xai 0) (nth i xbi 0) (nth i xbj 0).
Proof.
  intros F Dc Nc Vc. revert out. induction F as [|ld m lds ms H F IH]; intros out Ho.
  - exists out. split; auto. split; auto. intros. unfold load_sum. cbn. ring.
  - destruct (single_load_spec ld m c c' fc xai xbi xbj cm H Dc Nc Vc) as ((B & C & E) & M1 & E1 & S1 & H1).
    destruct (IH (madd out M1)) as (M & EM & SM & HM); [apply madd_shape; auto|].
    exists M. split; [|split; auto].
    + cbn [map super_loop]. rewrite E. cbn [bind].
      assert (EI : (match item_of (ld_om ld) with ItemNone => Ok None | ItemPair o p => Ok (Some (o, p)) | ItemNumber _ => Err TypeError end) = Ok (ld_om ld)).
      { destruct (ld_om ld) as [[]|]; reflexivity. }
      rewrite EI. cbn [bind]. rewrite E1. cbn [bind]. exact EM.
    + intros i j Hi Hj. rewrite HM, (madd_entry out M1 _ _ i j Ho S1) by auto. destruct (H1 i j Hi Hj) as [_ ->].
      unfold load_sum. cbn [combine map fold_right fst snd]. ring.
Qed.
Lemma combine3 (lds : list load) : combine (combine (map ld_a lds) (map ld_b lds)) (map (fun ld => item_of (ld_om ld)) lds) =
  map (fun ld => (ld_a ld, ld_b ld, item_of (ld_om ld))) lds.
Proof. induction lds; cbn; congruence. Qed.

Lemma cos_super_spec a b om lds ms c c' fc xai xbi xbj cm :
  listify a = map ld_a lds -> listify b = map ld_b lds ->
  (om = OmNone /\ (forall ld, In ld lds -> ld_om ld = None) \/ om = OmList (map ld_om lds)) ->
  Forall2 (load_means cm c' xbi xbj) lds ms -> drawn_rightward c c' -> noticeable_steps c' -> value_of c' fc ->
  exists M, cos_super a b c xai xbi xbj om cm = Ok M /\ shape M (length xbi) (length xai) /\
   forall i j, (i < length xbi)%nat -> (j < length xai)%nat ->
    entry M i j = load_sum lds ms fc (nth j xai 0) (nth i xbi 0) (nth i xbj 0).
Proof.
  intros Ea Eb Eo F Dc Nc Vc. unfold cos_super. rewrite Ea, Eb, !map_length, Nat.eqb_refl. cbn [negb].
  assert (E : om_items (length lds) om = map (fun ld => item_of (ld_om ld)) lds).
  { destruct Eo as [[-> H]| ->]; cbn.
    - clear - H. induction lds as [|l lds IH]; cbn; auto. rewrite (H l) by (left; auto). rewrite IH; auto. intros; apply H; right; auto.
    - rewrite map_map. apply map_ext. intros ld. destruct (ld_om ld) as [[]|]; reflexivity. }
  rewrite E, !map_length, Nat.eqb_refl. cbn [negb]. rewrite combine3.
  destruct (super_loop_spec lds ms c c' fc xai xbi xbj cm (zeros (length xbi) (length xai)) F Dc Nc Vc (zeros_shape _ _)) as (M & EM & SM & HM).
  exists M. split; auto. split; auto. intros i j Hi Hj. rewrite HM, zeros_entry by auto. ring.
Qed.
Lemma plain_super_spec a b lds ms c c' fc xai xbi xbj cm :
  listify a = map ld_a lds -> listify b = map ld_b lds -> (forall ld, In ld lds -> ld_om ld = None) ->
  Forall2 (load_means cm c' xbi xbj) lds ms -> drawn_rightward c c' -> noticeable_steps c' -> value_of c' fc ->
  exists M, plain_super a b c xai xbi xbj cm = Ok M /\ shape M (length xbi) (length xai) /\
   forall i j, (i < length xbi)%nat -> (j < length xai)%nat ->
    entry M i j = load_sum lds ms fc (nth j xai 0) (nth i xbi 0) (nth i xbj 0).
Proof.
  intros Ea Eb Eo F Dc Nc Vc. unfold plain_super. rewrite Ea, Eb, !map_length, Nat.eqb_refl. cbn [negb].
  assert (E : repeat ItemNone (length lds) = map (fun ld => item_of (ld_om ld)) lds).
  { clear - Eo. induction lds as [|l lds IH]; cbn; auto. rewrite (Eo l) by (left; auto). rewrite IH; auto. intros; apply Eo; right; auto. }
  rewrite E, combine3.
  destruct (super_loop_spec lds ms c c' fc xai xbi xbj cm (zeros (length xbi) (length xai)) F Dc Nc Vc (zeros_shape _ _)) as (M & EM & SM & HM).
  exists M. split; auto. split; auto. intros i j Hi Hj. rewrite HM, zeros_entry by auto. ring.
Qed.

(** ** Equality *)
Lemma isclose_iff (r a u w : R) : isclose r a u w = true <-> Rabs (u - w) <= a + r * Rabs w.
Proof. unfold isclose. cbn. rewrite !nabs_R. apply Rleb_true. Qed.
Lemma xy_close_iff a b : length a = length b -> xy_close a b = true <-> forall i, (i < length a)%nat ->
  Rabs (fst (nth i a (0,0)) - fst (nth i b (0,0))) <= / 100000 + / 100000000 * Rabs (fst (nth i b (0,0))) /\
  Rabs (snd (nth i a (0,0)) - snd (nth i b (0,0))) <= / 100000 + / 100000000 * Rabs (snd (nth i b (0,0))).
Proof.
  intros L. unfold xy_close. rewrite forallb_forall. split.
  - intros H i Hi. specialize (H (nth i (combine a b) ((0,0),(0,0)))). rewrite nth_combine_gen in H by auto.
    cbn [fst snd] in H. rewrite andb_true_iff, !isclose_iff in H. apply H.
    rewrite <- nth_combine_gen by auto. apply nth_In. rewrite combine_length. lia.
  - intros H u Hu. apply (In_nth _ _ ((0,0),(0,0))) in Hu. destruct Hu as (i & Hi & <-). rewrite combine_length in Hi.
    rewrite nth_combine_gen by auto. cbn [fst snd]. rewrite andb_true_iff, !isclose_iff. apply H. lia.
Qed.
Lemma eq_points_iff a b : eq_points a b = true <-> length a = length b /\ forall i, (i < length a)%nat ->
  Rabs (fst (nth i a (0,0)) - fst (nth i b (0,0))) <= / 100000 + / 100000000 * Rabs (fst (nth i b (0,0))) /\
  Rabs (snd (nth i a (0,0)) - snd (nth i b (0,0))) <= / 100000 + / 100000000 * Rabs (snd (nth i b (0,0))).
Proof.
  unfold eq_points. destruct (Nat.eqb (length a) (length b)) eqn:E; cbn [negb].
  - apply Nat.eqb_eq in E. rewrite xy_close_iff; tauto.
  - apply Nat.eqb_neq in E. split; [discriminate|]. tauto.
Qed.

(** * Lines brought to common abscissas keep their meaning; their layers form a stack *)
From Coq Require Import Reals List Arith Lia Lra Bool Sorted.
From Coquelicot Require Import Coquelicot.
From Verif Require Import Base PiecewiseModel LayersModel SpecPiecewise SpecPiecewiseApi
  PiecewiseProofs PiecewiseProofs2 PiecewiseProofs3 LayersProofs PolyLineModel SpecPolyLine
  PolyLineProofs2 PolyLineProofs3 PolyLineProofs4 PolyLineProofs6 PropsPolyLine
  SpectralModel SpecSpectral WrapModel SpecWrap.
Import ListNotations.
Open Scope R_scope.
Local Notation at_ := SpecPiecewise.at_.

(** ** Abscissas *)
Lemma emit_px g y y' : px (emit g y y') = [g] \/ px (emit g y y') = [g; g].
Proof. unfold emit. destruct (Rltb _ _); cbn; auto. Qed.
Lemma emits_cons yl yr g G : emits yl yr (g :: G) = emit g (yl g) (yr g) ++ emits yl yr G.
Proof. reflexivity. Qed.
Lemma px_app p q : px (p ++ q) = px p ++ px q. Proof. apply map_app. Qed.
Lemma emits_in yl yr G x : In x (px (emits yl yr G)) <-> In x G.
Proof.
  induction G as [|g G IH]; [reflexivity|]. rewrite emits_cons, px_app, in_app_iff, IH.
  destruct (emit_px g (yl g) (yr g)) as [-> | ->]; cbn; tauto.
Qed.
Lemma emits_sorted yl yr G : StronglySorted Rlt G -> StronglySorted Rle (px (emits yl yr G)).
Proof.
  induction 1 as [|g G S IH F]; [constructor|]. rewrite emits_cons, px_app.
  assert (F' : List.Forall (Rle g) (px (emits yl yr G))).
  { rewrite List.Forall_forall in *. intros x Hx. apply emits_in in Hx. specialize (F x Hx). lra. }
  destruct (emit_px g (yl g) (yr g)) as [-> | ->]; cbn; constructor; auto.
  - constructor; auto.
  - constructor; auto. lra.
Qed.
Lemma sorted_nondecr x : StronglySorted Rle x -> nondecr x.
Proof.
  induction 1 as [|a l S IH F]; intros i Hi; [cbn in Hi; lia|].
  destruct i as [|i]; cbn in *.
  - destruct l as [|b l]; [cbn in Hi; lia|]. rewrite List.Forall_forall in F. apply F. left; auto.
  - apply IH. lia.
Qed.
Lemma emits_first yl yr g G : at_ (px (emits yl yr (g :: G))) 0 = g.
Proof. destruct (emits_head yl yr g G) as (t & ->). reflexivity. Qed.
Lemma px_length' p : length (px p) = length p. Proof. apply map_length. Qed.
Lemma last_at (l : list R) d : l <> [] -> at_ l (length l - 1) = last l d.
Proof.
  intros H. destruct (exists_last H) as (P & y & ->). rewrite app_length, last_last. unfold at_.
  rewrite app_nth2; cbn; [|lia]. replace (length P + 1 - 1 - length P)%nat with 0%nat by lia. reflexivity.
Qed.
Lemma emits_last yl yr G d : G <> [] -> last (px (emits yl yr G)) d = last G d.
Proof.
  intros H. destruct (exists_last H) as (P & y & ->). rewrite last_last. unfold emits. rewrite flat_map_app. cbn [flat_map]. rewrite app_nil_r, px_app.
  destruct (emit_px y (yl y) (yr y)) as [-> | ->]; [apply last_last|].
  change [y; y] with ([y] ++ [y]). rewrite app_assoc. apply last_last.
Qed.
Lemma emits_rightward yl yr G : StronglySorted Rlt G -> (2 <= length G)%nat -> rightward (emits yl yr G).
Proof.
  intros S L. split; [apply sorted_nondecr, emits_sorted; auto|]. pose proof (emits_length yl yr G). split; [lia|].
  rewrite <- px_length'. rewrite (last_at _ 0); [|intros C; apply (f_equal (@length R)) in C; rewrite px_length' in C; cbn in C; lia].
  destruct G as [|g G]; [cbn in L; lia|]. rewrite emits_first, emits_last by discriminate.
  destruct (exists_last (l := g :: G)) as (P & y & E); [discriminate|].
  assert (In y G). { destruct P as [|p P]; [injection E; intros; subst; cbn in L; lia|]. injection E as -> ->. apply in_or_app. right. left. auto. }
  rewrite E, last_last. inversion S; subst. rewrite List.Forall_forall in *. auto.
Qed.
(** ** Steps *)
Lemma emits_steps yl yr G : StronglySorted Rlt G -> noticeable_steps (emits yl yr G).
Proof.
  induction 1 as [|g G S IH F]; [intros i j H; cbn in H; lia|].
  rewrite emits_cons. intros i j Hij He.
  assert (HG : forall k, (k < length (emits yl yr G))%nat -> g < at_ (px (emits yl yr G)) k).
  { intros k Hk. rewrite List.Forall_forall in F. apply F. apply (emits_in yl yr). apply nth_In. rewrite px_length'. auto. }
  rewrite app_length in Hij. unfold emit in *. destruct (Rltb (tol (yr g)) (Rabs (yl g - yr g))) eqn:E.
  - apply Rltb_true in E. destruct i as [|[|i]].
    + destruct j as [|[|j]]; [lia|cbn; right; exact E|]. cbn in He, Hij. specialize (HG j ltac:(lia)). unfold px, at_ in HG. lra.
    + destruct j as [|[|j]]; [lia|lia|]. cbn in He, Hij. specialize (HG j ltac:(lia)). unfold px, at_ in HG. lra.
    + destruct j as [|[|j]]; [lia|lia|]. cbn in Hij. exact (IH i j ltac:(lia) He).
  - destruct i as [|i].
    + destruct j as [|j]; [lia|]. cbn in He, Hij. specialize (HG j ltac:(lia)). unfold px, at_ in HG. lra.
    + destruct j as [|j]; [lia|]. cbn in Hij. exact (IH i j ltac:(lia) He).
Qed.

(** ** A depth that is not a break point lies inside a layer *)
Lemma inside_layer p t : rightward p -> at_ (px p) 0 < t < at_ (px p) (length p - 1) -> ~ In t (px p) ->
  exists a, In a (convert_x_y_to_x1_x2_y1_y2 p) /\ lx1 a < t < lx2 a.
Proof.
  intros (Hn & Hl & _). clear Hl. revert Hn. induction p as [|[x y] [|[x' y'] p] IH]; intros Hn Ht Hin.
  - cbn in Ht. lra.
  - cbn in Ht. lra.
  - rewrite convert_cons2. cbn [fst snd]. destruct (Rlt_dec t x') as [L|L].
    + cbn in Ht. rewrite (proj2 (Reqb_false _ _)) by lra. eexists. split; [left; reflexivity|]. cbn. lra.
    + assert (x' <> t) by (intros C; apply Hin; cbn; auto).
      destruct IH as (a & Ha & Hta).
      * apply (nondecr_tl x); auto.
      * cbn [length] in Ht |- *. replace (S (S (length p)) - 1)%nat with (S (length p)) in Ht by lia.
        replace (S (length p) - 1)%nat with (length p) by lia. cbn in Ht |- *. split; [lra|]. apply Ht.
      * intros C. apply Hin. cbn in C |- *. tauto.
      * exists a. split; auto. destruct (Reqb x x'); auto. right; auto.
Qed.

(** ** Bringing profiles to common abscissas *)
Lemma hd_min (G : list R) g t : StronglySorted Rlt (g :: G) -> In t (g :: G) -> g <= t.
Proof. intros S [<-|H]; [lra|]. inversion S; subst. rewrite List.Forall_forall in *. specialize (H3 t H). lra. Qed.
Lemma last_max (G : list R) d t : StronglySorted Rlt G -> In t G -> t <= last G d.
Proof.
  intros S. revert t. induction S as [|g G S IH F]; intros t H; [contradiction|].
  destruct G as [|g' G]; [destruct H as [<-|[]]; cbn; lra|]. change (last (g :: g' :: G) d) with (last (g' :: G) d).
  destruct H as [<-|H]; auto. rewrite List.Forall_forall in F. specialize (F g' (or_introl eq_refl)). specialize (IH g' (or_introl eq_refl)). lra.
Qed.
Lemma nondecr_le x i j : nondecr x -> (i <= j < length x)%nat -> at_ x i <= at_ x j.
Proof.
  intros H [Hij Hj]. induction Hij; [lra|]. apply Rle_trans with (at_ x m); [apply IHHij; lia|]. apply H. lia.
Qed.
Lemma profile_range z0 z1 p f x : depth_profile z0 z1 p f -> In x (px p) -> z0 <= x <= z1.
Proof.
  intros ((Hn & Hl & _) & _ & E0 & E1 & _) H. apply (In_nth _ _ 0) in H. destruct H as (i & Hi & <-). rewrite px_length' in Hi.
  rewrite <- E0, <- E1. split; apply (nondecr_le (px p)); auto; rewrite ?px_length'; lia.
Qed.
Lemma profile_ends z0 z1 p f : depth_profile z0 z1 p f -> In z0 (px p) /\ In z1 (px p) /\ z0 < z1.
Proof.
  intros ((Hn & Hl & Hlt) & _ & E0 & E1 & _). rewrite <- E0, <- E1. repeat split; auto; apply nth_In; rewrite px_length'; lia.
Qed.

Definition refined (z0 z1 : R) (G : list R) (o r : points) (f : R -> R) : Prop :=
  r = emits (vleft o) (vright o) G /\ convert_x_y_to_x1_x2_y1_y2 r = grid_layers (vleft o) (vright o) G /\
  depth_profile z0 z1 r f.
Lemma refine_one z0 z1 o f G : depth_profile z0 z1 o f -> StronglySorted Rlt G ->
  (forall x, In x (px o) -> In x G) -> (forall x, In x G -> z0 <= x <= z1) ->
  refined z0 z1 G o (emits (vleft o) (vright o) G) f.
Proof.
  intros P S Sub Rg. pose proof (profile_ends _ _ _ _ P) as (I0 & I1 & Hlt).
  assert (L2 : (2 <= length G)%nat) by (apply (two_length G z0 z1); auto).
  pose proof P as (Ro & No & E0 & E1 & Df).
  assert (CV : convert_x_y_to_x1_x2_y1_y2 (emits (vleft o) (vright o) G) = grid_layers (vleft o) (vright o) G).
  { apply convert_emits; auto. intros; apply clean_line; auto. }
  split; [reflexivity|]. split; [exact CV|].
  split; [apply emits_rightward; auto|]. split; [apply emits_steps; auto|].
  assert (Gne : G <> []) by (intros ->; cbn in L2; lia).
  split; [|split].
  - destruct G as [|g G]; [contradiction|]. rewrite emits_first. apply Rle_antisym; [apply (hd_min G); auto|]. apply Rg. left; auto.
  - rewrite <- px_length'. rewrite (last_at _ 0).
    + rewrite emits_last by auto. apply Rle_antisym.
      * apply Rg. destruct (exists_last Gne) as (Q & y & ->). rewrite last_last. apply in_or_app. right; left; auto.
      * apply last_max; auto.
    + intros C. pose proof (emits_length (vleft o) (vright o) G). rewrite <- px_length', C in H. cbn in H. lia.
  - rewrite CV. destruct (value_exists o false) as (g & Hg); [destruct Ro as (_ & L & _); intros ->; cbn in L; lia|].
    assert (Vg : value_of o g) by (exists false; auto).
    intros a t Ha Ht. rewrite <- (grid_described1 o g G Ro Vg S Sub a t Ha Ht).
    apply in_map_iff in Ha. destruct Ha as ([u w] & <- & H). cbn [fst snd lx1 lx2] in Ht.
    destruct (pairs_sorted G u w S H) as (Huw & Hu & Hw & Hno).
    destruct (inside_layer o t Ro) as (b & Hb & Htb).
    + rewrite E0, E1. pose proof (Rg u Hu). pose proof (Rg w Hw). lra.
    + intros C. apply Sub in C. specialize (Hno t C). lra.
    + rewrite (Df b t Hb Htb). destruct (points_described o g Ro Vg) as (_ & _ & Dg). rewrite (Dg b t Hb Htb). reflexivity.
Qed.

Lemma self_drawn p : rightward p -> drawn_rightward p p. Proof. intros H; split; auto. Qed.
Lemma common_refined z0 z1 ls fs : Forall2 (depth_profile z0 z1) ls fs -> (2 <= length ls)%nat -> well_separated ls ->
  exists G, StronglySorted Rlt G /\ (2 <= length G)%nat /\ (forall x, In x G <-> In x (concat (map px ls))) /\
    (forall x, In x G -> z0 <= x <= z1) /\ In z0 G /\ In z1 G /\
    polyline_make_x_common ls = Ok (map (fun o => emits (vleft o) (vright o) G) ls) /\
    Forall2 (fun o f => refined z0 z1 G o (emits (vleft o) (vright o) G) f) ls fs.
Proof.
  intros F L W.
  destruct (make_x_common_eq ls ls) as (G & (SG & HG) & G2 & E); auto.
  { clear - F. induction F; constructor; auto. apply self_drawn. apply H. }
  assert (Rg : forall x, In x G -> z0 <= x <= z1).
  { intros x Hx. apply HG in Hx. apply in_concat in Hx. destruct Hx as (q & Hq & Hx). apply in_map_iff in Hq. destruct Hq as (o & <- & Ho).
    clear - F Ho Hx. induction F; [contradiction|]. destruct Ho as [<-|Ho]; auto. apply (profile_range _ _ _ _ x H Hx). }
  assert (Sub : forall o x, In o ls -> In x (px o) -> In x G).
  { intros o x Ho Hx. apply HG. apply in_concat. exists (px o). split; auto. apply in_map. auto. }
  exists G. split; auto. split; auto. split; auto. split; auto.
  assert (Ends : In z0 G /\ In z1 G).
  { destruct F as [|o f ls fs H F]; [cbn in L; lia|]. destruct (profile_ends _ _ _ _ H) as (A & B & _).
    split; apply (Sub o); auto; left; auto. }
  split; [apply Ends|]. split; [apply Ends|]. split; auto.
  clear - F Sub SG Rg. induction F; constructor.
  - apply refine_one; auto. intros z Hz. apply (Sub x); auto. left; auto.
  - apply IHF. intros o z Ho. apply Sub. right; auto.
Qed.

(** ** Layers as a stack of slabs *)
Lemma stack_grid (S : list slab) G z0 : StronglySorted Rlt (z0 :: G) -> map zt S = removelast (z0 :: G) -> map zb S = G ->
  stack z0 (last (z0 :: G) 0) S.
Proof.
  revert S z0. induction G as [|g G IH]; intros S z0 HS Ht Hb.
  - destruct S; [|discriminate]. cbn. constructor.
  - destruct S as [|s S]; [discriminate|]. change (removelast (z0 :: g :: G)) with (z0 :: removelast (g :: G)) in Ht.
    cbn [map] in Ht, Hb. injection Ht as E1 Ht. injection Hb as E2 Hb. inversion HS; subst.
    apply stack_cons.
    + rewrite List.Forall_forall in *. apply H2. left; auto.
    + change (last (zt s :: zb s :: map zb S) 0) with (last (zb s :: map zb S) 0). apply IH; auto.
Qed.
Lemma grid_stack (S : list slab) G z0 z1 : StronglySorted Rlt G -> In z0 G -> In z1 G -> (forall x, In x G -> z0 <= x <= z1) ->
  map zt S = removelast G -> map zb S = tl G -> stack z0 z1 S.
Proof.
  intros SG I0 I1 Rg Ht Hb. destruct G as [|g G]; [contradiction|].
  assert (g = z0). { apply Rle_antisym; [apply (hd_min G); auto|apply Rg; left; auto]. } subst g.
  assert (E : last (z0 :: G) 0 = z1).
  { apply Rle_antisym; [|apply last_max; auto]. apply Rg. destruct (exists_last (l := z0 :: G)) as (Q & y & ->); [discriminate|].
    rewrite last_last. apply in_or_app. right; left; auto. }
  rewrite <- E. apply stack_grid; auto.
Qed.
Lemma described_linear (top bot : slab -> R) (S : list slab) (L : list (layer R)) f : described_by L f ->
  (forall s, In s S -> exists a, In a L /\ lx1 a = zt s /\ lx2 a = zb s /\ ly1 a = top s /\ ly2 a = bot s) ->
  linear_in top bot S f.
Proof.
  intros D H s z Hs Hz. destruct (H s Hs) as (a & Ha & E1 & E2 & E3 & E4). rewrite (D a z Ha) by (rewrite E1, E2; auto).
  unfold layer_line. rewrite E1, E2, E3, E4. field. lra.
Qed.
(** A line by itself: the grid is its own abscissas. *)
Lemma layers_grid p : rightward p -> exists G, StronglySorted Rlt G /\ map lx1 (layers p) = removelast G /\ map lx2 (layers p) = tl G /\
  (forall x, In x G <-> In x (px p)).
Proof.
  intros (Hn & Hl & _). unfold layers. destruct p as [|[x y] p]; [cbn in Hl; lia|]. clear Hl.
  assert (K : exists G, StronglySorted Rlt (x :: G) /\ map lx1 (convert_x_y_to_x1_x2_y1_y2 ((x, y) :: p)) = removelast (x :: G) /\
    map lx2 (convert_x_y_to_x1_x2_y1_y2 ((x, y) :: p)) = G /\ (forall z, In z (x :: G) <-> In z (px ((x, y) :: p)))).
  { revert x y Hn. induction p as [|[x' y'] p IH]; intros x y Hn.
    - exists []. cbn. repeat split; auto. repeat constructor.
    - destruct (IH x' y') as (G & SG & E1 & E2 & HG); [apply (nondecr_tl x); auto|].
      rewrite convert_cons2. cbn [fst snd]. destruct (Reqb x x') eqn:E.
      + apply Reqb_true in E. subst x'. exists G. repeat split; auto; intros Hz; [right; apply HG; auto|].
        destruct Hz as [<-|Hz]; [left; auto|]. apply HG. exact Hz.
      + apply Reqb_false in E. assert (x < x') by (specialize (Hn 0%nat); cbn in Hn; specialize (Hn ltac:(lia)); lra).
        exists (x' :: G). repeat split.
        * constructor; auto. rewrite List.Forall_forall. intros z Hz. pose proof (hd_min G x' z SG Hz). lra.
        * cbn [map lx1]. rewrite E1. reflexivity.
        * cbn [map lx2]. rewrite E2. reflexivity.
        * intros [<-|Hz]; [left; auto|]. right. apply HG. exact Hz.
        * intros [<-|Hz]; [left; auto|]. right. apply HG. exact Hz. }
  destruct K as (G & SG & E1 & E2 & HG). exists (x :: G). repeat split; auto; apply HG.
Qed.
Lemma slabs1_ok z0 z1 a f : depth_profile z0 z1 a f -> stack z0 z1 (slabs1 a) /\ linear_in SpectralModel.at_ ab (slabs1 a) f /\ slabs1 a <> [].
Proof.
  intros P. pose proof P as (Ra & _ & _ & _ & D). destruct (layers_grid a Ra) as (G & SG & E1 & E2 & HG).
  destruct (profile_ends _ _ _ _ P) as (I0 & I1 & Hlt).
  assert (Rg : forall x, In x G -> z0 <= x <= z1) by (intros x Hx; apply (profile_range _ _ _ _ x P), HG; auto).
  split; [|split].
  - apply (grid_stack _ G); auto; try (apply HG; auto); unfold slabs1; rewrite map_map; cbn; auto.
  - apply (described_linear _ _ _ (layers a)); auto. intros s Hs. unfold slabs1 in Hs. apply in_map_iff in Hs. destruct Hs as (l & <- & Hl).
    exists l. cbn. auto.
  - unfold slabs1. intros C. apply map_eq_nil in C. rewrite C in E1, E2. cbn in E2. apply HG in I0, I1.
    destruct G as [|g [|g' G]]; cbn in *; [contradiction|lra|discriminate].
Qed.

Lemma combine_grids (la lb : list (layer R)) (G : list R) : map lx1 la = removelast G -> map lx2 la = tl G -> map lx1 lb = removelast G -> map lx2 lb = tl G ->
  length la = length lb /\ forall l k, In (l, k) (combine la lb) -> lx1 l = lx1 k /\ lx2 l = lx2 k.
Proof.
  intros A1 A2 B1 B2. assert (L : length la = length lb) by (rewrite <- (map_length lx1 la), <- (map_length lx1 lb), A1, B1; auto).
  split; auto. rewrite <- B1 in A1. rewrite <- B2 in A2. clear B1 B2. revert lb L A1 A2.
  induction la as [|l la IH]; intros [|k lb] L A1 A2 l' k' H; cbn in *; try contradiction; try discriminate.
  injection A1 as E1 A1. injection A2 as E2 A2. destruct H as [H|H]; [injection H as <- <-; auto|]. apply (IH lb); auto.
Qed.
Lemma map_combine_fst {X Y Z} (f : X -> Z) (la : list X) (lb : list Y) : length la = length lb ->
  map (fun p => f (fst p)) (combine la lb) = map f la.
Proof. revert lb. induction la as [|a la IH]; intros [|b lb] L; cbn in *; try discriminate; auto. f_equal. apply IH. lia. Qed.

Lemma slabs2_ok z0 z1 a b f g : depth_profile z0 z1 a f -> depth_profile z0 z1 b g -> well_separated [a; b] ->
  exists a' b' S, common2 a b = Ok (a', b') /\ slabs2 a' b' = Ok S /\
    stack z0 z1 S /\ linear_in SpectralModel.at_ ab S f /\ linear_in bt bb S g /\ S <> [] /\
    depth_profile z0 z1 a' f /\ depth_profile z0 z1 b' g /\
    (forall x, In x (px a') <-> In x (px a ++ px b)) /\ (forall x, In x (px b') <-> In x (px a ++ px b)) /\
    (exists G, S = map (fun q => mkSlab (fst q) (snd q) (vright a (fst q)) (vleft a (snd q)) (vright b (fst q)) (vleft b (snd q)) 0 0) (pairs G) /\
      StronglySorted Rlt G /\ hd z0 G = z0 /\ last G z1 = z1).
Proof.
  intros Pa Pb W. destruct (common_refined z0 z1 [a; b] [f; g]) as (G & SG & G2 & HG & Rg & I0 & I1 & E & F); auto.
  inversion F as [|? ? ? ? Ra F1]; subst. inversion F1 as [|? ? ? ? Rb _]; subst. clear F F1.
  destruct Ra as (_ & Ca & Da). destruct Rb as (_ & Cb & Db).
  set (a' := emits (vleft a) (vright a) G) in *. set (b' := emits (vleft b) (vright b) G) in *.
  destruct (grid_layers_x (vleft a) (vright a) G) as [A1 A2]. destruct (grid_layers_x (vleft b) (vright b) G) as [B1 B2].
  rewrite <- Ca in A1, A2. rewrite <- Cb in B1, B2.
  destruct (combine_grids (layers a') (layers b') G) as [L K]; auto.
  exists a', b'. eexists. split; [unfold common2; rewrite E; reflexivity|].
  split; [unfold slabs2; rewrite L, Nat.eqb_refl; reflexivity|].
  assert (Z : forall s, In s (map (fun p : layer R * layer R => let '(l, k) := p in mkSlab (lx1 l) (lx2 l) (ly1 l) (ly2 l) (ly1 k) (ly2 k) 0 0) (combine (layers a') (layers b'))) ->
     exists l k, In (l, k) (combine (layers a') (layers b')) /\ s = mkSlab (lx1 l) (lx2 l) (ly1 l) (ly2 l) (ly1 k) (ly2 k) 0 0).
  { intros s Hs. apply in_map_iff in Hs. destruct Hs as ((l & k) & <- & H). eauto. }
  split; [|split; [|split; [|split; [|split; [|split; [|split; [|split]]]]]]]; auto.
  - apply (grid_stack _ G); auto; rewrite map_map.
    + transitivity (map lx1 (layers a')); [|exact A1]. rewrite <- (map_combine_fst lx1 (layers a') (layers b') L). apply map_ext. intros [l k]; reflexivity.
    + transitivity (map lx2 (layers a')); [|exact A2]. rewrite <- (map_combine_fst lx2 (layers a') (layers b') L). apply map_ext. intros [l k]; reflexivity.
  - apply (described_linear _ _ _ (layers a')); [apply Da|]. intros s Hs. destruct (Z s Hs) as (l & k & H & ->). exists l. cbn. repeat split; auto.
    apply in_combine_l in H. auto.
  - apply (described_linear _ _ _ (layers b')); [apply Db|]. intros s Hs. destruct (Z s Hs) as (l & k & H & ->). exists k. cbn.
    destruct (K l k H) as [K1 K2]. repeat split; auto. apply in_combine_r in H. auto.
  - intros C. apply map_eq_nil in C. apply (f_equal (@length _)) in C. rewrite combine_length, <- L, Nat.min_id in C.
    unfold layers in C. rewrite Ca in C. unfold grid_layers in C. rewrite map_length, pairs_length in C. cbn in C. lia.
  - intros x. unfold a'. rewrite emits_in, HG. cbn. rewrite app_nil_r. tauto.
  - intros x. unfold b'. rewrite emits_in, HG. cbn. rewrite app_nil_r. tauto.
  - exists G. split.
    + unfold layers. rewrite Ca, Cb. unfold grid_layers. clear. induction (pairs G) as [|q l IH]; cbn; auto. f_equal. exact IH.
    + split; auto. split.
      * destruct G as [|x G]; [contradiction|]. cbn. apply Rle_antisym; [apply (hd_min G); auto|apply Rg; left; auto].
      * apply Rle_antisym; [|apply last_max; auto]. apply Rg. destruct (exists_last (l := G)) as (Q & y & ->); [intros ->; contradiction|].
        rewrite last_last. apply in_or_app. right; left; auto.
Qed.
Lemma slabs3_ok z0 z1 a b c f g h : depth_profile z0 z1 a f -> depth_profile z0 z1 b g -> depth_profile z0 z1 c h -> well_separated [a; b; c] ->
  exists a' b' c' S, common3 a b c = Ok (a', b', c') /\ slabs3 a' b' c' = Ok S /\
    stack z0 z1 S /\ linear_in SpectralModel.at_ ab S f /\ linear_in bt bb S g /\ linear_in ct cb S h /\ S <> [] /\
    depth_profile z0 z1 a' f /\ depth_profile z0 z1 b' g /\ depth_profile z0 z1 c' h /\
    (forall p x, In p [a'; b'; c'] -> (In x (px p) <-> In x (px a ++ px b ++ px c))).
Proof.
  intros Pa Pb Pc W. destruct (common_refined z0 z1 [a; b; c] [f; g; h]) as (G & SG & G2 & HG & Rg & I0 & I1 & E & F); [constructor; [auto|constructor; [auto|constructor; [auto|constructor]]]|cbn; lia|auto|].
  inversion F as [|? ? ? ? Ra F1]; subst. inversion F1 as [|? ? ? ? Rb F2]; subst. inversion F2 as [|? ? ? ? Rc _]; subst.
  destruct Ra as (_ & Ca & Da). destruct Rb as (_ & Cb & Db). destruct Rc as (_ & Cc & Dc).
  set (a' := emits (vleft a) (vright a) G) in *. set (b' := emits (vleft b) (vright b) G) in *. set (c' := emits (vleft c) (vright c) G) in *.
  destruct (grid_layers_x (vleft a) (vright a) G) as [A1 A2]. destruct (grid_layers_x (vleft b) (vright b) G) as [B1 B2].
  destruct (grid_layers_x (vleft c) (vright c) G) as [C1 C2].
  rewrite <- Ca in A1, A2. rewrite <- Cb in B1, B2. rewrite <- Cc in C1, C2.
  destruct (combine_grids (layers a') (layers b') G) as [L K]; auto.
  destruct (combine_grids (layers a') (layers c') G) as [L' K']; auto.
  exists a', b', c'. eexists. split; [unfold common3; rewrite E; reflexivity|].
  split; [unfold slabs3; rewrite <- L, <- L', Nat.eqb_refl; reflexivity|].
  assert (Q : forall l k h0, In (l, k, h0) (combine (combine (layers a') (layers b')) (layers c')) -> In (l, k) (combine (layers a') (layers b')) /\ In (l, h0) (combine (layers a') (layers c'))).
  { clear. intros l k h0 H. split; [apply in_combine_l in H; auto|]. revert H. generalize (layers a') (layers b') (layers c'). intros la.
    induction la as [|x la IH]; intros [|y lb] [|w lc] H; cbn in H; try contradiction. destruct H as [H|H]; [injection H; intros; subst; left; auto|].
    right. apply (IH lb); auto. }
  assert (LC : length (combine (layers a') (layers b')) = length (layers c')) by (rewrite combine_length, <- L, Nat.min_id; auto).
  set (mk := fun p : layer R * layer R * layer R => let '(l, k, h0) := p in mkSlab (lx1 l) (lx2 l) (ly1 l) (ly2 l) (ly1 k) (ly2 k) (ly1 h0) (ly2 h0)).
  assert (Z : forall s, In s (map mk (combine (combine (layers a') (layers b')) (layers c'))) ->
     exists l k h0, In (l, k, h0) (combine (combine (layers a') (layers b')) (layers c')) /\ s = mkSlab (lx1 l) (lx2 l) (ly1 l) (ly2 l) (ly1 k) (ly2 k) (ly1 h0) (ly2 h0)).
  { intros s Hs. apply in_map_iff in Hs. destruct Hs as (((l & k) & h0) & <- & H). eauto. }
  assert (Fst : forall F : layer R -> R, map F (layers a') = map (fun p : layer R * layer R * layer R => F (fst (fst p))) (combine (combine (layers a') (layers b')) (layers c'))).
  { intros FF. rewrite (map_combine_fst (fun q : layer R * layer R => FF (fst q)) _ (layers c') LC). rewrite (map_combine_fst FF _ _ L). auto. }
  split; [|split; [|split; [|split; [|split; [|split; [|split; [|split]]]]]]]; auto.
  - apply (grid_stack _ G); auto; rewrite map_map.
    + transitivity (map lx1 (layers a')); [|exact A1]. rewrite (Fst lx1). apply map_ext. intros [[l k] h0]; reflexivity.
    + transitivity (map lx2 (layers a')); [|exact A2]. rewrite (Fst lx2). apply map_ext. intros [[l k] h0]; reflexivity.
  - apply (described_linear _ _ _ (layers a')); [apply Da|]. intros s Hs. destruct (Z s Hs) as (l & k & h0 & H & ->). exists l. cbn. repeat split; auto.
    apply Q in H. destruct H as [H _]. apply in_combine_l in H. auto.
  - apply (described_linear _ _ _ (layers b')); [apply Db|]. intros s Hs. destruct (Z s Hs) as (l & k & h0 & H & ->). exists k. cbn.
    apply Q in H. destruct H as [H _]. destruct (K l k H) as [K1 K2]. repeat split; auto. apply in_combine_r in H. auto.
  - apply (described_linear _ _ _ (layers c')); [apply Dc|]. intros s Hs. destruct (Z s Hs) as (l & k & h0 & H & ->). exists h0. cbn.
    apply Q in H. destruct H as [_ H]. destruct (K' l h0 H) as [K1 K2]. repeat split; auto. apply in_combine_r in H. auto.
  - intros C. apply map_eq_nil in C. apply (f_equal (@length _)) in C. rewrite combine_length, LC, Nat.min_id, <- L' in C.
    unfold layers in C. rewrite Ca in C. unfold grid_layers in C. rewrite map_length, pairs_length in C. cbn in C. lia.
  - intros p x Hp. assert (X : In x (px p) <-> In x G) by (destruct Hp as [<-|[<-|[<-|[]]]]; apply emits_in).
    rewrite X, HG. cbn. rewrite app_nil_r. tauto.
Qed.

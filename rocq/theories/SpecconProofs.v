(** * Lemmas for the spectral consolidation program: lines over layers, load values, sums *)
From Coq Require Import Reals List Arith ZArith Lia Lra Bool Sorted.
From Coquelicot Require Import Coquelicot.
From Verif Require Import Base PiecewiseModel LayersModel SpecPiecewise SpecPiecewiseApi PiecewiseProofs PiecewiseProofs2 LayersProofs
  PolyLineModel SpecPolyLine PolyLineProofs2 PolyLineProofs3 PolyLineProofs4 PolyLineProofs5 PolyLineProofs6
  SpectralModel WrapModel SpecWrap WrapProofs SpecconModel.
Import ListNotations.
Open Scope R_scope.
Local Notation at_ := SpecPiecewise.at_.

(** ** PolyLine(a.x1, a.x2, g(a.x1), g(a.x2)) *)
Definition draw (g : R -> R) (G : list R) : points := map (fun x => (x, g x)) G.
Lemma draw_px g G : px (draw g G) = G.
Proof. unfold draw, px. rewrite map_map. cbn. apply map_id. Qed.
Lemma draw_py g G : py (draw g G) = map g G.
Proof. unfold draw, py. rewrite map_map. reflexivity. Qed.
Definition span_layers (g : R -> R) (G : list R) : list (layer R) := map (fun q => mkLayer (fst q) (snd q) (g (fst q)) (g (snd q))) (pairs G).
Lemma span_points g G : (2 <= length G)%nat -> layers_to_points (span_layers g G) = draw g G.
Proof.
  induction G as [|x [|y [|z G]] IH]; intros H; [cbn in H; lia|cbn in H; lia|reflexivity|].
  specialize (IH ltac:(cbn; lia)). unfold span_layers in *. rewrite pairs_cons2. cbn [map fst snd].
  change (draw g (x :: y :: z :: G)) with ((x, g x) :: draw g (y :: z :: G)). rewrite <- IH. rewrite pairs_cons2. cbn [map fst snd layers_to_points lx1 lx2 ly1 ly2].
  cbn [neqb NumR]. rewrite (proj2 (Reqb_true (g y) (g y)) eq_refl). reflexivity.
Qed.
Lemma span_contiguous g G : contiguous (span_layers g G).
Proof.
  unfold contiguous, span_layers. intros i d Hi. rewrite map_length, pairs_length in Hi.
  set (F := fun q : R * R => mkLayer (fst q) (snd q) (g (fst q)) (g (snd q))).
  rewrite (nth_indep _ d (F (0, 0))) by (rewrite map_length, pairs_length; lia).
  rewrite (nth_indep _ d (F (0, 0))) by (rewrite map_length, pairs_length; lia).
  rewrite !map_nth. rewrite !pairs_nth by lia. reflexivity.
Qed.
Lemma pairs_grid (L : list (layer R)) G : map lx1 L = removelast G -> map lx2 L = tl G -> map (fun l => (lx1 l, lx2 l)) L = pairs G.
Proof.
  revert G. induction L as [|l L IH]; intros G H1 H2.
  - destruct G as [|x [|y G]]; auto. discriminate.
  - destruct G as [|x [|y G]]; [discriminate|discriminate|]. rewrite pairs_cons2. cbn [map tl] in *.
    change (removelast (x :: y :: G)) with (x :: removelast (y :: G)) in H1. injection H1 as E1 H1. injection H2 as E2 H2.
    rewrite E1, E2. f_equal. apply IH; auto.
Qed.
Lemma sorted_nth G i j : StronglySorted Rlt G -> (i < j < length G)%nat -> at_ G i < at_ G j.
Proof.
  intros S. revert i j. induction S as [|x G S IH F]; intros i j [Hij Hj]; [cbn in Hj; lia|].
  destruct j as [|j]; [lia|]. destruct i as [|i]; cbn in *.
  - rewrite List.Forall_forall in F. apply F, nth_In. lia.
  - apply IH. lia.
Qed.
Lemma draw_profile g al be G z0 z1 : StronglySorted Rlt G -> (2 <= length G)%nat -> at_ G 0 = z0 -> at_ G (length G - 1) = z1 ->
  (forall x, g x = al + be * x) -> depth_profile z0 z1 (draw g G) g.
Proof.
  intros SG L E0 E1 Hg. assert (Ln : length (draw g G) = length G) by (unfold draw; apply map_length).
  split; [|split; [|split; [|split]]].
  - split; [|split; [lia|]]; rewrite draw_px.
    + intros i Hi. apply Rlt_le, sorted_nth; auto; lia.
    + rewrite Ln. apply sorted_nth; auto; lia.
  - intros i j Hij E. rewrite draw_px in E. rewrite Ln in Hij. pose proof (sorted_nth G i j SG ltac:(lia)). lra.
  - rewrite draw_px; auto.
  - rewrite draw_px, Ln; auto.
  - assert (CV : convert_x_y_to_x1_x2_y1_y2 (draw g G) = span_layers g G).
    { rewrite <- span_points by auto. apply layers_roundtrip_aux; [apply span_contiguous| |].
      - intros a Ha. unfold span_layers in Ha. apply in_map_iff in Ha. destruct Ha as ([u w] & <- & Hin). cbn.
        destruct (In_nth _ _ (0, 0) Hin) as (i & Hi & Hn). rewrite pairs_length in Hi. rewrite pairs_nth in Hn by lia. inversion Hn; subst.
        pose proof (sorted_nth G i (S i) SG ltac:(lia)). unfold at_ in *. lra.
      - unfold span_layers. intros C. apply (f_equal (@length _)) in C. rewrite map_length, pairs_length in C. cbn in C. lia. }
    rewrite CV. intros a z Ha Hz. unfold span_layers in Ha. apply in_map_iff in Ha. destruct Ha as ([u w] & <- & _). cbn in *.
    unfold layer_line. cbn. rewrite !Hg. field. lra.
Qed.
Lemma over_layers_ok z0 z1 a f g al be : depth_profile z0 z1 a f -> (forall x, g x = al + be * x) ->
  exists c, over_layers a g = Ok c /\ depth_profile z0 z1 c g /\ forall x, In x (px c) <-> In x (px a).
Proof.
  intros P Hg. destruct (profile_ends _ _ _ _ P) as (I0 & I1 & Hlt). pose proof (profile_range z0 z1 a f) as Rg.
  destruct P as (Ra & Na & E0 & E1 & Da). destruct (layers_grid a Ra) as (G & SG & H1 & H2 & HG).
  assert (L2 : (2 <= length G)%nat).
  { apply HG in I0, I1. destruct G as [|x [|y G]]; [contradiction| |cbn; lia]. destruct I0 as [<-|[]], I1 as [<-|[]]. lra. }
  exists (draw g G). split; [|split].
  - unfold over_layers. pose proof (pairs_grid _ _ H1 H2) as PG.
    assert (E : map (fun l : layer R => mkLayer (lx1 l) (lx2 l) (g (lx1 l)) (g (lx2 l))) (layers a) = span_layers g G).
    { unfold span_layers. rewrite <- PG, map_map. reflexivity. }
    rewrite E. unfold convert_x1_x2_y1_y2_to_x_y. rewrite allclose_contig by apply span_contiguous. cbn [negb].
    destruct (span_layers g G) eqn:ES.
    + apply (f_equal (@length _)) in ES. unfold span_layers in ES. rewrite map_length, pairs_length in ES. cbn in ES. lia.
    + rewrite <- ES, span_points; auto.
  - assert (In (at_ G 0) (px a)) by (apply HG, nth_In; lia). assert (In (at_ G (length G - 1)) (px a)) by (apply HG, nth_In; lia).
    apply (draw_profile g al be); auto.
    + destruct G as [|x G]; [cbn in L2; lia|]. apply Rle_antisym.
      * apply (hd_min G); auto. apply HG; auto.
      * apply (Rg (at_ (x :: G) 0)); auto. repeat split; auto; try apply Ra.
    + apply Rle_antisym; [apply (Rg (at_ G (length G - 1))); auto; repeat split; auto; try apply Ra|].
      assert (NE : G <> []) by (intros ->; cbn in L2; lia). rewrite (last_at G 0 NE). apply last_max; auto. apply HG; auto.
  - intros x. rewrite draw_px. apply HG.
Qed.
Lemma separated_sub ls ls' : well_separated ls -> (forall x, In x (concat (map px ls')) -> In x (concat (map px ls))) -> well_separated ls'.
Proof. intros W H u w Hu Hw. apply W; auto. Qed.

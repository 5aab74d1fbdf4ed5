(** * The merged lines describe the same functions *)
From Coq Require Import Reals List Arith Lia Lra Bool Sorted.
From Verif Require Import Base PiecewiseModel LayersModel SpecPiecewise SpecPiecewiseApi
  PiecewiseProofs PiecewiseProofs2 PiecewiseProofs3 LayersProofs PolyLineModel SpecPolyLine PolyLineProofs2.
Import ListNotations.
Open Scope R_scope.

(** ** Points emitted over a grid, as layers *)
Definition grid_layers (yl yr : R -> R) (G : list R) : list (layer R) :=
  map (fun q => mkLayer (fst q) (snd q) (yr (fst q)) (yl (snd q))) (pairs G).
Definition emits (yl yr : R -> R) (G : list R) : points := flat_map (fun g => emit g (yl g) (yr g)) G.
Definition clean (yl yr : R -> R) (g : R) : Prop := yl g = yr g \/ tol (yr g) < Rabs (yl g - yr g).

Lemma emit_shape yl yr g : clean yl yr g ->
  (emit g (yl g) (yr g) = [(g, yr g)] /\ yl g = yr g) \/ emit g (yl g) (yr g) = [(g, yl g); (g, yr g)].
Proof.
  intros [E|E]; unfold emit.
  - left. split; auto. rewrite E. rewrite (proj2 (Rltb_false _ _)); auto.
    replace (yr g - yr g) with 0 by ring. rewrite Rabs_R0. left; apply tol_pos.
  - right. rewrite (proj2 (Rltb_true _ _)); auto.
Qed.
Lemma emits_head yl yr g G : exists t, emits yl yr (g :: G) = (g, yl g) :: t.
Proof. unfold emits. cbn. unfold emit at 1. destruct (Rltb _ _); cbn; eauto. Qed.

Lemma convert_cons2 (a b : R * R) t : convert_x_y_to_x1_x2_y1_y2 (a :: b :: t) =
  if Reqb (fst a) (fst b) then convert_x_y_to_x1_x2_y1_y2 (b :: t)
  else mkLayer (fst a) (fst b) (snd a) (snd b) :: convert_x_y_to_x1_x2_y1_y2 (b :: t).
Proof. unfold convert_x_y_to_x1_x2_y1_y2. cbn. destruct (Reqb (fst a) (fst b)); reflexivity. Qed.

Lemma convert_emits yl yr G : StronglySorted Rlt G -> (forall g, In g G -> clean yl yr g) ->
  convert_x_y_to_x1_x2_y1_y2 (emits yl yr G) = grid_layers yl yr G.
Proof.
  intros S C. induction G as [|g [|g' G] IH]; auto.
  - assert (E0 : emits yl yr [g] = emit g (yl g) (yr g)) by (unfold emits; cbn [flat_map]; apply app_nil_r). rewrite E0.
    destruct (emit_shape yl yr g) as [[E _]|E]; [apply C; left; auto| |]; rewrite E; [reflexivity|].
    rewrite convert_cons2. cbn [fst snd]. rewrite (proj2 (Reqb_true _ _)) by auto. reflexivity.
  - inversion S as [|? ? S1 F]; subst. assert (Hgg : g < g') by (rewrite Forall_forall in F; apply F; left; auto).
    specialize (IH S1 ltac:(intros; apply C; right; auto)).
    change (emits yl yr (g :: g' :: G)) with (emit g (yl g) (yr g) ++ emits yl yr (g' :: G)).
    change (grid_layers yl yr (g :: g' :: G)) with (mkLayer g g' (yr g) (yl g') :: grid_layers yl yr (g' :: G)).
    destruct (emits_head yl yr g' G) as (t & Et). rewrite Et in *.
    assert (Last : convert_x_y_to_x1_x2_y1_y2 ((g, yr g) :: (g', yl g') :: t) = mkLayer g g' (yr g) (yl g') :: grid_layers yl yr (g' :: G)).
    { rewrite convert_cons2. cbn [fst snd]. rewrite (proj2 (Reqb_false _ _)) by lra. rewrite IH. auto. }
    destruct (emit_shape yl yr g) as [[E _]|E]; [apply C; left; auto| |]; rewrite E; cbn [app]; auto.
    rewrite convert_cons2. cbn [fst snd]. rewrite (proj2 (Reqb_true _ _)) by auto. auto.
Qed.

Lemma pairs_fst {T} (G : list T) : map fst (pairs G) = removelast G.
Proof. induction G as [|a [|b t] IH]; auto. change (a :: map fst (pairs (b :: t)) = a :: removelast (b :: t)). f_equal. exact IH. Qed.
Lemma pairs_snd {T} (G : list T) : map snd (pairs G) = tl G.
Proof. induction G as [|a [|b t] IH]; auto. change (b :: map snd (pairs (b :: t)) = b :: tl (b :: t)). f_equal. exact IH. Qed.
Lemma grid_layers_x yl yr G : map lx1 (grid_layers yl yr G) = removelast G /\ map lx2 (grid_layers yl yr G) = tl G.
Proof. unfold grid_layers. rewrite !map_map. cbn. rewrite pairs_fst, pairs_snd. auto. Qed.
Lemma grid_layers_contiguous yl yr G : contiguous (grid_layers yl yr G).
Proof.
  intros i d Hi. unfold grid_layers in *. rewrite map_length, pairs_length in Hi.
  set (f := fun q : R * R => mkLayer (fst q) (snd q) (yr (fst q)) (yl (snd q))).
  rewrite (nth_indep _ d (f (0, 0))) by (rewrite map_length, pairs_length; lia).
  rewrite (nth_indep (map f (pairs G)) d (f (0, 0))) by (rewrite map_length, pairs_length; lia).
  rewrite !map_nth. rewrite !(pairs_nth G _ 0) by lia. reflexivity.
Qed.
Lemma pairs_sorted G a b : StronglySorted Rlt G -> In (a, b) (pairs G) ->
  a < b /\ In a G /\ In b G /\ forall c, In c G -> c <= a \/ b <= c.
Proof.
  induction G as [|x [|y t] IH]; intros S H; try contradiction.
  inversion S as [|? ? S1 F]; subst. rewrite Forall_forall in F. destruct H as [H|H].
  - inversion H; subst. split; [apply F; left; auto|]. split; [left; auto|]. split; [right; left; auto|].
    intros c [<-|[<-|Hc]]; [lra|lra|]. inversion S1 as [|? ? S2 F2]; subst. rewrite Forall_forall in F2. right. left. auto.
  - destruct (IH S1 H) as (A & B & C & D). split; auto. split; [right; auto|]. split; [right; auto|].
    intros c [<-|Hc]; auto. left. left. apply F. auto.
Qed.
Lemma grid_layers_downward yl yr G : StronglySorted Rlt G -> downward (grid_layers yl yr G).
Proof.
  intros S a Ha. apply in_map_iff in Ha. destruct Ha as ([u v] & <- & H). cbn. apply (pairs_sorted G u v S H).
Qed.
Lemma grid_covers yl yr G a b : StronglySorted Rlt G -> In a G -> In b G -> a < b -> covers (grid_layers yl yr G) a b.
Proof.
  intros S Ha Hb Hab. destruct G as [|g [|g' G]]; [contradiction| |].
  - destruct Ha as [<-|[]], Hb as [<-|[]]. lra.
  - unfold covers. remember (g :: g' :: G) as GG eqn:EG.
    assert (Hlast : exists x y P, GG = P ++ [x; y]).
    { destruct (exists_last (l := GG)) as (P & y & E); [subst; discriminate|].
      destruct (exists_last (l := P)) as (P' & x & E'). { intros ->. subst. destruct G; discriminate. }
      exists x, y, P'. rewrite E, E', <- app_assoc. reflexivity. }
    destruct Hlast as (x & y & P & EP).
    assert (Hpairs : pairs GG = pairs (P ++ [x]) ++ [(x, y)]).
    { rewrite EP. clear. induction P as [|p [|q P] IH]; auto. cbn [app pairs] in *. f_equal. exact IH. }
    exists (mkLayer g g' (yr g) (yl g')), (mkLayer x y (yr x) (yl y)). split; [|split; [|split]].
    + unfold grid_layers. rewrite EG. reflexivity.
    + unfold grid_layers. rewrite Hpairs, map_app, rev_app_distr. reflexivity.
    + cbn. rewrite EG in S, Ha. inversion S as [|? ? S1 F]; subst. rewrite Forall_forall in F. destruct Ha as [<-|Ha]; [lra|left; auto].
    + cbn. rewrite EP in S, Hb. clear - S Hb. induction P as [|p P IH]; cbn in *.
      * inversion S as [|? ? S1 F]; subst. rewrite Forall_forall in F. destruct Hb as [<-|[<-|[]]]; [left; apply F; left; auto|lra].
      * inversion S as [|? ? S1 F]; subst. rewrite Forall_forall in F. destruct Hb as [<-|Hb]; auto.
        left. apply F. apply in_or_app. right. right. left. auto.
Qed.

(** ** One-sided values *)
Lemma at_x_In x p : at_x x p = [] <-> ~ In x (px p).
Proof.
  unfold at_x, px. induction p as [|[a b] t IH]; cbn; [tauto|]. destruct (Reqb a x) eqn:E.
  - apply Reqb_true in E. split; [discriminate|]. intros H. exfalso. apply H. auto.
  - apply Reqb_false in E. rewrite IH. tauto.
Qed.
Lemma px_at p i : at_ (px p) i = fst (nth i p (0, 0)).
Proof. unfold at_, px. change 0 with (fst (0, 0)) at 1. apply map_nth. Qed.
Lemma py_at p i : at_ (py p) i = snd (nth i p (0, 0)).
Proof. unfold at_, py. change 0 with (snd (0, 0)) at 1. apply map_nth. Qed.
Lemma px_length p : length (px p) = length p. Proof. apply map_length. Qed.
Lemma py_length p : length (py p) = length p. Proof. apply map_length. Qed.
Lemma at_x_app x p q : at_x x (p ++ q) = at_x x p ++ at_x x q.
Proof. apply filter_app. Qed.
Lemma skipn_nth {T} (l : list T) i d : (i < length l)%nat -> skipn i l = nth i l d :: skipn (S i) l.
Proof. revert i; induction l as [|a l IH]; intros [|i] H; cbn in *; try lia; auto. apply IH. lia. Qed.
Lemma In_firstn_nth {T} (l : list T) n q d : In q (firstn n l) -> exists j, (j < n)%nat /\ (j < length l)%nat /\ q = nth j l d.
Proof.
  revert n; induction l as [|a l IH]; intros [|n] H; cbn in H; try contradiction. destruct H as [<-|H].
  - exists 0%nat. cbn. repeat split; auto; lia.
  - destruct (IH n H) as (j & A & B & C). exists (S j). cbn. repeat split; auto; lia.
Qed.
Lemma In_skipn_nth {T} (l : list T) n q d : In q (skipn n l) -> exists j, (n <= j)%nat /\ (j < length l)%nat /\ q = nth j l d.
Proof.
  revert n; induction l as [|a l IH]; intros n H; [destruct n; contradiction|]. destruct n as [|n].
  - cbn [skipn] in H. apply (In_nth _ _ d) in H. destruct H as (j & A & B). exists j. repeat split; auto; lia.
  - cbn in H. destruct (IH n H) as (j & A & B & C). exists (S j). cbn. repeat split; auto; lia.
Qed.
Lemma last_app_single {T} (t : list T) a d : last (t ++ [a]) d = a.
Proof. apply last_last. Qed.

Lemma vleft_vertex p i : nondecr (px p) -> (i < length p)%nat -> (i = 0%nat \/ at_ (px p) (i - 1) < at_ (px p) i) ->
  vleft p (at_ (px p) i) = at_ (py p) i.
Proof.
  intros Hn Hi H. unfold vleft.
  assert (Es : at_x (at_ (px p) i) p = at_x (at_ (px p) i) (firstn i p) ++ at_x (at_ (px p) i) (skipn i p)).
  { rewrite <- at_x_app, firstn_skipn. auto. }
  rewrite Es.
  replace (at_x (at_ (px p) i) (firstn i p)) with (@nil (R * R)).
  - rewrite (skipn_nth p i (0, 0)) by auto. cbn [app]. unfold at_x. cbn [filter]. rewrite <- px_at.
    rewrite (proj2 (Reqb_true _ _)) by auto. symmetry. apply py_at.
  - symmetry. apply at_x_In. intros C. unfold px in C. apply in_map_iff in C. destruct C as (q & E & Hq). fold (px p) in E.
    apply (In_firstn_nth p i q (0, 0)) in Hq. destruct Hq as (j & Hj & Hl & ->). rewrite <- px_at in E.
    destruct H as [->|H]; [lia|].
    assert (at_ (px p) j <= at_ (px p) (i - 1)) by (apply nondecr_le; auto; [lia|rewrite px_length; lia]). lra.
Qed.
Lemma vright_vertex p i : nondecr (px p) -> (i < length p)%nat -> (S i = length p \/ at_ (px p) i < at_ (px p) (S i)) ->
  vright p (at_ (px p) i) = at_ (py p) i.
Proof.
  intros Hn Hi H. unfold vright.
  assert (E : at_x (at_ (px p) i) p = at_x (at_ (px p) i) (firstn i p) ++ [nth i p (0, 0)]).
  { assert (Es : at_x (at_ (px p) i) p = at_x (at_ (px p) i) (firstn i p) ++ at_x (at_ (px p) i) (skipn i p)).
    { rewrite <- at_x_app, firstn_skipn. auto. }
    rewrite Es. f_equal. rewrite (skipn_nth p i (0, 0)) by auto.
    unfold at_x at 1. cbn [filter]. rewrite <- px_at. rewrite (proj2 (Reqb_true _ _)) by auto. f_equal.
    apply at_x_In. intros C. unfold px in C. apply in_map_iff in C. destruct C as (q & E & Hq). fold (px p) in E.
    apply (In_skipn_nth p (S i) q (0, 0)) in Hq. destruct Hq as (j & Hj & Hl & ->). rewrite <- px_at in E.
    destruct H as [H|H]; [lia|].
    assert (at_ (px p) (S i) <= at_ (px p) j) by (apply nondecr_le; auto; rewrite px_length; lia). lra. }
  rewrite E. destruct (at_x (at_ (px p) i) (firstn i p)) as [|q t]; cbn [app].
  - symmetry. apply py_at.
  - rewrite last_app_single. symmetry. apply py_at.
Qed.
Lemma vleft_between p x v : ~ In x (px p) -> interp1 (px p) (py p) false x = Ok v -> vleft p x = v /\ vright p x = v.
Proof. intros H E. apply at_x_In in H. unfold vleft, vright. rewrite H, E. auto. Qed.

Lemma find_segment (x : list R) g : (2 <= length x)%nat -> nondecr x -> at_ x 0 <= g < at_ x (length x - 1) ->
  exists i, (S i < length x)%nat /\ at_ x i <= g < at_ x (S i).
Proof.
  intros Hl Hn Hg.
  assert (G : forall n, (n < length x)%nat -> g < at_ x n -> exists i, (S i <= n)%nat /\ at_ x i <= g < at_ x (S i)).
  { induction n as [|n IH]; intros Hlt Hgn; [lra|]. destruct (Rle_or_lt (at_ x n) g) as [H|H].
    - exists n. split; [lia|lra].
    - destruct (IH ltac:(lia) H) as (i & A & B). exists i. split; [lia|auto]. }
  destruct (G (length x - 1)%nat) as (i & A & B); [lia|lra|]. exists i. split; [lia|auto].
Qed.

(** On a gap of the grid the line is affine, with the emitted end values. *)
Lemma affine_on_gap p g g' : rightward p -> g < g' -> (forall c, In c (px p) -> c <= g \/ g' <= c) ->
  exists al be, (forall cm v, g < v < g' -> interp1 (px p) (py p) cm v = Ok (al + be * v)) /\
    vright p g = al + be * g /\ vleft p g' = al + be * g'.
Proof.
  intros (Hn & Hl & Hw) Hg Hv.
  assert (Hxy : length (px p) = length (py p)) by (rewrite px_length, py_length; auto).
  assert (Hne : px p <> []). { intros C. unfold px in C. apply map_eq_nil in C. subst p. cbn in Hl. lia. }
  assert (Hlx : (2 <= length (px p))%nat) by (rewrite px_length; auto).
  rewrite <- (px_length p) in Hw.
  assert (Hin : forall i, (i < length (px p))%nat -> In (at_ (px p) i) (px p)) by (intros; apply nth_In; auto).
  destruct (Hv (at_ (px p) 0)) as [H0|H0]; [apply Hin; lia| |].
  - destruct (Hv (at_ (px p) (length (px p) - 1))) as [H1|H1]; [apply Hin; lia| |].
    + (* to the right of the line *)
      exists (at_ (py p) (length (py p) - 1)), 0. split; [|split].
      * intros cm v Hvv. rewrite interp1_right; auto; [f_equal; ring|lra].
      * destruct (Req_EM_T g (at_ (px p) (length (px p) - 1))) as [E|E].
        -- rewrite E. rewrite vright_vertex; auto; rewrite <- ?Hxy, ?px_length in *; [ring|lia|left; lia].
        -- rewrite (proj2 (vleft_between p g (at_ (py p) (length (py p) - 1)) ltac:(intros C; apply (In_nth _ _ 0) in C; destruct C as (j & Hj & Ej);
             assert (at_ (px p) j <= at_ (px p) (length (px p) - 1)) by (apply nondecr_le; auto; lia); unfold at_ in *; lra) ltac:(apply interp1_right; auto; lra))). ring.
      * rewrite (proj1 (vleft_between p g' (at_ (py p) (length (py p) - 1)) ltac:(intros C; apply (In_nth _ _ 0) in C; destruct C as (j & Hj & Ej);
             assert (at_ (px p) j <= at_ (px p) (length (px p) - 1)) by (apply nondecr_le; auto; lia); unfold at_ in *; lra) ltac:(apply interp1_right; auto; lra))). ring.
    + (* inside *)
      destruct (find_segment (px p) g) as (i & Hi & Hgi); auto; [lra|].
      assert (Hi' : g' <= at_ (px p) (S i)). { destruct (Hv (at_ (px p) (S i))) as [C|C]; [apply Hin; auto|lra|auto]. }
      set (x := px p) in *. set (y := py p) in *.
      exists (at_ y i - at_ x i * (at_ y (S i) - at_ y i) / (at_ x (S i) - at_ x i)), ((at_ y (S i) - at_ y i) / (at_ x (S i) - at_ x i)).
      assert (Ch : forall v, chord x y i v = at_ y i - at_ x i * (at_ y (S i) - at_ y i) / (at_ x (S i) - at_ x i) + (at_ y (S i) - at_ y i) / (at_ x (S i) - at_ x i) * v).
      { intros v. unfold chord. field. lra. }
      assert (Hno : forall c, at_ x i < c < at_ x (S i) -> ~ In c x).
      { intros c Hc C. apply (In_nth _ _ 0) in C. destruct C as (j & Hj & Ej). change (nth j x 0) with (at_ x j) in Ej.
        destruct (Nat.le_gt_cases j i) as [L|L].
        - assert (at_ x j <= at_ x i) by (apply nondecr_le; auto; lia). lra.
        - assert (at_ x (S i) <= at_ x j) by (apply nondecr_le; auto; lia). lra. }
      split; [|split].
      * intros cm v Hvv. rewrite <- Ch. apply interp1_inside; auto. lra.
      * rewrite <- Ch. destruct (Req_EM_T g (at_ x i)) as [E|E].
        -- rewrite E at 1. unfold x in E |- *. rewrite vright_vertex; auto; [|rewrite <- px_length; fold x; lia|right; unfold x in *; lra].
           fold x y. rewrite E. fold x. rewrite chord_left. auto.
        -- apply (vleft_between p g); [apply Hno; lra|apply interp1_inside; auto; lra].
      * rewrite <- Ch. destruct (Req_EM_T g' (at_ x (S i))) as [E|E].
        -- rewrite E at 1. unfold x in E |- *. rewrite vleft_vertex; auto; [|rewrite <- px_length; fold x; lia|right; replace (S i - 1)%nat with i by lia; unfold x in *; lra].
           fold x y. rewrite E. fold x. rewrite chord_right; auto. lra.
        -- apply (vleft_between p g'); [apply Hno; lra|apply interp1_inside; auto; lra].
  - (* to the left *)
    exists (at_ (py p) 0), 0. split; [|split].
    + intros cm v Hvv. rewrite interp1_left; auto; [f_equal; ring|lra].
    + rewrite (proj2 (vleft_between p g (at_ (py p) 0) ltac:(intros C; apply (In_nth _ _ 0) in C; destruct C as (j & Hj & Ej);
             assert (at_ (px p) 0 <= at_ (px p) j) by (apply nondecr_le; auto; lia); unfold at_ in *; lra) ltac:(apply interp1_left; auto; lra))). ring.
    + destruct (Req_EM_T g' (at_ (px p) 0)) as [E|E].
      * rewrite E. rewrite vleft_vertex; auto; [ring|lia].
      * rewrite (proj1 (vleft_between p g' (at_ (py p) 0) ltac:(intros C; apply (In_nth _ _ 0) in C; destruct C as (j & Hj & Ej);
             assert (at_ (px p) 0 <= at_ (px p) j) by (apply nondecr_le; auto; lia); unfold at_ in *; lra) ltac:(apply interp1_left; auto; lra))). ring.
Qed.

(** Values of a line at t through interp_x_y. *)
Lemma value_interp p f : rightward p -> value_of p f -> exists cm, forall t, interp1 (px p) (py p) cm t = Ok (f t).
Proof.
  intros _ (cm & H). exists cm. intros t. specialize (H t). unfold interp_x_y in H. rewrite px_length, py_length, Nat.eqb_refl in H. cbn in H.
  destruct (interp1 (px p) (py p) cm t) as [v|]; cbn in H; [|discriminate]. congruence.
Qed.

(** The grid layers of a combination op of lines describe op of the functions. *)
Lemma grid_described (op : R -> R -> R) (A : forall a b c d v, op (a + b * v) (c + d * v) = op a c + op b d * v)
  p q f g G : rightward p -> rightward q -> value_of p f -> value_of q g -> StronglySorted Rlt G ->
  (forall c, In c (px p) \/ In c (px q) -> In c G) ->
  described_by (grid_layers (fun x => op (vleft p x) (vleft q x)) (fun x => op (vright p x) (vright q x)) G) (fun t => op (f t) (g t)).
Proof.
  intros Rp Rq Vp Vq S HG a t Ha Ht. apply in_map_iff in Ha. destruct Ha as ([u w] & <- & H). cbn [fst snd lx1 lx2] in *.
  destruct (pairs_sorted G u w S H) as (Huw & _ & _ & Hno).
  destruct (value_interp p f Rp Vp) as (cp & Fp). destruct (value_interp q g Rq Vq) as (cq & Fq).
  destruct (affine_on_gap p u w Rp Huw) as (a1 & b1 & A1 & A2 & A3); [intros; apply Hno; auto|].
  destruct (affine_on_gap q u w Rq Huw) as (a2 & b2 & B1 & B2 & B3); [intros; apply Hno; auto|].
  specialize (A1 cp t Ht). rewrite Fp in A1. specialize (B1 cq t Ht). rewrite Fq in B1.
  assert (Ef : f t = a1 + b1 * t) by congruence. assert (Eg : g t = a2 + b2 * t) by congruence.
  unfold layer_line. cbn. rewrite A2, A3, B2, B3, Ef, Eg, !A. field. lra.
Qed.
Lemma grid_described1 p f G : rightward p -> value_of p f -> StronglySorted Rlt G ->
  (forall c, In c (px p) -> In c G) -> described_by (grid_layers (vleft p) (vright p) G) f.
Proof.
  intros Rp Vp S HG. apply (grid_described (fun a _ => a) ltac:(intros; reflexivity) p p f f G); auto. intros c [H|H]; auto.
Qed.

(** Steps of a line are clean when noticeable. *)
Lemma clean_line p : rightward p -> noticeable_steps p -> forall x, clean (vleft p) (vright p) x.
Proof.
  intros (Hn & Hl & _) N x. unfold clean, vleft, vright. destruct (at_x x p) as [|q t] eqn:E; auto.
  destruct t as [|r t]; [left; auto|].
  (* q and the last are two members of p at x *)
  assert (G : forall (p : points) q m z, at_x x p = q :: m ++ [z] -> exists i j, (i < j < length p)%nat /\ nth i p (0,0) = q /\ nth j p (0,0) = z /\ fst q = x /\ fst z = x).
  { clear. induction p as [|a p IH]; intros q m z E; [discriminate|]. unfold at_x in E. cbn in E. destruct (Reqb (fst a) x) eqn:Ea.
    - inversion E; subst. apply Reqb_true in Ea.
      assert (Hz : In z (at_x x p)). { unfold at_x. rewrite H1. apply in_or_app. right. left. auto. }
      apply filter_In in Hz. destruct Hz as [Hz Hz2]. apply Reqb_true in Hz2. apply (In_nth _ _ (0,0)) in Hz. destruct Hz as (j & Hj & Ej).
      exists 0%nat, (S j). cbn. repeat split; auto; lia.
    - destruct (IH q m z E) as (i & j & A & B). exists (S i), (S j). cbn. split; [lia|auto]. }
  destruct (exists_last (l := r :: t)) as (m & z & Em); [discriminate|]. rewrite Em in E. rewrite Em, last_app_single.
  destruct (G p q m z E) as (i & j & Hij & Ei & Ej & F1 & F2).
  destruct (N i j Hij) as [C|C].
  - rewrite !px_at, Ei, Ej. congruence.
  - left. rewrite !py_at, Ei, Ej in C. auto.
  - right. rewrite !py_at, Ei, Ej in C. exact C.
Qed.

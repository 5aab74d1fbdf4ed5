(** * Property theorems: PolyLine (C19-C22, C68-C71) *)
From Coq Require Import Reals List Arith Lia Lra Bool Sorted.
From Coquelicot Require Import Coquelicot.
From Verif Require Import Base PiecewiseModel LayersModel SpecPiecewise SpecPiecewiseApi
  PiecewiseProofs PiecewiseProofs2 LayersProofs PolyLineModel SpecPolyLine SpecSuper PolyLineProofs PolyLineProofs2 PolyLineProofs3
  PolyLineProofs4 PolyLineProofs5 PolyLineProofs6 PolyLineProofs7.
Import ListNotations.
Open Scope R_scope.

(** Reading p through the API. *)
Definition reads_xy (h : heap) (p : nat) (pts : points) : Prop := snd (exec (ReadXY p) h) = Ok (VPoints pts).
Definition reads_layers (h : heap) (p : nat) (l : list (layer R)) : Prop := snd (exec (ReadLayers p) h) = Ok (VLayers l).
Lemma reads_xy_obs h p pts : wf h -> reads_xy h p pts <-> obs_xy h p = Ok pts.
Proof.
  intros W. unfold reads_xy. rewrite exec_ReadXY by auto. destruct (obs_xy h p); cbn; split; intros H; congruence.
Qed.
Lemma reads_layers_obs h p l : wf h -> reads_layers h p l <-> obs_lay h p = Ok l.
Proof.
  intros W. unfold reads_layers. rewrite exec_ReadLayers by auto. destruct (obs_lay h p); cbn; split; intros H; congruence.
Qed.
Lemma wf_history ops : wf (run ops empty_heap). Proof. apply wf_run, wf_empty. Qed.
Lemma run_app ops1 ops2 h : run (ops1 ++ ops2) h = run ops2 (run ops1 h). Proof. apply fold_left_app. Qed.

(** C19: after any history, constructing, reading, multiplying, dividing, adding or subtracting
    lines and comparing leave every existing line's points and layers as they were. *)
Theorem C19_operands_unchanged : forall (history more : list op) (p : nat) (pts : points) (l : list (layer R)),
  List.Forall not_shift more -> let h := run history empty_heap in
  (reads_xy h p pts -> reads_xy (run more h) p pts) /\
  (reads_layers h p l -> reads_layers (run more h) p l).
Proof.
  intros history more p pts l N h. assert (W : wf h) by apply wf_history. assert (W' : wf (run more h)) by (apply wf_run; auto).
  destruct (frame_run more h W N) as (_ & _ & S).
  rewrite !reads_xy_obs, !reads_layers_obs by auto. split; intros H.
  - destruct (S p) as [-> _]; auto. eapply get_obj_range; eauto.
  - assert (Hp : (p < length (objs h))%nat). { unfold obs_lay in H. destruct (get (objs h) p) eqn:E; [|discriminate]. eapply get_range; eauto. }
    destruct (S p Hp) as [_ ->]; auto.
Qed.
Print Assumptions C19_operands_unchanged.

(** C19: what multiplication, division and p + c, p - c, c - p return, after any history. *)
Theorem C19_results : forall (history : list op) (p : nat) (pts : points) (c : R),
  let h := run history empty_heap in reads_xy h p pts -> (2 <= length pts)%nat ->
  let returns (o : op) (f : R -> R) := exists h' n, exec o h = (h', Ok (VRef n)) /\ (length (objs h) <= n)%nat /\
      reads_xy h' n (map (fun q => (fst q, f (snd q))) pts) in
  returns (MulC p c) (fun y => y * c) /\ returns (DivC p c) (fun y => y / c) /\ returns (RdivC p c) (fun y => c / y) /\
  returns (AddC p c) (fun y => y + c) /\ returns (SubC p c) (fun y => y - c) /\ returns (RsubC p c) (fun y => c - y).
Proof.
  intros history p pts c h Hr L. assert (W : wf h) by apply wf_history. apply (reads_xy_obs _ _ _ W) in Hr. cbv zeta.
  repeat apply conj.
  1-3: match goal with |- context [exec ?o] => destruct (map_y_spec (match o with MulC _ _ => fun y => y * c | DivC _ _ => fun y => y / c | _ => fun y => c / y end) p h pts W Hr L) as (h' & n & A & B & C & D) end;
       exists h', n; cbn [exec]; unfold vmap, mbind; cbn [exec] in *; rewrite A; split; [reflexivity|]; split; auto; apply reads_xy_obs; auto.
  1-2: match goal with |- context [exec ?o] => destruct (add_scalar_spec (match o with AddC _ _ => Rplus | _ => Rminus end) p c h pts W Hr L) as (h' & n & A & B & C & _ & D & _) end;
       exists h', n; cbn [exec]; unfold vmap, mbind; cbn [exec] in *; rewrite A; split; [reflexivity|]; split; auto; apply reads_xy_obs; auto.
  destruct (rsub_scalar_spec p c h pts W Hr L) as (h' & n & A & B & C & D & _). exists h', n. cbn [exec]. unfold vmap, mbind at 1. rewrite A.
  split; [reflexivity|]; split; auto; apply reads_xy_obs; auto.
Qed.
Print Assumptions C19_results.

(** C19 limit: p + c, p - c and c - p overwrite p: afterwards p reads as the shifted line. *)
Theorem C19_shift_overwrites : forall (history : list op) (p : nat) (pts : points) (c : R),
  let h := run history empty_heap in reads_xy h p pts -> (2 <= length pts)%nat ->
  reads_xy (fst (exec (AddC p c) h)) p (map (fun q => (fst q, snd q + c)) pts) /\
  reads_xy (fst (exec (SubC p c) h)) p (map (fun q => (fst q, snd q - c)) pts) /\
  reads_xy (fst (exec (RsubC p c) h)) p (map (fun q => (fst q, snd q - c)) pts).
Proof.
  intros history p pts c h Hr L. assert (W : wf h) by apply wf_history. apply (reads_xy_obs _ _ _ W) in Hr.
  split; [|split].
  - destruct (add_scalar_spec Rplus p c h pts W Hr L) as (h' & n & A & B & C & _ & D & D2 & _).
    cbn [exec]. unfold vmap, mbind. rewrite A. cbn [fst]. apply reads_xy_obs; auto.
  - destruct (add_scalar_spec Rminus p c h pts W Hr L) as (h' & n & A & B & C & _ & D & D2 & _).
    cbn [exec]. unfold vmap, mbind. rewrite A. cbn [fst]. apply reads_xy_obs; auto.
  - destruct (rsub_scalar_spec p c h pts W Hr L) as (h' & n & A & B & C & D & D2).
    cbn [exec]. unfold vmap, mbind at 1. rewrite A. cbn [fst ret]. apply reads_xy_obs; auto.
Qed.
Print Assumptions C19_shift_overwrites.
(** C19 limit: hence "p + c leaves p alone" is false. *)
Theorem C19_shift_refuted : ~ (forall (history : list op) p c pts, let h := run history empty_heap in
  reads_xy h p pts -> reads_xy (fst (exec (AddC p c) h)) p pts).
Proof.
  intros H. specialize (H [New2 [(0, 0); (1, 1)]] 0%nat 1 [(0, 0); (1, 1)] eq_refl).
  destruct (C19_shift_overwrites [New2 [(0, 0); (1, 1)]] 0%nat [(0, 0); (1, 1)] 1 eq_refl ltac:(cbn; lia)) as [A _].
  unfold reads_xy in H, A. rewrite A in H. inversion H. lra.
Qed.
Print Assumptions C19_shift_refuted.
Example C19_witness : let h := run [New2 [(0, 0); (1, 1)]; New4 [mkLayer 0 1 2 3; mkLayer 1 2 5 5]; ReadXY 1] empty_heap in
  reads_xy h 1 [(0, 2); (1, 3); (1, 5); (2, 5)] /\ reads_xy (run [MulC 1 2; AddP 0 1; EqP 0 1; ReadLayers 0] h) 1 [(0, 2); (1, 3); (1, 5); (2, 5)].
Proof.
  assert (A : reads_xy (run [New2 [(0, 0); (1, 1)]; New4 [mkLayer 0 1 2 3; mkLayer 1 2 5 5]; ReadXY 1] empty_heap) 1 [(0, 2); (1, 3); (1, 5); (2, 5)]).
  { apply (proj1 (C19_operands_unchanged [New2 [(0, 0); (1, 1)]; New4 [mkLayer 0 1 2 3; mkLayer 1 2 5 5]] [ReadXY 1] 1%nat
      [(0, 2); (1, 3); (1, 5); (2, 5)] [] ltac:(repeat constructor))).
    apply reads_xy_obs; [apply wf_history|]. unfold obs_xy. cbn. unfold convert_x1_x2_y1_y2_to_x_y, allclose, isclose. cbn.
      rewrite !nabs_R. replace (1 - 1) with 0 by ring. rewrite Rabs_R0. unfold atol_default, rtol_default. cbn.
      rewrite (proj2 (Rleb_true _ _)). 2:{ rewrite Rabs_R1. lra. }
      cbn. unfold Reqb. destruct (Req_EM_T 3 5); [lra|]. reflexivity. }
  split; auto. apply (proj1 (C19_operands_unchanged [New2 [(0, 0); (1, 1)]; New4 [mkLayer 0 1 2 3; mkLayer 1 2 5 5]; ReadXY 1]
    [MulC 1 2; AddP 0 1; EqP 0 1; ReadLayers 0] 1%nat [(0, 2); (1, 3); (1, 5); (2, 5)] [] ltac:(repeat constructor))). auto.
Qed.

(** C20: after any history without p + c, p - c, c - p, every line's layers are those of its
    points, and both describe the same function. *)
Lemma points_described p f : rightward p -> value_of p f ->
  contiguous (convert_x_y_to_x1_x2_y1_y2 p) /\ downward (convert_x_y_to_x1_x2_y1_y2 p) /\ described_by (convert_x_y_to_x1_x2_y1_y2 p) f.
Proof.
  intros Rp Vf. pose proof Rp as (Hn & Hl & _).
  assert (IN : forall a, In a (convert_x_y_to_x1_x2_y1_y2 p) -> exists i, (S i < length p)%nat /\
     lx1 a = at_ (px p) i /\ lx2 a = at_ (px p) (S i) /\ ly1 a = at_ (py p) i /\ ly2 a = at_ (py p) (S i) /\ at_ (px p) i < at_ (px p) (S i)).
  { intros a Ha. unfold convert_x_y_to_x1_x2_y1_y2 in Ha. apply in_map_iff in Ha. destruct Ha as (q & <- & Hq).
    apply filter_In in Hq. destruct Hq as [Hq Hne]. apply (In_nth _ _ ((0, 0), (0, 0))) in Hq. destruct Hq as (i & Hi & Eq).
    rewrite pairs_length in Hi. rewrite pairs_nth in Eq by lia. subst q. cbn in *. exists i. rewrite !px_at, !py_at.
    rewrite negb_true_iff in Hne. apply Reqb_false in Hne. specialize (Hn i). rewrite px_length, !px_at in Hn. specialize (Hn ltac:(lia)).
    repeat split; auto; lia || lra. }
  split; [|split].
  - clear - Hn. induction p as [|[x y] [|[x' y'] p] IH]; [intros i d Hi; cbn in Hi; lia|intros i d Hi; cbn in Hi; lia|].
    specialize (IH ltac:(apply (nondecr_tl x); auto)). rewrite convert_cons2. cbn [fst snd].
    destruct (Reqb x x') eqn:E; auto. intros i d Hi.
    destruct i as [|i]; [|apply (IH i d); cbn [length] in Hi; lia]. cbn [nth].
    clear - Hi Hn. revert x' y' Hn Hi. induction p as [|[x2 y2] p IH]; intros x' y' Hn Hi; [cbn in Hi; lia|].
    rewrite convert_cons2 in Hi |- *. cbn [fst snd] in *. destruct (Reqb x' x2) eqn:E.
    + apply Reqb_true in E. subst x2. cbn [lx2]. specialize (IH x' y2). cbn [lx2] in IH. apply IH; auto.
      intros j Hj. cbn in Hj |- *. destruct j as [|j]; [apply (Hn 0%nat); cbn; lia|]. apply (Hn (S (S j))). cbn. lia.
    + reflexivity.
  - intros a Ha. destruct (IN a Ha) as (i & _ & -> & -> & _ & _ & H). auto.
  - intros a t Ha Ht. destruct (IN a Ha) as (i & Hi & E1 & E2 & E3 & E4 & H). rewrite E1, E2 in Ht.
    destruct (value_interp p f Rp Vf) as (cm & V). specialize (V t). rewrite (interp1_inside _ _ cm t i) in V.
    + unfold layer_line. rewrite E1, E2, E3, E4. inversion V. unfold chord. field. lra.
    + rewrite px_length, py_length. auto.
    + auto.
    + rewrite px_length. auto.
    + auto.
Qed.
Theorem C20_representations_agree : forall (history : list op) (p : nat),
  List.Forall not_shift history -> List.Forall proper_layers history ->
  let h := run history empty_heap in (p < length (objs h))%nat ->
  exists pts l, reads_xy h p pts /\ reads_layers h p l /\ l = convert_x_y_to_x1_x2_y1_y2 pts /\
    (forall f, rightward pts -> value_of pts f -> contiguous l /\ downward l /\ described_by l f).
Proof.
  intros history p N P h Hp. assert (W : wf h) by apply wf_history.
  destruct (coherent_run history N P p Hp) as (pts & A & B). exists pts, (convert_x_y_to_x1_x2_y1_y2 pts).
  rewrite reads_xy_obs, reads_layers_obs by auto. repeat apply conj; auto. intros. apply points_described; auto.
Qed.
Print Assumptions C20_representations_agree.
(** C20 limit: after the layers have been read, p + c leaves p's layers stale. *)
Theorem C20_stale_layers_refuted : ~ (forall (history : list op) (p : nat), List.Forall proper_layers history ->
  let h := run history empty_heap in (p < length (objs h))%nat ->
  exists pts, reads_xy h p pts /\ reads_layers h p (convert_x_y_to_x1_x2_y1_y2 pts)).
Proof.
  intros H. set (pts := [(0, 0); (1, 1)]).
  destruct (H [New2 pts; ReadLayers 0; AddC 0 1] 0%nat) as (q & A & B); [repeat constructor|cbn; lia|].
  assert (W : wf (run [New2 pts; ReadLayers 0; AddC 0 1] empty_heap)) by apply wf_history.
  apply (reads_xy_obs _ _ _ W) in A. apply (reads_layers_obs _ _ _ W) in B.
  unfold obs_xy in A. cbn in A. inversion A; subst q. unfold obs_lay in B. cbn in B.
  unfold convert_x_y_to_x1_x2_y1_y2 in B. cbn in B. unfold Reqb in B. destruct (Req_EM_T 0 1); [lra|]. cbn in B. inversion B. lra.
Qed.
Print Assumptions C20_stale_layers_refuted.

(** C21: equality of lines is: same number of points and every coordinate within
    1e-5 + 1e-8 |right-hand coordinate|; so reflexive. *)
Theorem C21_equality : forall (history : list op) (p q : nat) (a b : points),
  let h := run history empty_heap in reads_xy h p a -> reads_xy h q b ->
  exists h' v, exec (EqP p q) h = (h', Ok (VBool v)) /\
  (v = true <-> length a = length b /\ forall i, (i < length a)%nat ->
     let close u w := Rabs (u - w) <= / 100000 + / 100000000 * Rabs w in
     close (fst (nth i a (0, 0))) (fst (nth i b (0, 0))) /\ close (snd (nth i a (0, 0))) (snd (nth i b (0, 0)))) /\
  (a = b -> v = true).
Proof.
  intros history p q a b h Ha Hb. assert (W : wf h) by apply wf_history.
  apply (reads_xy_obs _ _ _ W) in Ha. apply (reads_xy_obs _ _ _ W) in Hb.
  destruct (read_points_ok p h a W Ha) as (h1 & Er1 & W1 & L1 & _ & S1).
  assert (Eb1 : obs_xy h1 q = Ok b). { destruct (S1 q) as [X _]; [eapply get_obj_range; eauto|congruence]. }
  destruct (read_points_ok q h1 b W1 Eb1) as (h2 & Er2 & W2 & L2 & _).
  exists h2, (eq_points a b). split; [|split; [apply eq_points_iff|]].
  - cbn [exec]. unfold eq_lines, vmap, mbind. rewrite Er1, Er2. reflexivity.
  - intros <-. apply eq_points_iff. split; auto. intros i _. split.
    + rewrite Rminus_eq_0, Rabs_R0. pose proof (Rabs_pos (fst (nth i a (0, 0)))). lra.
    + rewrite Rminus_eq_0, Rabs_R0. pose proof (Rabs_pos (snd (nth i a (0, 0)))). lra.
Qed.
Print Assumptions C21_equality.
(** C21 limit: p == q does not imply q == p. *)
Theorem C21_symmetry_refuted : exists a b, eq_points a b = true /\ eq_points b a = false.
Proof.
  exists [(0, 0); (1, 0)], [(0, 1000 / 99999999); (1, 0)]. split.
  - apply eq_points_iff. split; auto. cbn. intros [|[|i]] Hi; [| |lia]; cbn.
    + split; [rewrite Rminus_eq_0, !Rabs_R0; lra|]. replace (0 - 1000 / 99999999) with (- (1000 / 99999999)) by ring. rewrite Rabs_Ropp, Rabs_pos_eq by lra. lra.
    + rewrite !Rminus_eq_0, !Rabs_R0, Rabs_R1. lra.
  - destruct (eq_points _ _) eqn:E; auto. apply eq_points_iff in E. destruct E as [_ E]. specialize (E 0%nat ltac:(cbn; lia)). cbn in E.
    destruct E as [_ E]. rewrite Rminus_0_r, Rabs_R0, Rabs_pos_eq in E by lra. lra.
Qed.
Print Assumptions C21_symmetry_refuted.

(** C22: superposition. *)
Theorem C22_superposition : forall (a b : arg points) om (lds : list load) (ms : list meaning) c c' fc xai xbi xbj choose_max,
  listify a = map ld_a lds -> listify b = map ld_b lds ->
  (om = OmNone /\ (forall ld, In ld lds -> ld_om ld = None) \/ om = OmList (map ld_om lds)) ->
  Forall2 (load_means choose_max c' xbi xbj) lds ms -> drawn_rightward c c' -> noticeable_steps c' -> value_of c' fc ->
  exists M, cos_super a b c xai xbi xbj om choose_max = Ok M /\ length M = length xbi /\ (forall row, In row M -> length row = length xai) /\
   forall i j, (i < length xbi)%nat -> (j < length xai)%nat ->
    nth j (nth i M []) 0 = load_sum lds ms fc (nth j xai 0) (nth i xbi 0) (nth i xbj 0).
Proof.
  intros. edestruct cos_super_spec as (M & A & [B1 B2] & C); eauto. 
Qed.
Print Assumptions C22_superposition.
Theorem C22_superposition_plain : forall (a b : arg points) (lds : list load) (ms : list meaning) c c' fc xai xbi xbj choose_max,
  listify a = map ld_a lds -> listify b = map ld_b lds -> (forall ld, In ld lds -> ld_om ld = None) ->
  Forall2 (load_means choose_max c' xbi xbj) lds ms -> drawn_rightward c c' -> noticeable_steps c' -> value_of c' fc ->
  exists M, plain_super a b c xai xbi xbj choose_max = Ok M /\ length M = length xbi /\ (forall row, In row M -> length row = length xai) /\
   forall i j, (i < length xbi)%nat -> (j < length xai)%nat ->
    nth j (nth i M []) 0 = load_sum lds ms fc (nth j xai 0) (nth i xbi 0) (nth i xbj 0).
Proof.
  intros. edestruct plain_super_spec as (M & A & [B1 B2] & C); eauto. 
Qed.
Print Assumptions C22_superposition_plain.
Theorem C22_lengths : forall (a b : arg points) c xai xbi xbj l choose_max,
  length (listify a) <> length (listify b) \/ length (listify a) <> length l ->
  cos_super a b c xai xbi xbj (OmList l) choose_max = Err ValueError /\
  (length (listify a) <> length (listify b) -> plain_super a b c xai xbi xbj choose_max = Err ValueError).
Proof.
  intros. unfold cos_super, plain_super. cbn [om_items]. rewrite map_length.
  destruct (Nat.eqb (length (listify a)) (length (listify b))) eqn:E; cbn [negb].
  - apply Nat.eqb_eq in E. destruct H as [H|H]; [contradiction|]. apply Nat.eqb_neq in H. rewrite H. cbn. split; auto. contradiction.
  - split; auto.
Qed.
Print Assumptions C22_lengths.
(** C22 limit: a single (omega, phase) tuple for a single load is refused. *)
Theorem C22_single_tuple_refuted : forall a b c xai xbi xbj omega phase choose_max,
  cos_super (One a) (One b) c xai xbi xbj (OmTuple omega phase) choose_max = Err ValueError.
Proof. reflexivity. Qed.
Print Assumptions C22_single_tuple_refuted.

(** C68: remove_superfluous_from_x_y keeps the end points, keeps the order, and every point it
    drops is within atol of the straight line through the kept neighbours (or those coincide). *)
Theorem C68_remove_superfluous : forall atol p, 0 <= atol -> (2 <= length p)%nat ->
  exists ks, StronglySorted lt ks /\ hd_error ks = Some 0%nat /\ last ks 0%nat = (length p - 1)%nat /\
    remove_superfluous_from_x_y atol p = map (fun k => nth k p (0, 0)) ks /\
    (forall k, In k ks -> (k < length p)%nat) /\
    forall a b k, In (a, b) (pairs ks) -> (a < k < b)%nat -> on_chord atol p a b k.
Proof. exact remove_superfluous_spec. Qed.
Print Assumptions C68_remove_superfluous.

(** C69: polyline_make_x_common: same functions, common abscissas. *)
Theorem C69_make_x_common : forall ls os fs, Forall2 drawn_rightward ls os -> Forall2 value_of os fs -> (2 <= length ls)%nat ->
  well_separated os -> List.Forall noticeable_steps os ->
  exists rs G, polyline_make_x_common ls = Ok rs /\ grid_of os G /\ length rs = length ls /\
   forall k f, nth_error fs k = Some f -> exists r, nth_error rs k = Some r /\
    let L := convert_x_y_to_x1_x2_y1_y2 r in
    map lx1 L = removelast G /\ map lx2 L = tl G /\ contiguous L /\ downward L /\ described_by L f.
Proof. exact make_x_common_spec. Qed.
Print Assumptions C69_make_x_common.

(** C70: p + q and p - q are the pointwise sum and difference of the (cleaned) lines. *)
Theorem C70_sum_of_lines : forall p q a b f g,
  drawn_rightward p a -> drawn_rightward q b -> well_separated [a; b] ->
  let a' := remove_superfluous_from_x_y (/ 100000000) a in
  let b' := remove_superfluous_from_x_y (/ 100000000) b in
  value_of a' f -> value_of b' g ->
  (noticeable_steps2 Rplus a' b' -> exists s, add_points Rplus p q = Ok s /\
    let L := convert_x_y_to_x1_x2_y1_y2 s in
    (exists G, grid_of [a'; b'] G /\ map lx1 L = removelast G /\ map lx2 L = tl G) /\
    contiguous L /\ downward L /\ described_by L (fun t => f t + g t)) /\
  (noticeable_steps2 Rminus a' b' -> exists s, add_points Rminus p q = Ok s /\
    let L := convert_x_y_to_x1_x2_y1_y2 s in
    (exists G, grid_of [a'; b'] G /\ map lx1 L = removelast G /\ map lx2 L = tl G) /\
    contiguous L /\ downward L /\ described_by L (fun t => f t - g t)).
Proof.
  intros p q a b f g Da Db W a' b' Vf Vg. split; intros N.
  - destruct (add_points_spec Rplus ltac:(intros; cbn; ring) p q a b f g) as (s & G & E & A & B & C & D & F & H); auto.
    exists s. split; auto. cbv zeta. repeat apply conj; auto. exists G. auto.
  - destruct (add_points_spec Rminus ltac:(intros; cbn; ring) p q a b f g) as (s & G & E & A & B & C & D & F & H); auto.
    exists s. split; auto. cbv zeta. repeat apply conj; auto. exists G. auto.
Qed.
Print Assumptions C70_sum_of_lines.
(** C70: the PolyLine returned by p + q after any history has exactly those points. *)
Theorem C70_sum_object : forall (history : list op) p q a b,
  let h := run history empty_heap in reads_xy h p a -> reads_xy h q b ->
  forall s, add_points Rplus a b = Ok s -> exists h' n, exec (AddP p q) h = (h', Ok (VRef n)) /\ (length (objs h) <= n)%nat /\ reads_xy h' n s.
Proof.
  intros history p q a b h Ha Hb s Es. assert (W : wf h) by apply wf_history.
  apply (reads_xy_obs _ _ _ W) in Ha. apply (reads_xy_obs _ _ _ W) in Hb.
  destruct (add_lines_spec Rplus p q h a b s W Ha Hb Es) as (h' & n & A & B & C & D). exists h', n.
  cbn [exec]. unfold vmap, mbind at 1. rewrite A. split; auto. split; auto. apply reads_xy_obs; auto.
Qed.
Print Assumptions C70_sum_object.

(** C71: integral of the product of two PolyLines between xi and xj. *)
Theorem C71_product_of_lines : forall b c b' c' f g xi xj, drawn_rightward b b' -> drawn_rightward c c' -> well_separated [b'; c'] ->
  noticeable_steps b' -> noticeable_steps c' -> value_of b' f -> value_of c' g -> Forall2 (between [b'; c']) xi xj ->
  exists I, pintegrate_product b c xi xj = Ok I /\ length I = length xi /\
     forall i, (i < length xi)%nat -> is_RInt (fun t => f t * g t) (nth i xi 0) (nth i xj 0) (nth i I 0).
Proof.
  intros b c b' c' f g xi xj Db Dc W Nb Nc Vf Vg F.
  destruct (product_spec b c b' c' f g) as (B & C & E & H); auto. unfold pintegrate_product. rewrite E. cbn [bind]. apply H; auto.
Qed.
Print Assumptions C71_product_of_lines.

(** ** Witness: a stepped line and a line drawn right to left. *)
Definition w_p : points := [(0, 0); (1, 1); (1, 2); (2, 2)].
Definition w_q : points := [(3, 3); (1, 1)].
Definition w_q' : points := [(1, 1); (3, 3)].
Lemma w_p_ok : drawn_rightward w_p w_p.
Proof.
  split; [|left; auto]. split; [|split; [cbn; lia|cbn; unfold at_; cbn; lra]].
  intros i Hi. cbn in Hi. unfold at_. destruct i as [|[|[|i]]]; cbn; try lra. lia.
Qed.
Lemma w_q_ok : drawn_rightward w_q w_q'.
Proof.
  split; [|right; split; [reflexivity|unfold at_; cbn; lra]]. split; [|split; [cbn; lia|cbn; unfold at_; cbn; lra]].
  intros i Hi. cbn in Hi. unfold at_. destruct i as [|i]; cbn; try lra. lia.
Qed.
Lemma w_sep : well_separated [w_p; w_q'].
Proof.
  intros u w Hu Hw. unfold distinct_enough. cbn in Hu, Hw.
  assert (D : forall a b, Rabs a <= 3 -> 1 <= Rabs (b - a) -> / 100000 + / 100000000 * Rabs a <= Rabs (b - a)) by (intros; lra).
  repeat (destruct Hu as [<-|Hu] || destruct Hw as [<-|Hw]); try contradiction;
   try (left; reflexivity); right; apply D; (apply Rabs_le; lra) || (rewrite Rabs_pos_eq by lra; lra) || (rewrite Rabs_left by lra; lra).
Qed.
Lemma w_p_steps : noticeable_steps w_p.
Proof.
  intros i j Hij E. cbn in Hij. unfold at_ in *.
  destruct i as [|[|[|[|i]]]]; destruct j as [|[|[|[|j]]]]; cbn in *; try lia; try lra.
  right. rewrite (Rabs_pos_eq 2) by lra. rewrite Rabs_left by lra. lra.
Qed.
Lemma w_q_steps : noticeable_steps w_q'.
Proof.
  intros i j Hij E. cbn in Hij. unfold at_ in *.
  destruct i as [|[|i]]; destruct j as [|[|j]]; cbn in *; try lia; try lra.
Qed.
Lemma value_exists p cm : p <> [] -> exists f, forall t, interp_x_y (px p) (py p) [t] cm = Ok [f t].
Proof.
  intros H. destruct (interp_fun_exists (px p) (py p) cm) as (f & Hf).
  - rewrite px_length, py_length. auto.
  - intros C. unfold px in C. apply map_eq_nil in C. auto.
  - exists f. intros t. unfold interp_x_y. rewrite px_length, py_length, Nat.eqb_refl. cbn. rewrite Hf. reflexivity.
Qed.
Lemma w_between : between [w_p; w_q'] (1/2) (5/2).
Proof. split; [lra|]. exists 0, 3. cbn. repeat split; auto 10; lra. Qed.
Example C69_witness : exists fp fq rs G, value_of w_p fp /\ value_of w_q' fq /\ polyline_make_x_common [w_p; w_q] = Ok rs /\ grid_of [w_p; w_q'] G.
Proof.
  destruct (value_exists w_p false) as (fp & Hp); [discriminate|]. destruct (value_exists w_q' false) as (fq & Hq); [discriminate|].
  destruct (C69_make_x_common [w_p; w_q] [w_p; w_q'] [fp; fq]) as (rs & G & A & B & _).
  - constructor; [apply w_p_ok|constructor; [apply w_q_ok|constructor]].
  - constructor; [exists false; auto|constructor; [exists false; auto|constructor]].
  - cbn; lia.
  - apply w_sep.
  - constructor; [apply w_p_steps|constructor; [apply w_q_steps|constructor]].
  - exists fp, fq, rs, G. split; [exists false; auto|]. split; [exists false; auto|]. auto.
Qed.
Example C71_witness : exists f g I, value_of w_p f /\ value_of w_q' g /\ pintegrate_product w_p w_q [1/2] [5/2] = Ok [I] /\ is_RInt (fun t => f t * g t) (1/2) (5/2) I.
Proof.
  destruct (value_exists w_p false) as (fp & Hp); [discriminate|]. destruct (value_exists w_q' false) as (fq & Hq); [discriminate|].
  destruct (C71_product_of_lines w_p w_q w_p w_q' fp fq [1/2] [5/2]) as (I & A & L & B).
  1-5: auto using w_p_ok, w_q_ok, w_sep, w_p_steps, w_q_steps.
  1-2: exists false; auto.
  { constructor; [apply w_between|constructor]. }
  destruct I as [|I [|J K]]; cbn in L; try lia. exists fp, fq, I. repeat apply conj; auto; try (exists false; auto). specialize (B 0%nat ltac:(cbn; lia)). exact B.
Qed.
Example C22_witness : exists M, cos_super (Many [w_q; w_p]) (Many [w_p; w_p]) w_q [0; 7] [1/2] [5/2] (OmList [Some (2, 1); None]) false = Ok M.
Proof.
  destruct (value_exists w_p false) as (fp & Hp); [discriminate|]. destruct (value_exists w_q false) as (fr & Hr); [discriminate|].
  destruct (value_exists w_q' false) as (fq & Hq); [discriminate|].
  destruct (C22_superposition (Many [w_q; w_p]) (Many [w_p; w_p]) (OmList [Some (2, 1); None]) [mkLoad w_q w_p (Some (2, 1)); mkLoad w_p w_p None]
    [mkMeaning fr fp; mkMeaning fp fp] w_q w_q' fq [0; 7] [1/2] [5/2] false) as (M & A & _); eauto using w_q_ok, w_q_steps.
  - assert (Lm : forall om a f, (forall t, interp_x_y (px a) (py a) [t] false = Ok [f t]) -> load_means false w_q' [1/2] [5/2] (mkLoad a w_p om) (mkMeaning f fp)).
    { intros om a f Hf. split; [exact Hf|]. exists w_p. split; [apply w_p_ok|]. split; [apply w_sep|]. split; [apply w_p_steps|]. split; [exists false; auto|]. constructor; [apply w_between|constructor]. }
    constructor; [apply Lm; auto|constructor; [apply Lm; auto|constructor]].
  - exists false; auto.
Qed.
(** The two 2-point lines 0..2 and 1..3 (the second drawn backwards) add up. *)
Lemma no_step p x : NoDup (px p) -> vleft p x = vright p x.
Proof.
  intros H. unfold vleft, vright. assert (L : (length (at_x x p) <= 1)%nat).
  { unfold at_x. induction p as [|q p IH]; cbn; auto. inversion H; subst. specialize (IH H3). destruct (Reqb (fst q) x) eqn:E; auto.
    apply Reqb_true in E. cbn. replace (filter (fun q0 => Reqb (fst q0) x) p) with (@nil (R * R)); [cbn; lia|].
    symmetry. apply at_x_In. rewrite <- E. auto. }
  destruct (at_x x p) as [|q [|r t]]; auto. cbn in L. lia.
Qed.
Definition w_l : points := [(0, 0); (2, 2)].
Example C70_witness : exists f g s, value_of w_l f /\ value_of w_q' g /\ add_points Rplus w_l w_q = Ok s /\
  described_by (convert_x_y_to_x1_x2_y1_y2 s) (fun t => f t + g t).
Proof.
  destruct (value_exists w_l false) as (f & Hf); [discriminate|]. destruct (value_exists w_q' false) as (g & Hg); [discriminate|].
  destruct (C70_sum_of_lines w_l w_q w_l w_q' f g) as [A _].
  - split; [|left; auto]. split; [|split; [cbn; lia|cbn; unfold at_; cbn; lra]]. intros i Hi. cbn in Hi. unfold at_. destruct i as [|i]; cbn; try lra. lia.
  - apply w_q_ok.
  - intros u w Hu Hw. apply w_sep; cbn in *; intuition.
  - exists false; auto.
  - exists false; auto.
  - destruct A as (s & E & _ & _ & _ & D).
    + intros x. left. cbn. rewrite (no_step w_l), (no_step w_q'); auto.
      * constructor; [cbn; intros [C|[]]; lra|repeat constructor; auto].
      * constructor; [cbn; intros [C|[]]; lra|repeat constructor; auto].
    + exists f, g, s. repeat apply conj; auto; exists false; auto.
Qed.
Example C68_witness : remove_superfluous_from_x_y (/ 100000000) w_l = w_l /\ exists ks, hd_error ks = Some 0%nat /\
  remove_superfluous_from_x_y (/ 100000000) w_p = map (fun k => nth k w_p (0, 0)) ks.
Proof.
  split; [reflexivity|]. destruct (C68_remove_superfluous (/ 100000000) w_p) as (ks & A & B & C & D & _); [lra|cbn; lia|]. exists ks. auto.
Qed.
Example C21_witness : exists h' , exec (EqP 0 0) (run [New2 w_p] empty_heap) = (h', Ok (VBool true)).
Proof.
  destruct (C21_equality [New2 w_p] 0 0 w_p w_p eq_refl eq_refl) as (h' & v & A & _ & B). exists h'. rewrite A, B; auto.
Qed.
Example C20_witness : exists pts l, reads_xy (run [New4 [mkLayer 0 1 2 3]; New2 w_p; MulC 1 2] empty_heap) 2 pts /\
  reads_layers (run [New4 [mkLayer 0 1 2 3]; New2 w_p; MulC 1 2] empty_heap) 2 l.
Proof.
  destruct (C20_representations_agree [New4 [mkLayer 0 1 2 3]; New2 w_p; MulC 1 2] 2) as (pts & l & A & B & _).
  - repeat constructor.
  - repeat constructor; cbn. 
    + intros i d Hi. cbn in Hi. lia.
    + intros a [<-|[]]. cbn. lra.
    + discriminate.
  - cbn. lia.
  - eauto.
Qed.

(** * PolyLine objects: frame and coherence *)
From Coq Require Import Reals List Arith Lia Lra Bool.
From Verif Require Import Base PiecewiseModel LayersModel SpecPiecewise SpecPiecewiseApi
  PiecewiseProofs PiecewiseProofs2 LayersProofs PolyLineModel SpecPolyLine.
Import ListNotations.
Open Scope R_scope.

Definition obs_xy (h : heap) (p : nat) : result points :=
  match get (objs h) p with
  | Err e => Err e
  | Ok o => match o_xy o with
            | Some r => get (arrays h) r
            | None => match o_lay o with None => Err TypeError | Some l => convert_x1_x2_y1_y2_to_x_y l end
            end
  end.
Definition obs_lay (h : heap) (p : nat) : result (list (layer R)) :=
  match get (objs h) p with
  | Err e => Err e
  | Ok o => match o_lay o with
            | Some l => Ok l
            | None => rmap convert_x_y_to_x1_x2_y1_y2 (obs_xy h p)
            end
  end.
Definition wf (h : heap) : Prop := forall p o, get (objs h) p = Ok o ->
  (forall r, o_xy o = Some r -> (r < length (arrays h))%nat) /\ (o_xy o = None -> o_lay o <> None).
Definition same_obs (h h' : heap) : Prop :=
  (length (objs h) <= length (objs h'))%nat /\ (exists t, arrays h' = arrays h ++ t) /\
  forall p, (p < length (objs h))%nat -> obs_xy h' p = obs_xy h p /\ obs_lay h' p = obs_lay h p.
Definition good {T} (m : M T) : Prop := forall h h' r, wf h -> m h = (h', r) -> wf h' /\ same_obs h h'.

Lemma get_range {T} (l : list T) i v : get l i = Ok v -> (i < length l)%nat.
Proof. intros H. apply get_Ok in H. apply nth_error_Some. congruence. Qed.
Lemma get_app1 {T} (l t : list T) i : (i < length l)%nat -> get (l ++ t) i = get l i.
Proof. intros H. unfold get. rewrite nth_error_app1; auto. Qed.
Lemma get_app_last {T} (l : list T) v : get (l ++ [v]) (length l) = Ok v.
Proof. unfold get. rewrite nth_error_app2, Nat.sub_diag; auto. Qed.
Lemma upd_length {T} (l : list T) i v : length (upd l i v) = length l.
Proof. revert i; induction l as [|a l IH]; intros [|i]; cbn; auto. Qed.
Lemma get_upd_same {T} (l : list T) i v : (i < length l)%nat -> get (upd l i v) i = Ok v.
Proof. revert i; induction l as [|a l IH]; intros [|i] H; cbn in *; try lia; auto. unfold get in *. cbn. apply IH; lia. Qed.
Lemma get_upd_other {T} (l : list T) i j v : i <> j -> get (upd l i v) j = get l j.
Proof. revert i j; induction l as [|a l IH]; intros [|i] [|j] H; cbn; auto; try congruence. unfold get in *; cbn. apply IH; lia. Qed.

Lemma same_obs_refl h : same_obs h h.
Proof. split; [lia|]. split; [exists []; rewrite app_nil_r; auto|]. auto. Qed.
Lemma same_obs_trans a b c : same_obs a b -> same_obs b c -> same_obs a c.
Proof.
  intros (L1 & (t1 & E1) & H1) (L2 & (t2 & E2) & H2). split; [lia|]. split.
  - exists (t1 ++ t2). rewrite E2, E1, app_assoc. auto.
  - intros p Hp. destruct (H1 p Hp) as [A1 A2], (H2 p ltac:(lia)) as [B1 B2]. split; congruence.
Qed.

Lemma good_ret {T} (v : T) : good (ret v).
Proof. intros h h' r W E. inversion E; subst. split; auto using same_obs_refl. Qed.
Lemma good_raise {T} e : good (raise (T := T) e).
Proof. intros h h' r W E. inversion E; subst. split; auto using same_obs_refl. Qed.
Lemma good_lift {T} (v : result T) : good (lift v).
Proof. intros h h' r W E. inversion E; subst. split; auto using same_obs_refl. Qed.
Lemma good_get_obj p : good (get_obj p).
Proof. intros h h' r W E. inversion E; subst. split; auto using same_obs_refl. Qed.
Lemma good_get_array p : good (get_array p).
Proof. intros h h' r W E. inversion E; subst. split; auto using same_obs_refl. Qed.
Lemma good_bind {T U} (m : M T) (f : T -> M U) : good m -> (forall v, good (f v)) -> good (mbind m f).
Proof.
  intros Hm Hf h h' r W E. unfold mbind in E. destruct (m h) as [h1 r1] eqn:E1.
  destruct (Hm _ _ _ W E1) as [W1 S1]. destruct r1 as [v|e].
  - destruct (Hf v _ _ _ W1 E) as [W2 S2]. split; auto. eapply same_obs_trans; eauto.
  - inversion E; subst. auto.
Qed.

Lemma alloc_array_obs h pts : wf h -> wf (fst (alloc_array h pts)) /\ same_obs h (fst (alloc_array h pts)).
Proof.
  intros W. cbn. split.
  - intros p o Hp. cbn in Hp. destruct (W p o Hp) as [H1 H2]. split; auto. intros r Hr. cbn. rewrite app_length. specialize (H1 r Hr). lia.
  - split; [cbn; lia|]. split; [exists [pts]; reflexivity|]. intros p Hp.
    assert (Hxy : obs_xy (mkHeap (arrays h ++ [pts]) (objs h)) p = obs_xy h p).
    { unfold obs_xy. cbn [objs arrays]. destruct (get (objs h) p) as [o|e] eqn:E; auto. destruct (W p o E) as [H1 _].
      destruct (o_xy o) as [r|] eqn:Er; auto. apply get_app1. auto. }
    split; auto. unfold obs_lay. cbn [objs]. rewrite Hxy. reflexivity.
Qed.
Lemma alloc_obj_obs h o : wf h -> (forall r, o_xy o = Some r -> (r < length (arrays h))%nat) -> (o_xy o = None -> o_lay o <> None) ->
  wf (fst (alloc_obj h o)) /\ same_obs h (fst (alloc_obj h o)).
Proof.
  intros W H1 H2. cbn. split.
  - intros p o' Hp. cbn in Hp |- *. destruct (Nat.lt_ge_cases p (length (objs h))) as [L|L].
    + rewrite get_app1 in Hp by auto. apply (W p o' Hp).
    + assert (p = length (objs h)) as ->. { apply get_range in Hp. rewrite app_length in Hp. cbn in Hp. lia. }
      rewrite get_app_last in Hp. inversion Hp; subst. auto.
  - split; [cbn; rewrite app_length; lia|]. split; [exists []; cbn; rewrite app_nil_r; auto|].
    intros p Hp. assert (Hxy : obs_xy (mkHeap (arrays h) (objs h ++ [o])) p = obs_xy h p).
    { unfold obs_xy. cbn [objs arrays]. rewrite get_app1 by auto. reflexivity. }
    split; auto. unfold obs_lay. cbn [objs]. rewrite Hxy, get_app1 by auto. reflexivity.
Qed.

Lemma good_read_xy p : good (read_xy p).
Proof.
  intros h h' r W E. unfold read_xy, mbind, get_obj in E. destruct (get (objs h) p) as [o|e] eqn:Eo.
  2:{ inversion E; subst. split; auto using same_obs_refl. }
  destruct (o_xy o) as [rr|] eqn:Ex.
  { inversion E; subst. split; auto using same_obs_refl. }
  destruct (o_lay o) as [l|] eqn:El.
  2:{ inversion E; subst. split; auto using same_obs_refl. }
  unfold lift in E. destruct (convert_x1_x2_y1_y2_to_x_y l) as [pts|e] eqn:Ec.
  2:{ inversion E; subst. split; auto using same_obs_refl. }
  cbn in E. inversion E; subst; clear E. pose proof (get_range _ _ _ Eo) as Lp. split.
  - intros q o' Hq. cbn in Hq |- *. rewrite app_length; cbn. destruct (Nat.eq_dec p q) as [<-|N].
    + rewrite get_upd_same in Hq by auto. inversion Hq; subst. cbn. split; [intros ? [= <-]; lia|discriminate].
    + rewrite get_upd_other in Hq by auto. destruct (W q o' Hq) as [A B]. split; auto. intros r Hr. specialize (A r Hr). lia.
  - split; [cbn; rewrite upd_length; lia|]. split; [eexists; reflexivity|].
    intros q Hq. destruct (Nat.eq_dec p q) as [<-|N].
    + unfold obs_lay, obs_xy; cbn. rewrite get_upd_same by auto. rewrite Eo; cbn. rewrite Ex, get_app_last, ?El. auto.
    + match goal with |- obs_xy ?hh q = _ /\ _ => assert (Hxy : obs_xy hh q = obs_xy h q) end.
      { unfold obs_xy; cbn. rewrite get_upd_other by auto. destruct (get (objs h) q) as [o'|] eqn:Eq; auto. destruct (o_xy o') eqn:Ex'; auto.
        apply get_app1. eapply W; eauto. }
      split; auto. cbn [arrays objs]. unfold obs_lay; cbn [objs]. rewrite Hxy, get_upd_other by auto. reflexivity.
Qed.

(** What read_xy leaves behind. *)
Lemma read_xy_spec h h' p r : wf h -> read_xy p h = (h', Ok r) ->
  exists o', get (objs h') p = Ok o' /\ o_xy o' = Some r /\ get (arrays h') r = obs_xy h p /\ obs_lay h' p = obs_lay h p /\
    (exists o, get (objs h) p = Ok o /\ o_lay o' = o_lay o).
Proof.
  intros W E. pose proof (good_read_xy p h h' (Ok r) W E) as [W' S].
  unfold read_xy, mbind, get_obj in E. destruct (get (objs h) p) as [o|e] eqn:Eo; [|discriminate].
  pose proof (get_range _ _ _ Eo) as Lp.
  destruct S as (_ & _ & S). destruct (S p Lp) as [Sx Sl].
  destruct (o_xy o) as [rr|] eqn:Ex.
  { inversion E; subst. exists o. repeat split; auto. unfold obs_xy. rewrite Eo, Ex. auto. eauto. }
  destruct (o_lay o) as [l|] eqn:El; [|discriminate].
  unfold lift in E. destruct (convert_x1_x2_y1_y2_to_x_y l) as [pts|e] eqn:Ec; [|discriminate].
  cbn in E. inversion E; subst; clear E. cbn in *. rewrite get_upd_same in * by auto.
  eexists. split; [reflexivity|]. cbn. repeat split; eauto.
  unfold obs_xy. rewrite Eo, Ex, El, get_app_last, Ec. reflexivity.
Qed.

Lemma good_read_points p : good (read_points p).
Proof. apply good_bind; [apply good_read_xy|intros; apply good_get_array]. Qed.

Lemma good_read_lay p : good (read_lay p).
Proof.
  intros h h' r W E. unfold read_lay, mbind at 1, get_obj in E. destruct (get (objs h) p) as [o|e] eqn:Eo.
  2:{ inversion E; subst. split; auto using same_obs_refl. }
  destruct (o_lay o) as [l|] eqn:El.
  { inversion E; subst. split; auto using same_obs_refl. }
  unfold mbind at 1 in E. destruct (read_xy p h) as [h1 [rr|e]] eqn:Er.
  2:{ inversion E; subst. apply (good_read_xy p h h' (Err e) W Er). }
  destruct (good_read_xy p h h1 (Ok rr) W Er) as [W1 S1].
  destruct (read_xy_spec h h1 p rr W Er) as (o' & Eo' & Ex' & Ea & Elay & (o2 & Eo2 & Elay2)).
  rewrite Eo in Eo2. inversion Eo2; subst o2. rewrite El in Elay2.
  unfold mbind, get_array in E. destruct (get (arrays h1) rr) as [pts|e] eqn:Eg.
  2:{ inversion E; subst. auto. }
  inversion E; subst; clear E.
  pose proof (get_range _ _ _ Eo') as Lp. pose proof (get_range _ _ _ Eg) as Lr.
  assert (S2 : wf (mkHeap (arrays h1) (upd (objs h1) p (mkObj (Some rr) (Some (convert_x_y_to_x1_x2_y1_y2 pts))))) /\
               same_obs h1 (mkHeap (arrays h1) (upd (objs h1) p (mkObj (Some rr) (Some (convert_x_y_to_x1_x2_y1_y2 pts)))))).
  { split.
    - intros q o3 Hq. cbn in Hq |- *. destruct (Nat.eq_dec p q) as [<-|N].
      + rewrite get_upd_same in Hq by auto. inversion Hq; subst. cbn. split; [intros ? [= <-]; auto|discriminate].
      + rewrite get_upd_other in Hq by auto. apply (W1 q o3 Hq).
    - split; [cbn; rewrite upd_length; lia|]. split; [exists []; cbn; rewrite app_nil_r; auto|].
      intros q Hq. destruct (Nat.eq_dec p q) as [<-|N].
      + unfold obs_lay, obs_xy; cbn. rewrite get_upd_same by auto. rewrite Eo'. cbn. rewrite Ex', Elay2, Eg. auto.
      + assert (Hxy : obs_xy (mkHeap (arrays h1) (upd (objs h1) p (mkObj (Some rr) (Some (convert_x_y_to_x1_x2_y1_y2 pts))))) q = obs_xy h1 q).
        { unfold obs_xy; cbn. rewrite get_upd_other by auto. reflexivity. }
        split; auto. cbn [arrays objs]. unfold obs_lay; cbn [objs]. rewrite Hxy, get_upd_other by auto. reflexivity. }
  destruct S2 as [W2 S2]. split; auto. eapply same_obs_trans; eauto.
Qed.

Lemma good_new2 pts : good (new2 pts).
Proof.
  unfold new2. destruct (Nat.ltb _ _); [apply good_raise|].
  intros h h' r W E. destruct (alloc_array_obs h pts W) as [W1 S1]. cbn in E. inversion E; subst.
  destruct (alloc_obj_obs (fst (alloc_array h pts)) (mkObj (Some (length (arrays h))) None) W1) as [W2 S2]; cbn.
  - intros ? [= <-]. rewrite app_length; cbn; lia.
  - discriminate.
  - cbn in *. split; auto. eapply same_obs_trans; eauto.
Qed.
Lemma good_new1 r : good (new1_shared r).
Proof.
  intros h h' v W E. unfold new1_shared, mbind, get_array in E. destruct (get (arrays h) r) as [pts|] eqn:Eg.
  2:{ inversion E; subst. split; auto using same_obs_refl. }
  destruct (Nat.ltb _ _).
  - inversion E; subst. split; auto using same_obs_refl.
  - cbn in E. inversion E; subst. apply (alloc_obj_obs h (mkObj (Some r) None) W); cbn; [|discriminate].
    intros ? [= <-]. eapply get_range; eauto.
Qed.
Lemma good_new4 l : good (new4 l).
Proof.
  intros h h' v W E. cbn in E. inversion E; subst. apply (alloc_obj_obs h (mkObj None (Some l)) W); cbn; discriminate.
Qed.
Lemma good_map_y f p : good (map_y f p).
Proof. apply good_bind; [apply good_read_points|intros; apply good_new2]. Qed.
Lemma good_add_lines op p q : good (add_lines op p q).
Proof.
  apply good_bind; [apply good_read_points|intros]. apply good_bind; [apply good_read_points|intros].
  apply good_bind; [apply good_lift|intros; apply good_new2].
Qed.
Lemma good_eq_lines p q : good (eq_lines p q).
Proof. apply good_bind; [apply good_read_points|intros]. apply good_bind; [apply good_read_points|intros; apply good_ret]. Qed.
Lemma good_vmap {T} (f : T -> value) m : good m -> good (vmap f m).
Proof. intros. apply good_bind; auto. intros; apply good_ret. Qed.


Lemma good_exec o : not_shift o -> good (exec o).
Proof.
  destruct o; cbn; intros N; try contradiction; try apply good_vmap;
   auto using good_new1, good_new2, good_new4, good_read_points, good_read_lay, good_map_y, good_add_lines, good_eq_lines.
  intros h h' r W E. inversion E; subst. apply (alloc_array_obs h a W).
Qed.

(** Scalar addition keeps the heap well formed and changes only the array of p. *)
Lemma wf_set_array h r pts : wf h -> wf (mkHeap (upd (arrays h) r pts) (objs h)).
Proof. intros W p o Hp. cbn in *. rewrite upd_length. apply (W p o Hp). Qed.
Lemma wf_add_scalar op p c h : wf h -> wf (fst (add_scalar op p c h)).
Proof.
  intros W. unfold add_scalar, mbind. destruct (read_xy p h) as [h1 [r|e]] eqn:Er.
  2:{ apply (good_read_xy p h h1 _ W Er). }
  destruct (good_read_xy p h h1 _ W Er) as [W1 _]. unfold get_array.
  destruct (get (arrays h1) r) as [pts|e] eqn:Eg; auto.
  match goal with |- wf (fst (new2 ?q ?hh)) => destruct (new2 q hh) as [h2 r2] eqn:E2;
    apply (good_new2 q hh h2 r2 (wf_set_array h1 r _ W1) E2) end.
Qed.
Lemma wf_exec o h : wf h -> wf (fst (exec o h)).
Proof.
  intros W. destruct o as [a|r|a|l|p|p|p c|p c|p c|p c|p c|p c|p q|p q|p q];
   try (match goal with |- wf (fst (exec ?o h)) => destruct (exec o h) as [h' r'] eqn:E; apply (good_exec o I h h' r' W E) end).
  - cbn. unfold vmap, mbind. pose proof (wf_add_scalar Rplus p c h W) as H. destruct (add_scalar Rplus p c h) as [h' [v|e]]; cbn in *; auto.
  - cbn. unfold vmap, mbind. pose proof (wf_add_scalar Rminus p c h W) as H. destruct (add_scalar Rminus p c h) as [h' [v|e]]; cbn in *; auto.
  - cbn. unfold vmap, rsub_scalar, mbind at 1 2. pose proof (wf_add_scalar Rminus p c h W) as H. destruct (add_scalar Rminus p c h) as [h' [v|e]]; cbn in *; auto.
    destruct (map_y (fun y => y * -1) v h') as [h2 [v2|e2]] eqn:E2; cbn; apply (good_map_y _ _ _ _ _ H E2).
Qed.
Lemma wf_run ops h : wf h -> wf (run ops h).
Proof. revert h; induction ops as [|o ops IH]; intros h W; cbn; auto. apply IH. apply wf_exec. auto. Qed.
Lemma wf_empty : wf empty_heap.
Proof. intros p o H. destruct p; discriminate. Qed.

(** Reading through the API gives the observation. *)
Lemma read_points_obs h p : wf h -> snd (read_points p h) = obs_xy h p.
Proof.
  intros W. unfold read_points, mbind. destruct (read_xy p h) as [h1 [r|e]] eqn:Er.
  - destruct (read_xy_spec h h1 p r W Er) as (o' & _ & _ & Ea & _). unfold get_array. cbn. auto.
  - cbn. unfold read_xy, mbind, get_obj in Er. unfold obs_xy. destruct (get (objs h) p) as [o|]; [|inversion Er; subst; auto].
    destruct (o_xy o); [discriminate|]. destruct (o_lay o); [|inversion Er; subst; auto].
    unfold lift in Er. destruct (convert_x1_x2_y1_y2_to_x_y l); [discriminate|inversion Er; subst; auto].
Qed.
Lemma read_lay_obs h p : wf h -> snd (read_lay p h) = obs_lay h p.
Proof.
  intros W. unfold read_lay, mbind at 1, get_obj. unfold obs_lay. destruct (get (objs h) p) as [o|] eqn:Eo; auto.
  destruct (o_lay o) as [l|] eqn:El; auto.
  pose proof (read_points_obs h p W) as R. unfold read_points, mbind in R. unfold mbind.
  destruct (read_xy p h) as [h1 [r|e]] eqn:Er; cbn in R |- *.
  - unfold get_array in *. rewrite <- R. destruct (get (arrays h1) r); reflexivity.
  - rewrite <- R. reflexivity.
Qed.
Lemma exec_ReadXY h p : wf h -> snd (exec (ReadXY p) h) = rmap VPoints (obs_xy h p).
Proof.
  intros W. rewrite <- read_points_obs by auto. cbn [exec]. unfold vmap, mbind. destruct (read_points p h) as [h1 [v|e]]; reflexivity.
Qed.
Lemma exec_ReadLayers h p : wf h -> snd (exec (ReadLayers p) h) = rmap VLayers (obs_lay h p).
Proof.
  intros W. rewrite <- read_lay_obs by auto. cbn [exec]. unfold vmap. generalize (read_lay p). intros m. unfold mbind. destruct (m h) as [h1 [v|e]]; reflexivity.
Qed.

(** Frame. *)
Lemma frame_run ops h : wf h -> Forall not_shift ops -> same_obs h (run ops h).
Proof.
  revert h; induction ops as [|o ops IH]; intros h W F; cbn; [apply same_obs_refl|].
  inversion F; subst. destruct (exec o h) as [h1 r] eqn:E. destruct (good_exec o H1 h h1 r W E) as [W1 S1]. cbn.
  eapply same_obs_trans; eauto.
Qed.

(** *** Scalar addition in full *)
Definition shifted (op : R -> R -> R) (c : R) (pts : points) : points := map (fun q => (fst q, op (snd q) c)) pts.
Lemma add_scalar_spec op p c h pts : wf h -> obs_xy h p = Ok pts -> (2 <= length pts)%nat ->
  exists h' n, add_scalar op p c h = (h', Ok n) /\ wf h' /\ (length (objs h) <= n)%nat /\ n = (length (objs h') - 1)%nat /\
    obs_xy h' n = Ok (shifted op c pts) /\ obs_xy h' p = Ok (shifted op c pts) /\
    (forall l, (exists o, get (objs h) p = Ok o /\ o_lay o = Some l) -> obs_lay h' p = Ok l) /\
    (obs_lay h' n = Ok (convert_x_y_to_x1_x2_y1_y2 (shifted op c pts))) /\
    ((exists o, get (objs h) p = Ok o /\ o_lay o = None) -> obs_lay h' p = Ok (convert_x_y_to_x1_x2_y1_y2 (shifted op c pts))) /\
    (p < n)%nat.
Proof.
  intros W Ho L. destruct (read_xy p h) as [h1 [r|e]] eqn:Er.
  2:{ exfalso. pose proof (read_points_obs h p W) as R. unfold read_points, mbind in R. rewrite Er in R. cbn in R. congruence. }
  destruct (good_read_xy p h h1 _ W Er) as [W1 (S1 & _ & S2)].
  destruct (read_xy_spec h h1 p r W Er) as (o' & Eo' & Ex' & Ea & Elay & (o2 & Eo2 & Elay2)).
  rewrite Ho in Ea.
  assert (Lr := get_range _ _ _ Ea). assert (Lp := get_range _ _ _ Eo').
  assert (W2 := wf_set_array h1 r (shifted op c pts) W1).
  assert (E : add_scalar op p c h = new2 (shifted op c pts) (mkHeap (upd (arrays h1) r (shifted op c pts)) (objs h1))).
  { unfold add_scalar, mbind. rewrite Er. unfold get_array. rewrite Ea. reflexivity. }
  rewrite E. unfold new2. replace (Nat.ltb (length (shifted op c pts)) 2) with false.
  2:{ symmetry. apply Nat.ltb_ge. unfold shifted. rewrite map_length. auto. }
  cbn [alloc_array alloc_obj]. eexists _, _. split; [reflexivity|].
  set (h2 := mkHeap _ _).
  assert (W3 : wf h2).
  { destruct (new2 (shifted op c pts) (mkHeap (upd (arrays h1) r (shifted op c pts)) (objs h1))) as [h3 r3] eqn:E3.
    pose proof (good_new2 _ _ _ _ W2 E3) as [G _]. unfold new2 in E3. replace (Nat.ltb (length (shifted op c pts)) 2) with false in E3.
    2:{ symmetry. apply Nat.ltb_ge. unfold shifted. rewrite map_length. auto. }
    cbn in E3. inversion E3; subst. exact G. }
  assert (Gp : get (objs h2) p = Ok o') by (cbn; rewrite get_app1; auto).
  assert (Gn : get (objs h2) (length (objs h1)) = Ok (mkObj (Some (length (upd (arrays h1) r (shifted op c pts)))) None)) by (cbn; apply get_app_last).
  assert (Xp : obs_xy h2 p = Ok (shifted op c pts)).
  { unfold obs_xy. rewrite Gp, Ex'. cbn. rewrite get_app1 by (rewrite upd_length; auto). apply get_upd_same. auto. }
  assert (Xn : obs_xy h2 (length (objs h1)) = Ok (shifted op c pts)).
  { unfold obs_xy. rewrite Gn. cbn. apply get_app_last. }
  split; auto. split; [cbn; lia|]. split; [cbn; rewrite app_length; cbn; lia|]. split; [auto|]. split; [auto|].
  split; [|split; [|split]].
  - intros l (o & Hget & Hol). rewrite Eo2 in Hget; inversion Hget; subst. unfold obs_lay. rewrite Gp, Elay2, Hol. reflexivity.
  - unfold obs_lay. cbn [arrays objs]. rewrite Gn. cbn [o_lay]. rewrite Xn. reflexivity.
  - intros (o & Hget & Hol). rewrite Eo2 in Hget; inversion Hget; subst. unfold obs_lay. rewrite Gp, Elay2, Hol, Xp. reflexivity.
  - cbn; lia.
Qed.

(** *** Coherence *)
Definition coherent (h : heap) : Prop := forall p, (p < length (objs h))%nat ->
  exists pts, obs_xy h p = Ok pts /\ obs_lay h p = Ok (convert_x_y_to_x1_x2_y1_y2 pts).

(** A heap obtained from another by adding only coherent objects. *)
Definition adds_good (h h' : heap) : Prop := forall p, (length (objs h) <= p < length (objs h'))%nat ->
  exists pts, obs_xy h' p = Ok pts /\ obs_lay h' p = Ok (convert_x_y_to_x1_x2_y1_y2 pts).
Definition goodn {T} (m : M T) : Prop := forall h h' r, wf h -> m h = (h', r) -> adds_good h h'.

Lemma goodn_bind {T U} (m : M T) (f : T -> M U) : good m -> goodn m -> (forall v, good (f v)) -> (forall v, goodn (f v)) -> goodn (mbind m f).
Proof.
  intros G1 N1 G2 N2 h h' r W E. unfold mbind in E. destruct (m h) as [h1 [v|e]] eqn:E1.
  - destruct (G1 _ _ _ W E1) as [W1 (L1 & _)]. pose proof (N1 _ _ _ W E1) as A1.
    destruct (G2 v _ _ _ W1 E) as [W2 (L2 & _ & S2)]. pose proof (N2 v _ _ _ W1 E) as A2.
    intros p Hp. destruct (Nat.lt_ge_cases p (length (objs h1))) as [L|L].
    + destruct (A1 p) as (pts & B1 & B2); [lia|]. destruct (S2 p L) as [C1 C2]. exists pts. split; congruence.
    + apply A2. lia.
  - inversion E; subst. eapply N1; eauto.
Qed.
Lemma goodn_same {T} (m : M T) : (forall h h' r, m h = (h', r) -> length (objs h') = length (objs h)) -> goodn m.
Proof. intros H h h' r _ E p Hp. rewrite (H h h' r E) in Hp. lia. Qed.
Lemma read_xy_len p h h' r : read_xy p h = (h', r) -> length (objs h') = length (objs h).
Proof.
  unfold read_xy, mbind, get_obj. destruct (get (objs h) p) as [o|]; [|intros [= <- <-]; auto].
  destruct (o_xy o); [intros [= <- <-]; auto|]. destruct (o_lay o); [|intros [= <- <-]; auto].
  unfold lift. destruct (convert_x1_x2_y1_y2_to_x_y l); [|intros [= <- <-]; auto]. cbn. intros [= <- <-]. cbn. apply upd_length.
Qed.
Lemma goodn_read_points p : goodn (read_points p).
Proof.
  apply goodn_same. intros h h' r E. unfold read_points, mbind in E. destruct (read_xy p h) as [h1 [v|e]] eqn:E1; apply read_xy_len in E1; inversion E; subst; auto.
Qed.
Lemma goodn_read_lay p : goodn (read_lay p).
Proof.
  apply goodn_same. intros h h' r E. unfold read_lay, mbind, get_obj in E. destruct (get (objs h) p) as [o|]; [|inversion E; subst; auto].
  destruct (o_lay o); [inversion E; subst; auto|].
  destruct (read_xy p h) as [h1 [v|e]] eqn:E1; apply read_xy_len in E1; [|inversion E; subst; auto].
  unfold get_array in E. destruct (get (arrays h1) v); inversion E; subst; cbn; auto. rewrite upd_length; auto.
Qed.
Lemma goodn_new2 pts : goodn (new2 pts).
Proof.
  unfold new2. destruct (Nat.ltb _ _). { apply goodn_same. intros h h' r E; inversion E; auto. }
  intros h h' r W E. cbn in E. inversion E; subst. intros p Hp. cbn in Hp. rewrite app_length in Hp. cbn in Hp.
  replace p with (length (objs h)) by lia. exists pts.
  unfold obs_lay, obs_xy. cbn. rewrite !get_app_last. cbn. rewrite get_app_last. auto.
Qed.
Lemma goodn_new1 r : goodn (new1_shared r).
Proof.
  intros h h' v W E. unfold new1_shared, mbind, get_array in E. destruct (get (arrays h) r) as [pts|] eqn:Eg.
  2:{ inversion E; subst. intros p Hp; lia. }
  destruct (Nat.ltb _ _). { inversion E; subst. intros p Hp; lia. }
  cbn in E. inversion E; subst. intros p Hp. cbn in Hp. rewrite app_length in Hp. cbn in Hp.
  replace p with (length (objs h)) by lia. exists pts.
  unfold obs_lay, obs_xy. cbn. rewrite !get_app_last. cbn. rewrite Eg. auto.
Qed.
Lemma goodn_new4 l : contiguous l -> thick l -> l <> [] -> goodn (new4 l).
Proof.
  intros H1 H2 H3 h h' v W E. cbn in E. inversion E; subst. intros p Hp. cbn in Hp. rewrite app_length in Hp. cbn in Hp.
  replace p with (length (objs h)) by lia. destruct (layers_roundtrip l H1 H2 H3) as (pts & Ep & Eb). exists pts.
  unfold obs_lay, obs_xy. cbn. rewrite !get_app_last. cbn. rewrite Ep, Eb. auto.
Qed.
Lemma goodn_ret {T} (v : T) : goodn (ret v).
Proof. apply goodn_same. intros h h' r E; inversion E; auto. Qed.
Lemma goodn_lift {T} (v : result T) : goodn (lift v).
Proof. apply goodn_same. intros h h' r E; inversion E; auto. Qed.
Lemma goodn_exec o : not_shift o -> proper_layers o -> goodn (exec o).
Proof.
  assert (V : forall T (f : T -> value) m, good m -> goodn m -> goodn (vmap f m)).
  { intros. apply goodn_bind; auto; intros; [apply good_ret|apply goodn_ret]. }
  assert (Y : forall f p, goodn (map_y f p)).
  { intros. apply goodn_bind; auto using good_read_points, goodn_read_points, good_new2, goodn_new2. }
  assert (AL : forall op p q, goodn (add_lines op p q)).
  { intros. apply goodn_bind; auto using good_read_points, goodn_read_points.
    - intros. apply good_bind; auto using good_read_points. intros. apply good_bind; auto using good_lift, good_new2.
    - intros. apply goodn_bind; auto using good_read_points, goodn_read_points.
      + intros. apply good_bind; auto using good_lift, good_new2.
      + intros. apply goodn_bind; auto using good_lift, goodn_lift, good_new2, goodn_new2. }
  assert (EL : forall p q, goodn (eq_lines p q)).
  { intros. apply goodn_bind; auto using good_read_points, goodn_read_points.
    - intros. apply good_bind; auto using good_read_points, good_ret.
    - intros. apply goodn_bind; auto using good_read_points, goodn_read_points, good_ret, goodn_ret. }
  destruct o; cbn; intros N PL; try contradiction;
   try (apply V; auto using good_new1, good_new2, good_new4, good_read_points, good_read_lay, good_map_y, good_add_lines, good_eq_lines,
     goodn_new1, goodn_new2, goodn_read_points, goodn_read_lay).
  - intros h h' r W E. inversion E; subst. intros p Hp. cbn in Hp. lia.
  - apply goodn_new4; tauto.
Qed.
Lemma coherent_run ops : Forall not_shift ops -> Forall proper_layers ops -> coherent (run ops empty_heap).
Proof.
  assert (G : forall ops h, wf h -> coherent h -> Forall not_shift ops -> Forall proper_layers ops -> coherent (run ops h)).
  { clear ops. induction ops as [|o ops IH]; intros h W C N P; cbn; auto. inversion N; inversion P; subst.
    destruct (exec o h) as [h1 r] eqn:E. destruct (good_exec o H1 h h1 r W E) as [W1 (L & _ & S)].
    apply IH; auto. cbn. intros p Hp. destruct (Nat.lt_ge_cases p (length (objs h))) as [Hl|Hl].
    - destruct (C p Hl) as (pts & A & B). destruct (S p Hl) as [S1 S2]. exists pts. split; congruence.
    - apply (goodn_exec o H1 H5 h h1 r W E). lia. }
  intros. apply G; auto. apply wf_empty. intros p Hp. cbn in Hp. lia.
Qed.

(** *** Results of the other operations *)
Lemma new2_spec pts h : wf h -> (2 <= length pts)%nat ->
  exists h' n, new2 pts h = (h', Ok n) /\ wf h' /\ (length (objs h) <= n)%nat /\ obs_xy h' n = Ok pts.
Proof.
  intros W L. destruct (new2 pts h) as [h' r] eqn:E. destruct (good_new2 _ _ _ _ W E) as [W' _].
  unfold new2 in E. replace (Nat.ltb (length pts) 2) with false in E by (symmetry; apply Nat.ltb_ge; auto). cbn in E. inversion E; subst.
  eexists _, _. split; [reflexivity|]. split; auto. split; [cbn; lia|]. unfold obs_xy. cbn [objs]. rewrite get_app_last. cbn. apply get_app_last.
Qed.
Lemma read_points_ok p h pts : wf h -> obs_xy h p = Ok pts -> exists h', read_points p h = (h', Ok pts) /\ wf h' /\ same_obs h h'.
Proof.
  intros W E. pose proof (read_points_obs h p W) as R. destruct (read_points p h) as [h' r] eqn:Er. cbn in R.
  destruct (good_read_points p h h' r W Er). exists h'. split; [|auto]. congruence.
Qed.
Lemma map_y_spec f p h pts : wf h -> obs_xy h p = Ok pts -> (2 <= length pts)%nat ->
  exists h' n, map_y f p h = (h', Ok n) /\ wf h' /\ (length (objs h) <= n)%nat /\ obs_xy h' n = Ok (map (fun q => (fst q, f (snd q))) pts).
Proof.
  intros W E L. destruct (read_points_ok p h pts W E) as (h1 & Er & W1 & S1 & _). unfold map_y, mbind. rewrite Er.
  destruct (new2_spec (map (fun q => (fst q, f (snd q))) pts) h1 W1) as (h2 & n & A & B & C & D); [rewrite map_length; auto|].
  exists h2, n. split; auto. split; auto. split; [lia|auto].
Qed.
Lemma get_obj_range h p pts : obs_xy h p = Ok pts -> (p < length (objs h))%nat.
Proof. unfold obs_xy. intros H. destruct (get (objs h) p) as [o|e] eqn:E; [|discriminate]. eapply get_range; eauto. Qed.
Lemma add_lines_spec op p q h a b s : wf h -> obs_xy h p = Ok a -> obs_xy h q = Ok b -> add_points op a b = Ok s ->
  exists h' n, add_lines op p q h = (h', Ok n) /\ wf h' /\ (length (objs h) <= n)%nat /\ obs_xy h' n = Ok s.
Proof.
  intros W Ea Eb Es. destruct (read_points_ok p h a W Ea) as (h1 & Er1 & W1 & L1 & _ & S1).
  assert (Eb1 : obs_xy h1 q = Ok b). { destruct (S1 q) as [X _]; [eapply get_obj_range; eauto|congruence]. }
  destruct (read_points_ok q h1 b W1 Eb1) as (h2 & Er2 & W2 & L2 & _). unfold add_lines, mbind, lift. rewrite Er1, Er2, Es.
  assert (L : (2 <= length s)%nat).
  { unfold add_points in Es. destruct (negb (monotone_x a) || negb (monotone_x b)); [discriminate|].
    destruct (orient a); [|discriminate]. destruct (orient b); [|discriminate]. cbn [bind] in Es. destruct (visits _); [|discriminate]. cbn [bind] in Es.
    unfold new_points in Es. destruct (Nat.ltb _ 2) eqn:X in Es; [discriminate|]. inversion Es; subst. apply Nat.ltb_ge in X. auto. }
  destruct (new2_spec s h2 W2 L) as (h3 & n & A & B & C & D). exists h3, n. split; auto. split; auto. split; [lia|auto].
Qed.
Lemma rsub_scalar_spec p c h pts : wf h -> obs_xy h p = Ok pts -> (2 <= length pts)%nat ->
  exists h' n, rsub_scalar p c h = (h', Ok n) /\ wf h' /\ (length (objs h) <= n)%nat /\
    obs_xy h' n = Ok (map (fun q => (fst q, c - snd q)) pts) /\ obs_xy h' p = Ok (shifted Rminus c pts).
Proof.
  intros W E L. destruct (add_scalar_spec Rminus p c h pts W E L) as (h1 & n1 & Ea & W1 & L1 & _ & X1 & X2 & _ & _ & _ & L2).
  destruct (map_y_spec (fun y => y * -1) n1 h1 (shifted Rminus c pts) W1 X1) as (h2 & n2 & Em & W2 & L3 & X3); [unfold shifted; rewrite map_length; auto|].
  destruct (good_map_y _ _ _ _ _ W1 Em) as [_ (_ & _ & S)].
  exists h2, n2. unfold rsub_scalar, mbind. rewrite Ea, Em. split; auto. split; auto.
  pose proof (get_obj_range _ _ _ X1). split; [lia|]. split.
  - rewrite X3. f_equal. unfold shifted. rewrite map_map. apply map_ext. intros q. cbn. f_equal. lra.
  - destruct (S p) as [Y _]; [eapply get_obj_range; eauto|]. congruence.
Qed.

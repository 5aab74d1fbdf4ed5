(** * C58 and C92: writing results *)
From Coq Require Import List Ascii String Bool Arith ZArith Lia.
From Verif Require Import Base StemModel SpecStem StemProofs PropsStem SaveModel SpecSave SaveProofs.
Import ListNotations.
Local Open Scope list_scope.

Section C58.
Variable str : pv -> text.
Variable frame_ok : pv -> pv -> pv -> pv -> result unit.
(** Every dictionary with data whose file name is its own gets its table written; nothing else in
    the file system changes, except that missing directories are made. *)
Theorem C58_files : forall h f refs directory stem create ext h' f',
  separate h refs -> save_grid_data_to_file str frame_ok (h, f) refs directory stem create ext = Ok (h', f') ->
  let dir := match directory with None => [] | Some d => d end in
  let dirname := if create then stem :: dir else dir in
  let name := fun r => (stem ++ str (entry (h r) "name" (PText [])) ++ ext) :: dirname in
  (forall r, In r refs -> has_data (h r) -> (forall r', In r' refs -> has_data (h r') -> name r' = name r -> r' = r) -> exists c, table_of h (h r) c /\ holds f' (name r) c) /\
  (forall q, (forall r, In r refs -> has_data (h r) -> q <> name r) -> at_ f' q = at_ f q \/ (at_ f q = None /\ at_ f' q = Some Dir /\ (q = dir \/ q = dirname))).
Proof.
  intros h f refs directory stem create ext h' f' Sep H dir dirname name. unfold save_grid_data_to_file in H. destruct refs as [|r0 refs0]; [injection H as <- <-; split; [intros r []|left; reflexivity]|].
  set (refs := r0 :: refs0) in *. cbn [fst snd] in H. fold dir in H.
  match type of H with bind ?q _ = _ => destruct q as [f1|] eqn:E1; [|discriminate H] end. cbn [bind] in H.
  assert (A1 : forall q, at_ f1 q = at_ f q \/ (at_ f q = None /\ at_ f1 q = Some Dir /\ q = dir)).
  { intros q. destruct (isdir f dir); [injection E1 as <-; left; reflexivity|]. destruct (mkdir_spec _ _ _ E1) as (m1 & m2 & m3). destruct (eqp q dir) eqn:E; [apply eqp_true in E; subst q; right; auto|apply eqp_false in E; left; apply m3, E]. }
  assert (A2 : exists f2, save_each str frame_ok dirname stem ext (h, f2) refs = Ok (h', f') /\ forall q, at_ f2 q = at_ f1 q \/ (at_ f1 q = None /\ at_ f2 q = Some Dir /\ q = dirname)).
  { unfold dirname. destruct create.
    - match type of H with bind ?q _ = _ => destruct q as [f2|] eqn:E2; [|discriminate H] end. cbn [bind] in H. exists f2. split; [exact H|]. intros q.
      destruct (isdir f1 (stem :: dir)); [injection E2 as <-; left; reflexivity|]. destruct (mkdir_spec _ _ _ E2) as (m1 & m2 & m3). destruct (eqp q (stem :: dir)) eqn:E; [apply eqp_true in E; subst q; right; auto|apply eqp_false in E; left; apply m3, E].
    - exists f1. split; [exact H|left; reflexivity]. }
  destruct A2 as (f2 & HS & A2). destruct (save_each_spec str frame_ok dirname stem ext refs h f2 h' f' Sep HS) as (_ & _ & B3 & _ & B5). split.
  - intros r Hr Hd U. destruct (B5 r Hr Hd) as (c & T & L); [|exists c; split; [exact T|exact L]]. intros r' Hr' Hd' E. apply U; auto. unfold name. unfold file_name in E. rewrite E. reflexivity.
  - intros q Nq. rewrite (B3 q) by (intros r Hr Hd E; apply (Nq r Hr Hd E)). destruct (A2 q) as [Q|(Q1 & Q2 & Q3)].
    + rewrite Q. destruct (A1 q) as [R|(R1 & R2 & R3)]; auto.
    + right. destruct (A1 q) as [R|(R1 & R2 & R3)]; [|congruence]. split; [congruence|split; [exact Q2|auto]].
Qed.
(** The caller's dictionaries: after a save all seven keys are gone from every one of them (the rest
    stays), and the options get index_label.  Saving again writes nothing. *)
Theorem C58_caller_refuted : forall h f refs directory stem create ext h' f', refs <> [] ->
  separate h refs -> save_grid_data_to_file str frame_ok (h, f) refs directory stem create ext = Ok (h', f') ->
  (forall r k, In r refs -> find (h' r) k = if existsb (String.eqb k) keys then None else find (h r) k) /\
  (forall x, ~ In x refs -> h' x = h x \/ ((exists r, In r refs /\ find (h r) "df_kwargs" = Some (PDict x)) /\ forall k, find (h' x) k = if String.eqb "index_label" k then Some (PText (t_ "idex")) else find (h x) k)) /\
  forall stem2 ext2, exists h2, save_each str frame_ok (match directory with None => [] | Some d => d end) stem2 ext2 (h', f') refs = Ok (h2, f').
Proof.
  intros h f refs directory stem create ext h' f' NE Sep H. assert (A : exists dirname f2, save_each str frame_ok dirname stem ext (h, f2) refs = Ok (h', f')).
  { unfold save_grid_data_to_file in H. destruct refs as [|r0 refs0]; [congruence|]. cbn [fst snd] in H. match type of H with bind ?q _ = _ => destruct q as [f1|] eqn:E1; [|discriminate H] end. cbn [bind] in H. destruct create; [|eauto].
    match type of H with bind ?q _ = _ => destruct q as [f2|] eqn:E2; [|discriminate H] end. cbn [bind] in H. eauto. }
  destruct A as (dn & f2 & HS). destruct (save_each_spec str frame_ok dn stem ext refs h f2 h' f' Sep HS) as (B1 & B2 & _). split; [exact B1|split; [exact B2|]]. intros stem2 ext2. apply save_each_again. intros r Hr k Hk. rewrite B1 by auto.
  assert (E : existsb (String.eqb k) keys = true) by (apply existsb_exists; exists k; split; [auto|apply String.eqb_refl]). rewrite E. reflexivity.
Qed.
(** Two dictionaries with data and the same name: the later one overwrites the earlier. *)
Theorem C58_same_name_refuted : forall stem ext, (forall a b c d, frame_ok a b c d = Ok tt) -> exists h refs h' f' c,
  separate h refs /\ List.length refs = 2%nat /\ NoDup refs /\ (forall r, In r refs -> has_data (h r)) /\
  save_grid_data_to_file str frame_ok (h, []) refs None stem false ext = Ok (h', f') /\ f' = [([stem ++ str (PText []) ++ ext], File c)].
Proof.
  intros stem ext Ok_. exists (fun r => match r with 0%nat => [("data"%string, PObj 1)] | 1%nat => [("data"%string, PObj 2)] | _ => [] end), [0; 1]%nat. do 3 eexists. split; [|split; [reflexivity|split; [|split; [|split]]]].
  - intros r d [<-|[<-|[]]]; cbn; discriminate.
  - constructor; [intros [|[]]; discriminate|constructor; [intros []|constructor]].
  - intros r [<-|[<-|[]]]; eexists; (split; [reflexivity|discriminate]).
  - lazy -[eqp app]. do 3 (rewrite ?Ok_, ?eqp_refl; lazy -[eqp app]). reflexivity.
  - reflexivity.
Qed.
End C58.

(** ** C92: saving data and figures of an object without overwrite never touches what was there *)
Section C92.
Local Open Scope nat_scope.
Local Open Scope list_scope.
Variable str : pv -> text.
Variable frame_ok : pv -> pv -> pv -> pv -> result unit.
Variable label : nat -> text.
Definition untouched (f f' : fs) : Prop := forall q, at_ f q <> None -> at_ f' q = at_ f q.
Lemma save_data_cases o st h f st' h' f' : save_data str frame_ok o st (h, f) = Ok (st', (h', f')) ->
  (save_data_to_file o = false /\ st' = st /\ f' = f /\ h' = h) \/
  (save_data_to_file o = true /\ exists dir s f0, ensure_stem o st f = Ok ((dir, s), f0) /\ st' = Some (dir, s) /\ (isdir f0 dir = true -> confined (named dir s) f0 f')).
Proof.
  unfold save_data. destruct (save_data_to_file o); cbn [negb]; intros H; [right; split; [reflexivity|]|left; injection H as -> -> ->; auto].
  cbn [fst snd] in H. destruct (ensure_stem o st f) as [[[dir s] f0]|] eqn:E0; [|discriminate H]. cbn [bind] in H. exists dir, s, f0. split; [reflexivity|].
  match type of H with bind ?q _ = _ => destruct q as [f1|] eqn:E1; [|discriminate H] end. cbn [bind] in H.
  match type of H with bind ?q _ = _ => destruct q as [f2|] eqn:E2; [|discriminate H] end. cbn [bind] in H.
  match type of H with bind ?q _ = _ => destruct q as [[h3 f3]|] eqn:E3; [|discriminate H] end. cbn [bind] in H. injection H as <- <- <-. split; [reflexivity|]. intros ID.
  assert (C1 : confined (named dir s) f0 f1 /\ isdir f1 dir = true).
  { destruct (input_text o); [|injection E1 as <-; split; [apply confined_refl|exact ID]]. split; [apply (write_confined _ _ _ _ _ (ex_intro _ _ eq_refl) E1)|rewrite (write_dirs _ _ _ _ dir E1); exact ID]. }
  destruct C1 as [C1 ID1].
  assert (C2 : confined (named dir s) f1 f2 /\ isdir f2 dir = true).
  { destruct (parsed_text o); [|injection E2 as <-; split; [apply confined_refl|exact ID1]]. split; [apply (write_confined _ _ _ _ _ (ex_intro _ _ eq_refl) E2)|rewrite (write_dirs _ _ _ _ dir E2); exact ID1]. }
  destruct C2 as [C2 ID2].
  assert (C3 : confined (named dir s) f2 f3).
  { destruct (grid_data_dicts o) as [refs|]; [|injection E3 as _ <-; apply confined_refl]. unfold save_grid_data_to_file in E3. destruct refs as [|r refs]; [injection E3 as _ <-; apply confined_refl|]. cbn [fst snd] in E3. rewrite ID2 in E3. cbn [bind] in E3.
    apply (save_each_confined str frame_ok _ _ _ _ _ _ _ E3). }
  eapply confined_trans; [exact C1|]. eapply confined_trans; [exact C2|exact C3].
Qed.
Lemma save_figs_confined dir s ext l : forall i f f', save_figs label dir s ext i l f = Ok f' -> confined (named dir s) f f'.
Proof.
  induction l as [|id l IH]; intros i f f' H; cbn [save_figs] in H; [injection H as <-; apply confined_refl|].
  match type of H with bind ?q _ = _ => destruct q as [f1|] eqn:E1; [|discriminate H] end. cbn [bind] in H. eapply confined_trans; [apply (write_confined _ _ _ _ _ (ex_intro _ _ eq_refl) E1)|apply (IH _ _ _ H)].
Qed.
Lemma save_figures_cases o figs st f st' f' : save_figures label o figs st f = Ok (st', f') ->
  (st' = st /\ f' = f) \/ (exists dir s f0, ensure_stem o st f = Ok ((dir, s), f0) /\ st' = Some (dir, s) /\ confined (named dir s) f0 f').
Proof.
  unfold save_figures. destruct (save_figures_to_file o); cbn [negb]; [|intros H; injection H as <- <-; auto]. destruct figs as [|id|l]; [intros H; injection H as <- <-; auto| |];
  (destruct (ensure_stem o st f) as [[[dir s] f0]|] eqn:E0; [|discriminate]); cbn [bind]; [discriminate|]. intros H.
  match type of H with bind ?q _ = _ => destruct q as [f1|] eqn:E1; [|discriminate H] end. cbn [bind] in H. injection H as <- <-. right. exists dir, s, f0. split; [reflexivity|split; [reflexivity|]]. apply (save_figs_confined _ _ _ _ _ _ _ E1).
Qed.
(** one or several savings by one object, in any order *)
Inductive saves (o : saver) : option stem -> heap * fs -> option stem -> heap * fs -> Prop :=
| saves_none st hf : saves o st hf st hf
| saves_data st hf st1 hf1 st2 hf2 : save_data str frame_ok o st hf = Ok (st1, hf1) -> saves o st1 hf1 st2 hf2 -> saves o st hf st2 hf2
| saves_figs figs st hf st1 f1 st2 hf2 : save_figures label o figs st (snd hf) = Ok (st1, f1) -> saves o st1 (fst hf, f1) st2 hf2 -> saves o st hf st2 hf2.
Lemma saves_inv o st hf st' hf' : saves o st hf st' hf' -> forall f0, tree f0 -> overwrite o <> Some true ->
  (st = None /\ snd hf = f0 \/ exists dir s, st = Some (dir, s) /\ isdir (snd hf) dir = true /\ (forall q, named dir s q -> at_ f0 q = None) /\ untouched f0 (snd hf)) -> untouched f0 (snd hf').
Proof.
  intros H f0 T NO. induction H as [st hf|st [h f] st1 [h1 f1] st2 hf2 D _ IH|figs st [h f] st1 f1 st2 hf2 D _ IH]; intros I.
  - destruct I as [[_ <-]|(dir & s & _ & _ & _ & U)]; [intros q _; reflexivity|exact U].
  - apply IH. clear IH. cbn [snd] in *. destruct (save_data_cases _ _ _ _ _ _ _ D) as [(_ & -> & -> & _)|(_ & dir & s & f2 & E & -> & C)]; [exact I|right]. exists dir, s. split; [reflexivity|].
    assert (Q : isdir f2 dir = true /\ (forall q, named dir s q -> at_ f0 q = None) /\ untouched f0 f2).
    { destruct I as [[-> <-]|(dir' & s' & -> & ID & F & U)]; cbn [ensure_stem] in E.
      - destruct (stem_fresh o f dir s f2 T NO E) as (F & U & ID). auto.
      - injection E as <- <- <-. auto. }
    destruct Q as (Q1 & Q2 & Q3). specialize (C Q1). split; [|split; [exact Q2|]].
    + rewrite (isdir_same f2 f1); [exact Q1|]. apply C. intros (rest & Ed). apply (f_equal (@List.length text)) in Ed. cbn in Ed. lia.
    + intros q Hq. rewrite C; [apply Q3, Hq|]. intros N. apply Hq. apply Q2, N.
  - apply IH. clear IH. cbn [fst snd] in *. destruct (save_figures_cases _ _ _ _ _ _ D) as [(-> & ->)|(dir & s & f2 & E & -> & C)]; [exact I|right]. exists dir, s. split; [reflexivity|].
    assert (Q : isdir f2 dir = true /\ (forall q, named dir s q -> at_ f0 q = None) /\ untouched f0 f2).
    { destruct I as [[-> <-]|(dir' & s' & -> & ID & F & U)]; cbn [ensure_stem] in E.
      - destruct (stem_fresh o f dir s f2 T NO E) as (F & U & ID). auto.
      - injection E as <- <- <-. auto. }
    destruct Q as (Q1 & Q2 & Q3). split; [|split; [exact Q2|]].
    + rewrite (isdir_same f2 f1); [exact Q1|]. apply C. intros (rest & Ed). apply (f_equal (@List.length text)) in Ed. cbn in Ed. lia.
    + intros q Hq. rewrite C; [apply Q3, Hq|]. intros N. apply Hq. apply Q2, N.
Qed.
Theorem C92_nothing_lost : forall o h f st' h' f', tree f -> overwrite o <> Some true ->
  saves o None (h, f) st' (h', f') -> nothing_lost f f' /\ forall p, isdir f p = true -> isdir f' p = true.
Proof.
  intros o h f st' h' f' T NO H. assert (U := saves_inv o None (h, f) st' (h', f') H f T NO (or_introl (conj eq_refl eq_refl))). cbn [snd] in U. split.
  - intros p c E. unfold holds in *. rewrite U by congruence. exact E.
  - intros p E. destruct p as [|n q]; [reflexivity|]. unfold isdir in *. rewrite U; [exact E|]. destruct (at_ f (n :: q)); [discriminate|discriminate E].
Qed.
(** Figures: each figure of a list is in the file of its label, or of its number if it has none, as
    long as no later one has the same file name. *)
Definition figure_file (dir : path) (s ext : text) (i : nat) (id : nat) : path :=
  (s ++ t_ "_" ++ (match label id with [] => t_ "Figure_" ++ str_zfill 2 (Z.of_nat i) | lb => lb end) ++ ext) :: dir.
Lemma save_figs_spec dir s ext l : forall i f f', save_figs label dir s ext (Z.of_nat i) l f = Ok f' ->
  (forall k id, nth_error l k = Some id -> (forall k' id', k < k' -> nth_error l k' = Some id' -> figure_file dir s ext (i + k') id' <> figure_file dir s ext (i + k) id) -> holds f' (figure_file dir s ext (i + k) id) (CFigure id)) /\
  (forall q, (forall k id, nth_error l k = Some id -> q <> figure_file dir s ext (i + k) id) -> at_ f' q = at_ f q).
Proof.
  induction l as [|a l IH]; intros i f f' H; cbn [save_figs] in H; [injection H as <-; split; [intros [|k] id E; discriminate E|reflexivity]|].
  match type of H with bind ?q _ = _ => destruct q as [f1|] eqn:E1; [|discriminate H] end. cbn [bind] in H. replace (Z.of_nat i + 1)%Z with (Z.of_nat (S i)) in H by lia. destruct (IH _ _ _ H) as [A B].
  destruct (write_spec _ _ _ _ E1) as (W1 & W2 & _). change ((s ++ t_ "_" ++ (match label a with [] => t_ "Figure_" ++ str_zfill 2 (Z.of_nat i) | lb => lb end) ++ ext) :: dir) with (figure_file dir s ext i a) in *. split.
  - intros [|k] id E U.
    + injection E as ->. rewrite Nat.add_0_r in *. unfold holds. rewrite B; [exact W1|]. intros k id' E' Eq. apply (U (S k) id'); [lia|exact E'|]. replace (i + S k) with (S i + k) by lia. symmetry. exact Eq.
    + cbn [nth_error] in E. replace (i + S k) with (S i + k) by lia. apply A; [exact E|]. intros k' id' L E' Eq. apply (U (S k') id'); [lia|exact E'|]. replace (i + S k') with (S i + k') by lia. replace (i + S k) with (S i + k) by lia. exact Eq.
  - intros q Nq. rewrite B, W2; [reflexivity| |].
    + rewrite <- (Nat.add_0_r i). apply (Nq 0 a). reflexivity.
    + intros k id E. replace (S i + k) with (i + S k) by lia. apply (Nq (S k) id E).
Qed.
Theorem C92_figures : forall o l st f st' f', save_figures_to_file o = true -> save_figures label o (Figures l) st f = Ok (st', f') -> exists dir s, st' = Some (dir, s) /\
  forall k id, nth_error l k = Some id -> (forall k' id', k < k' -> nth_error l k' = Some id' -> figure_file dir s (figure_ext o) k' id' <> figure_file dir s (figure_ext o) k id) ->
    holds f' (figure_file dir s (figure_ext o) k id) (CFigure id).
Proof.
  intros o l st f st' f' SF. unfold save_figures. rewrite SF. cbn [negb]. destruct (ensure_stem o st f) as [[[dir s] f0]|] eqn:E0; [|discriminate]. cbn [bind]. intros H.
  match type of H with bind ?q _ = _ => destruct q as [f1|] eqn:E1; [|discriminate H] end. cbn [bind] in H. injection H as <- <-. exists dir, s. split; [reflexivity|]. apply (save_figs_spec dir s (figure_ext o) l 0 f0 f1 E1).
Qed.
(** A single figure, not in a list, cannot be saved. *)
Theorem C92_single_figure_refuted : forall o id dir s f, save_figures_to_file o = true -> save_figures label o (OneFigure id) (Some (dir, s)) f = Err TypeError.
Proof. intros o id dir s f SF. unfold save_figures. rewrite SF. reflexivity. Qed.
End C92.

(** a folder with earlier output: the new files go to out0013/ *)
Definition demo_saver : saver := mkSaver None None None true true true (Some (t_ "H=1")) None (t_ ".py") (t_ ".csv") (t_ ".eps") (Some [7%nat]).
Definition demo_fs : fs := [([t_ "out0012"], Dir); ([t_ "out0012.csv"; t_ "out0012"], File (CText []))].
Example demo_tree : tree demo_fs.
Proof.
  intros n q. unfold demo_fs. rewrite !at_cons. cbn [fst snd]. destruct (eqp [t_ "out0012"] (n :: q)) eqn:E1; [apply eqp_true in E1; injection E1 as _ <-; reflexivity|].
  destruct (eqp [t_ "out0012.csv"; t_ "out0012"] (n :: q)) eqn:E2; [apply eqp_true in E2; injection E2 as _ <-; reflexivity|]. cbn. congruence.
Qed.
Example demo_saves : exists h' f', save_data (fun _ => t_ "_u") (fun _ _ _ _ => Ok tt) demo_saver None (fun _ => [("data"%string, PObj 1)], demo_fs) = Ok (Some ([t_ "out0013"], t_ "out0013"), (h', f')) /\
  List.map fst f' = [[t_ "out0013_u.csv"; t_ "out0013"]; [t_ "out0013_input_original.py"; t_ "out0013"]; [t_ "out0013"]; [t_ "out0012"]; [t_ "out0012.csv"; t_ "out0012"]].
Proof. do 2 eexists. split; [vm_compute; reflexivity|reflexivity]. Qed.
Print Assumptions C58_files.
Print Assumptions C58_caller_refuted.
Print Assumptions C92_nothing_lost.
Print Assumptions C92_figures.

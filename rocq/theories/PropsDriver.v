(** * Properties C51 (working_directory) and C54 (batch processing of input files) *)
From Coq Require Import List String ZArith Bool Lia.
From Verif Require Import DriverModel.
Import ListNotations.
Local Open Scope list_scope.

(** ** Vocabulary: reading a trace *)
Definition taken_up (tr : list event) : list path := flat_map (fun e => match e with EFile f => [f] | _ => [] end) tr.
Definition constructed (tr : list event) : list (path * list string) := flat_map (fun e => match e with EConstruct f d => [(f, d)] | _ => [] end) tr.
Definition called (tr : list event) : list string := flat_map (fun e => match e with ECall m _ => [m] | _ => [] end) tr.
Definition problems (tr : list event) : list path := flat_map (fun e => match e with EProblem f => [f] | _ => [] end) tr.
Lemma taken_up_app a b : taken_up (a ++ b) = taken_up a ++ taken_up b. Proof. apply flat_map_app. Qed.
Lemma constructed_app a b : constructed (a ++ b) = constructed a ++ constructed b. Proof. apply flat_map_app. Qed.
Lemma called_app a b : called (a ++ b) = called a ++ called b. Proof. apply flat_map_app. Qed.
Lemma problems_app a b : problems (a ++ b) = problems a ++ problems b. Proof. apply flat_map_app. Qed.

Section Any.
Variable R : Type.
Variable isdir : R -> list string -> bool.
Notation world := (world R). Notation action := (action R). Notation logged := (logged R).
Notation working_directory := (working_directory R isdir).

(** where a path leads, seen from the current directory; '' leads nowhere *)
Definition leads_to (w : world) (p : path) (d : list string) : Prop :=
  (absolute p = true /\ d = parts p \/ absolute p = false /\ parts p <> [] /\ d = cwd R w ++ parts p) /\ isdir (rest R w) d = true.

Lemma chdir_ok p w w1 : chdir R isdir p w = (w1, Done) -> leads_to w p (cwd R w1) /\ rest R w1 = rest R w /\ level R w1 = level R w.
Proof.
  unfold chdir, leads_to, abspath. destruct p as [[] ps]; cbn [absolute parts].
  - cbn [orb]. destruct (isdir (rest R w) ps) eqn:E; cbn [negb]; [|discriminate]. intros H. injection H as <-. cbn. split; auto.
  - destruct ps as [|a ps]; [discriminate|]. cbn [orb]. destruct (isdir (rest R w) (cwd R w ++ a :: ps)) eqn:E; cbn [negb]; [|discriminate]. intros H. injection H as <-. cbn. split; auto. split; [right; split; auto; split; [discriminate|auto]|auto].
Qed.
Lemma chdir_fail p w w1 e : chdir R isdir p w = (w1, e) -> e <> Done -> w1 = w /\ e = Raised os_error /\ forall d, ~ leads_to w p d.
Proof.
  unfold chdir, leads_to, abspath. destruct p as [[] ps]; cbn [absolute parts orb].
  - destruct (isdir (rest R w) ps) eqn:E; cbn [negb]; intros H; injection H as <- <-; intros N; [contradiction|]. split; auto. split; auto. intros d [[[_ ->]|[Q _]] Hd]; congruence.
  - destruct ps as [|a ps]; cbn [orb].
    + intros H; injection H as <- <-. intros _. split; auto. split; auto. intros d [[[Q _]|(_ & Q & _)] _]; congruence.
    + destruct (isdir (rest R w) (cwd R w ++ a :: ps)) eqn:E; cbn [negb]; intros H; injection H as <- <-; intros N; [contradiction|]. split; auto. split; auto. intros d [[[Q _]|(_ & _ & ->)] Hd]; congruence.
Qed.

(** ** C51 *)
(** If the directory the block was entered from still exists when the block ends, the program is
    back in it - after a normal end, an exception or an interrupt - and the end of the block is the
    end of the body.  The body has run exactly when the path leads to a directory, in that
    directory. *)
Theorem C51_restored : forall p body (w w' : world) tr o,
  isdir (rest R w) (cwd R w) = true -> working_directory p body w = (w', tr, o) -> isdir (rest R w') (cwd R w) = true ->
  cwd R w' = cwd R w /\
  ((exists d w2, leads_to w p d /\ body (mkWorld R d (level R w) (rest R w)) = (w2, tr, o) /\ rest R w' = rest R w2 /\ level R w' = level R w2) \/
   ((forall d, ~ leads_to w p d) /\ w' = w /\ tr = [] /\ o = Raised os_error)).
Proof.
  intros p body w w' tr o Hw H Hk. unfold DriverModel.working_directory in H. rewrite Hw in H. cbn [negb] in H.
  destruct (chdir R isdir p w) as [w1 o1] eqn:E. destruct o1 as [|e|e].
  - apply chdir_ok in E. destruct E as (L & E1 & E2). destruct w1 as [d1 l1 r1]. cbn in L, E1, E2. subst l1 r1.
    destruct (body _) as [[w2 tr2] o2] eqn:B. destruct (chdir R isdir _ w2) as [w3 o3] eqn:E3. destruct o3 as [|e|e].
    + injection H as <- <- <-. apply chdir_ok in E3. destruct E3 as (L3 & E4 & E5). split; [destruct L3 as [[[_ Q]|[Q _]] _]; [exact Q|discriminate]|]. left. exists d1, w2. auto.
    + injection H as <- <- <-. apply chdir_fail in E3; [|discriminate]. destruct E3 as (-> & _ & N). exfalso. apply (N (cwd R w)). split; auto.
    + injection H as <- <- <-. apply chdir_fail in E3; [|discriminate]. destruct E3 as (-> & _ & N). exfalso. apply (N (cwd R w)). split; auto.
  - injection H as <- <- <-. apply chdir_fail in E; [|discriminate]. destruct E as (-> & Q & N). split; auto.
  - injection H as <- <- <-. apply chdir_fail in E; [|discriminate]. destruct E as (-> & Q & N). discriminate.
Qed.
(** If the body removes that directory the block ends with an OSError, whatever the body raised. *)
Theorem C51_directory_removed : forall p body (w w' : world) tr o d,
  isdir (rest R w) (cwd R w) = true -> leads_to w p d -> working_directory p body w = (w', tr, o) -> isdir (rest R w') (cwd R w) = false ->
  o = Raised os_error /\ exists o', body (mkWorld R d (level R w) (rest R w)) = (w', tr, o').
Proof.
  intros p body w w' tr o d Hw L H Hk. unfold DriverModel.working_directory in H. rewrite Hw in H. cbn [negb] in H.
  destruct (chdir R isdir p w) as [w1 o1] eqn:E. destruct o1 as [|e|e].
  - apply chdir_ok in E. destruct E as (L1 & E1 & E2). destruct w1 as [d1 l1 r1]. cbn in L1, E1, E2. subst l1 r1.
    assert (d1 = d) as ->. { destruct L as [[[A ->]|(A & B & ->)] _], L1 as [[[A1 ->]|(A1 & B1 & ->)] _]; congruence. }
    destruct (body _) as [[w2 tr2] o2] eqn:B. destruct (chdir R isdir _ w2) as [w3 o3] eqn:E3. destruct o3 as [|e|e].
    + injection H as <- <- <-. apply chdir_ok in E3. destruct E3 as (L3 & E4 & E5). destruct L3 as [[[_ Q]|[Q _]] L3]; [|discriminate]. cbn in Q. rewrite Q, E4 in *. congruence.
    + injection H as <- <- <-. apply chdir_fail in E3; [|discriminate]. destruct E3 as (-> & Q & N). split; auto. eauto.
    + injection H as <- <- <-. apply chdir_fail in E3; [|discriminate]. destruct E3 as (-> & Q & N). discriminate.
  - apply chdir_fail in E; [|discriminate]. destruct E as (_ & _ & N). exfalso. apply (N d). auto.
  - apply chdir_fail in E; [|discriminate]. destruct E as (_ & Q & N). discriminate.
Qed.
(** Nested blocks, to any depth: the directory is the one before the outermost block, provided the
    innermost code removes no directory. *)
Fixpoint nested (ps : list path) (body : logged) : logged := match ps with [] => body | p :: r => working_directory p (nested r body) end.
Theorem C51_nested : forall ps p body, (forall w w' tr o, body w = (w', tr, o) -> forall d, isdir (rest R w) d = true -> isdir (rest R w') d = true) ->
  forall (w w' : world) tr o, isdir (rest R w) (cwd R w) = true -> nested (p :: ps) body w = (w', tr, o) -> cwd R w' = cwd R w.
Proof.
  intros ps p body K. assert (G : forall ps w w' tr o, nested ps body w = (w', tr, o) -> forall d, isdir (rest R w) d = true -> isdir (rest R w') d = true).
  { clear p. clear ps. induction ps as [|p ps IH]; intros w w' tr o H d Hd; [eapply K; eauto|]. cbn [nested] in H. unfold DriverModel.working_directory in H.
    destruct (isdir (rest R w) (cwd R w)); cbn [negb] in H; [|injection H as <- <- <-; auto].
    destruct (chdir R isdir p w) as [w1 o1] eqn:E. destruct o1 as [|e|e].
    - apply chdir_ok in E. destruct E as (_ & E1 & _). destruct (nested ps body w1) as [[w2 tr2] o2] eqn:B. assert (Q : isdir (rest R w2) d = true) by (eapply IH; [exact B|]; rewrite E1; auto).
      destruct (chdir R isdir _ w2) as [w3 o3] eqn:E3. destruct o3; injection H as <- <- <-.
      + apply chdir_ok in E3. destruct E3 as (_ & -> & _). auto.
      + apply chdir_fail in E3; [|discriminate]. destruct E3 as (-> & _). auto.
      + apply chdir_fail in E3; [|discriminate]. destruct E3 as (-> & _). auto.
    - injection H as <- <- <-. apply chdir_fail in E; [|discriminate]. destruct E as (-> & _). auto.
    - injection H as <- <- <-. apply chdir_fail in E; [|discriminate]. destruct E as (-> & _). auto. }
  intros w w' tr o Hw H. assert (Hk := G (p :: ps) w w' tr o H _ Hw). cbn [nested] in H. eapply C51_restored; eauto.
Qed.

(** ** C54 *)
Variable open_ : path -> action. Variable obj : path -> action. Variable method : string -> path -> action.
Notation process := (process R open_ obj method).
Notation run_files := (run_files R isdir).
(** user code that leaves directory d in place *)
Definition keeps (d : list string) (a : action) : Prop := forall w w' o, a w = (w', o) -> isdir (rest R w) d = true -> isdir (rest R w') d = true.
Definition user_keeps (d : list string) : Prop := (forall f, keeps d (open_ f)) /\ (forall f, keeps d (obj f)) /\ forall m f, keeps d (method m f).
(** user code that is not interrupted *)
Definition uninterrupted (a : action) : Prop := forall w w' o e, a w = (w', o) -> o <> RaisedBase e.
Definition user_uninterrupted : Prop := (forall f, uninterrupted (open_ f)) /\ (forall f, uninterrupted (obj f)) /\ forall m f, uninterrupted (method m f).

(** One file: the object is constructed, then its methods are called in order up to the first that
    fails, all of them when the run succeeds, none when the construction fails; a file that is
    opened is closed before the first method and whatever happens. *)
Lemma call_methods_spec f ms : forall w w' tr o, call_methods R method ms f w = (w', tr, o) ->
  taken_up tr = [] /\ problems tr = [] /\ constructed tr = [] /\ (exists k, tr = map (fun m => ECall m f) (firstn k ms)) /\ (o = Done -> called tr = ms) /\ (o <> Done -> called tr <> []).
Proof.
  induction ms as [|m ms IH]; intros w w' tr o H; cbn [call_methods] in H.
  - injection H as <- <- <-. repeat (split; [reflexivity|]). split; [exists 0; reflexivity|]. split; [reflexivity|]. intros N. contradiction.
  - destruct (method m f w) as [w1 o1]. destruct o1 as [|e|e].
    + destruct (call_methods R method ms f w1) as [[w2 tr2] o2] eqn:E. injection H as <- <- <-. destruct (IH _ _ _ _ E) as (H1 & H2 & H3 & (k & H4) & H5 & H6).
      split; [exact H1|]. split; [exact H2|]. split; [exact H3|]. split; [exists (S k); cbn; rewrite H4; reflexivity|]. split; [intros Q; cbn; f_equal; auto|discriminate].
    + injection H as <- <- <-. repeat (split; [reflexivity|]). split; [exists 1; reflexivity|]. split; discriminate.
    + injection H as <- <- <-. repeat (split; [reflexivity|]). split; [exists 1; reflexivity|]. split; discriminate.
Qed.
Theorem C54_one_file : forall po ms f (w w' : world) tr o, process po ms f w = (w', tr, o) ->
  exists pre k, tr = pre ++ map (fun m => ECall m f) (firstn k ms) /\
    ((exists d, pre = if po then [EOpen f; EConstruct f d; EClose f] else [EConstruct f d]) \/ po = true /\ pre = [] /\ k = 0 /\ o <> Done) /\
    (o = Done -> called tr = ms).
Proof.
  intros po ms f w w' tr o H. unfold DriverModel.process in H. destruct po.
  - destruct (open_ f w) as [w1 o1]. destruct o1 as [|e|e].
    + destruct (obj f w1) as [w2 o2]. destruct o2 as [|e|e].
      * destruct (call_methods R method ms f w2) as [[w3 tr3] o3] eqn:E. injection H as <- <- <-. destruct (call_methods_spec _ _ _ _ _ _ E) as (H1 & H2 & H3 & (k & ->) & H5 & H6).
        exists [EOpen f; EConstruct f (cwd R w1); EClose f], k. split; [reflexivity|]. split; [left; eexists; reflexivity|]. intros Q. exact (H5 Q).
      * injection H as <- <- <-. exists [EOpen f; EConstruct f (cwd R w1); EClose f], 0. split; [reflexivity|]. split; [left; eexists; reflexivity|discriminate].
      * injection H as <- <- <-. exists [EOpen f; EConstruct f (cwd R w1); EClose f], 0. split; [reflexivity|]. split; [left; eexists; reflexivity|discriminate].
    + injection H as <- <- <-. exists [], 0. split; [reflexivity|]. split; [right; repeat split; auto; discriminate|discriminate].
    + injection H as <- <- <-. exists [], 0. split; [reflexivity|]. split; [right; repeat split; auto; discriminate|discriminate].
  - destruct (obj f w) as [w2 o2]. destruct o2 as [|e|e].
    + destruct (call_methods R method ms f w2) as [[w3 tr3] o3] eqn:E. injection H as <- <- <-. destruct (call_methods_spec _ _ _ _ _ _ E) as (H1 & H2 & H3 & (k & ->) & H5 & H6).
      exists [EConstruct f (cwd R w)], k. split; [reflexivity|]. split; [left; eexists; reflexivity|]. intros Q. exact (H5 Q).
    + injection H as <- <- <-. exists [EConstruct f (cwd R w)], 0. split; [reflexivity|]. split; [left; eexists; reflexivity|discriminate].
    + injection H as <- <- <-. exists [EConstruct f (cwd R w)], 0. split; [reflexivity|]. split; [left; eexists; reflexivity|discriminate].
Qed.
Lemma process_quiet po ms f w w' tr o : process po ms f w = (w', tr, o) -> taken_up tr = [] /\ problems tr = [].
Proof.
  intros H. destruct (C54_one_file _ _ _ _ _ _ _ H) as (pre & k & -> & P & _). rewrite taken_up_app, problems_app.
  assert (Q : forall l, taken_up (map (fun m => ECall m f) l) = [] /\ problems (map (fun m => ECall m f) l) = []) by (induction l; cbn; auto).
  destruct (Q (firstn k ms)) as [-> ->]. rewrite !app_nil_r. destruct P as [(d & ->)|(_ & -> & _)]; [destruct po|]; split; reflexivity.
Qed.
Lemma call_methods_keeps d f ms : user_keeps d -> forall w w' tr o, call_methods R method ms f w = (w', tr, o) -> isdir (rest R w) d = true -> isdir (rest R w') d = true.
Proof.
  intros (_ & _ & K). induction ms as [|m ms IH]; intros w w' tr o H Hd; cbn [call_methods] in H; [injection H as <- <- <-; auto|].
  destruct (method m f w) as [w1 o1] eqn:E. assert (Q := K m f _ _ _ E Hd). destruct o1; [|injection H as <- <- <-; auto..]. destruct (call_methods R method ms f w1) as [[w2 tr2] o2] eqn:E2. injection H as <- <- <-. eauto.
Qed.
Lemma process_keeps d po ms f : user_keeps d -> forall w w' tr o, process po ms f w = (w', tr, o) -> isdir (rest R w) d = true -> isdir (rest R w') d = true.
Proof.
  intros K w w' tr o H Hd. assert (K0 := K). destruct K as (K1 & K2 & K3). unfold DriverModel.process in H. destruct po.
  - destruct (open_ f w) as [w1 o1] eqn:E1. assert (Q1 := K1 f _ _ _ E1 Hd). destruct o1; [|injection H as <- <- <-; auto..].
    destruct (obj f w1) as [w2 o2] eqn:E2. assert (Q2 := K2 f _ _ _ E2 Q1). destruct o2; [|injection H as <- <- <-; auto..].
    destruct (call_methods R method ms f w2) as [[w3 tr3] o3] eqn:E3. injection H as <- <- <-. eapply call_methods_keeps; eauto.
  - destruct (obj f w) as [w2 o2] eqn:E2. assert (Q2 := K2 f _ _ _ E2 Hd). destruct o2; [|injection H as <- <- <-; auto..].
    destruct (call_methods R method ms f w2) as [[w3 tr3] o3] eqn:E3. injection H as <- <- <-. eapply call_methods_keeps; eauto.
Qed.
Lemma wd_keeps d po ms f p : user_keeps d -> forall w w' tr o, working_directory p (process po ms f) w = (w', tr, o) -> isdir (rest R w) d = true -> isdir (rest R w') d = true.
Proof.
  intros K w w' tr o H Hd. unfold DriverModel.working_directory in H. destruct (isdir (rest R w) (cwd R w)); cbn [negb] in H; [|injection H as <- <- <-; auto].
  destruct (chdir R isdir p w) as [w1 o1] eqn:E. destruct o1 as [|e|e].
  - apply chdir_ok in E. destruct E as (_ & E1 & _). destruct (process po ms f w1) as [[w2 tr2] o2] eqn:B. assert (Q : isdir (rest R w2) d = true) by (eapply process_keeps; [exact K|exact B|]; rewrite E1; auto).
    destruct (chdir R isdir _ w2) as [w3 o3] eqn:E3. destruct o3; injection H as <- <- <-.
    + apply chdir_ok in E3. destruct E3 as (_ & -> & _). auto.
    + apply chdir_fail in E3; [|discriminate]. destruct E3 as (-> & _). auto.
    + apply chdir_fail in E3; [|discriminate]. destruct E3 as (-> & _). auto.
  - injection H as <- <- <-. apply chdir_fail in E; [|discriminate]. destruct E as (-> & _). auto.
  - injection H as <- <- <-. apply chdir_fail in E; [|discriminate]. destruct E as (-> & _). auto.
Qed.

(** The batch as a sequence of single runs, each starting where the previous one ended. *)
Inductive batch (po : bool) (ms : list string) : world -> list (path * outcome * list event) -> world -> Prop :=
| batch_nil w : batch po ms w [] w
| batch_cons w f tr o w1 l w2 : working_directory (dirname f) (process po ms f) w = (w1, tr, o) -> batch po ms w1 l w2 -> batch po ms w ((f, o, tr) :: l) w2.
Definition failed (r : path * outcome * list event) : list path := match r with (f, Raised _, _) => [f] | _ => [] end.
Definition interrupted (r : path * outcome * list event) : Prop := exists f e tr, r = (f, RaisedBase e, tr).
Lemma loop_batch po ms files : forall w w' tr o, loop R isdir (process po ms) files w = (w', tr, o) ->
  exists l, batch po ms w l w' /\ taken_up tr = map (fun r => fst (fst r)) l /\ problems tr = flat_map failed l /\ constructed tr = flat_map (fun r => constructed (snd r)) l /\
    ((o = Done /\ map (fun r => fst (fst r)) l = files /\ List.Forall (fun r => ~ interrupted r) l) \/
     (exists l0 f e tr0, o = RaisedBase e /\ l = l0 ++ [(f, RaisedBase e, tr0)] /\ List.Forall (fun r => ~ interrupted r) l0 /\ exists more, files = map (fun r => fst (fst r)) l ++ more)).
Proof.
  induction files as [|f files IH]; intros w w' tr o H; cbn [loop] in H.
  - injection H as <- <- <-. exists []. split; [constructor|]. repeat (split; [reflexivity|]). left. auto.
  - destruct (working_directory (dirname f) (process po ms f) w) as [[w1 tr1] o1] eqn:E.
    assert (QT : taken_up tr1 = [] /\ problems tr1 = []).
    { unfold DriverModel.working_directory in E. destruct (isdir (rest R w) (cwd R w)); cbn [negb] in E; [|injection E as <- <- <-; auto].
      destruct (chdir R isdir (dirname f) w) as [wa oa]. destruct oa; [|injection E as <- <- <-; auto..]. destruct (process po ms f wa) as [[w2 tr2] o2] eqn:B.
      apply process_quiet in B. destruct (chdir R isdir _ w2) as [w3 o3]. destruct o3; injection E as <- <- <-; auto. }
    destruct QT as [QT QP].
    destruct o1 as [|e|e].
    3: { injection H as <- <- <-. exists [(f, RaisedBase e, tr1)]. split; [econstructor; [exact E|constructor]|]. split; [change (f :: taken_up tr1 = [f]); rewrite QT; auto|]. split; [exact QP|]. split; [cbn [flat_map snd]; rewrite app_nil_r; reflexivity|].
         right. exists [], f, e, tr1. split; auto. split; auto. split; auto. exists files. reflexivity. }
    all: destruct (loop R isdir (process po ms) files w1) as [[w2 tr2] o2] eqn:E2; injection H as <- <- <-; destruct (IH _ _ _ _ E2) as (l & B & HT & HP & HC & HR).
    all: [> exists ((f, Done, tr1) :: l) | exists ((f, Raised e, tr1) :: l)].
    all: assert (BB := batch_cons po ms _ _ _ _ _ _ _ E B).
    + split; [exact BB|]. split; [change (f :: taken_up (tr1 ++ tr2) = f :: map (fun r => fst (fst r)) l); rewrite taken_up_app, QT, HT; reflexivity|].
      split; [change (problems (tr1 ++ tr2) = flat_map failed l); rewrite problems_app, QP, HP; reflexivity|].
      split; [change (constructed (tr1 ++ tr2) = constructed tr1 ++ flat_map (fun r => constructed (snd r)) l); rewrite constructed_app, HC; reflexivity|].
      destruct HR as [(-> & Hl & HF)|(l0 & g & e & tr0 & -> & -> & HF & more & ->)].
      * left. split; auto. split; [cbn [map fst]; f_equal; auto|]. constructor; auto. intros (? & ? & ? & Q). discriminate.
      * right. exists ((f, Done, tr1) :: l0), g, e, tr0. split; auto. split; auto. split; [|exists more; reflexivity]. constructor; auto. intros (? & ? & ? & Q). discriminate.
    + split; [exact BB|]. split; [change (f :: taken_up (tr1 ++ [EProblem f] ++ tr2) = f :: map (fun r => fst (fst r)) l); rewrite !taken_up_app, QT, HT; reflexivity|].
      split; [change (problems (tr1 ++ [EProblem f] ++ tr2) = f :: flat_map failed l); rewrite !problems_app, QP, HP; reflexivity|].
      split; [change (constructed (tr1 ++ [EProblem f] ++ tr2) = constructed tr1 ++ flat_map (fun r => constructed (snd r)) l); rewrite !constructed_app, HC; reflexivity|].
      destruct HR as [(-> & Hl & HF)|(l0 & g & e2 & tr0 & -> & -> & HF & more & ->)].
      * left. split; auto. split; [cbn [map fst]; f_equal; auto|]. constructor; auto. intros (? & ? & ? & Q). discriminate.
      * right. exists ((f, Raised e, tr1) :: l0), g, e2, tr0. split; auto. split; auto. split; [|exists more; reflexivity]. constructor; auto. intros (? & ? & ? & Q). discriminate.
Qed.
Lemma batch_cwd po ms w l w' : batch po ms w l w' -> user_keeps (cwd R w) -> isdir (rest R w) (cwd R w) = true -> cwd R w' = cwd R w /\ isdir (rest R w') (cwd R w) = true.
Proof.
  induction 1 as [w|w f tr o w1 l w2 H B IH]; intros K Hw; [auto|]. assert (Hk := wd_keeps _ _ _ _ _ K _ _ _ _ H Hw). destruct (C51_restored _ _ _ _ _ _ Hw H Hk) as [E _].
  rewrite E in IH. destruct (IH K Hk) as [E2 Hk2]. auto.
Qed.

(** Whatever the user code does, as long as it leaves the starting directory in place:  the files
    are taken up one after the other in the order given, each run starting from the state the
    previous run left; a run ending in an exception is reported and does not stop the batch; the
    working directory is in the end what it was.  Only an interrupt (KeyboardInterrupt, SystemExit)
    stops the batch.  When it runs to the end the level of the logger is what it was. *)
Theorem C54_every_file : forall po ms files (w w' : world) tr o,
  isdir (rest R w) (cwd R w) = true -> user_keeps (cwd R w) -> run_files (process po ms) files w = (w', tr, o) ->
  cwd R w' = cwd R w /\
  exists runs w1, batch po ms (set_level R INFO w) runs w1 /\ rest R w' = rest R w1 /\
    taken_up tr = map (fun r => fst (fst r)) runs /\ problems tr = flat_map failed runs /\
    ((o = Done /\ taken_up tr = files /\ level R w' = level R w /\ List.Forall (fun r => ~ interrupted r) runs) \/
     (exists l0 f e tr0 later, o = RaisedBase e /\ runs = l0 ++ [(f, RaisedBase e, tr0)] /\ List.Forall (fun r => ~ interrupted r) l0 /\ files = taken_up tr ++ later)).
Proof.
  intros po ms files w w' tr o Hw K H. unfold DriverModel.run_files in H. destruct (loop R isdir (process po ms) files (set_level R INFO w)) as [[w1 tr1] o1] eqn:E.
  destruct (loop_batch _ _ _ _ _ _ _ E) as (l & B & HT & HP & HC & HR). destruct (batch_cwd _ _ _ _ _ B K Hw) as [Ec _]. cbn in Ec.
  destruct HR as [(-> & Hl & HF)|(l0 & f & e & tr0 & -> & -> & HF & more & Hm)].
  - injection H as <- <- <-. split; [exact Ec|]. exists l, w1. split; auto. split; auto.
    change (taken_up (ELog_start :: tr1 ++ [ELog_end])) with (taken_up (tr1 ++ [ELog_end])). change (problems (ELog_start :: tr1 ++ [ELog_end])) with (problems (tr1 ++ [ELog_end])).
    rewrite taken_up_app, problems_app. cbn [taken_up problems flat_map app]. rewrite !app_nil_r. split; auto. split; auto. left. split; auto. split; [congruence|]. auto.
  - injection H as <- <- <-. split; [exact Ec|]. exists (l0 ++ [(f, RaisedBase e, tr0)]), w1. split; auto. split; auto. split; [exact HT|]. split; [exact HP|].
    right. exists l0, f, e, tr0, more. split; auto. split; auto. split; auto. change (taken_up (ELog_start :: tr1)) with (taken_up tr1). rewrite HT. auto.
Qed.
(** Without interrupts every file is taken up exactly once, in order, and the state is restored. *)
Lemma call_methods_unint f ms : user_uninterrupted -> forall w w' tr o e, call_methods R method ms f w = (w', tr, o) -> o <> RaisedBase e.
Proof.
  intros (_ & _ & U). induction ms as [|m ms IH]; intros w w' tr o e H; cbn [call_methods] in H; [injection H as <- <- <-; discriminate|].
  destruct (method m f w) as [w1 o1] eqn:E. assert (Q := U m f _ _ _ e E). destruct o1; [|injection H as <- <- <-; auto..]. destruct (call_methods R method ms f w1) as [[w2 tr2] o2] eqn:E2. injection H as <- <- <-. eauto.
Qed.
Lemma wd_unint po ms f p : user_uninterrupted -> forall w w' tr o e, working_directory p (process po ms f) w = (w', tr, o) -> o <> RaisedBase e.
Proof.
  intros U w w' tr o e H. unfold DriverModel.working_directory in H. destruct (isdir (rest R w) (cwd R w)); cbn [negb] in H; [|injection H as <- <- <-; discriminate].
  destruct (chdir R isdir p w) as [w1 o1] eqn:E. destruct o1 as [|e1|e1].
  - destruct (process po ms f w1) as [[w2 tr2] o2] eqn:B.
    assert (Q : o2 <> RaisedBase e).
    { assert (U0 := U). destruct U as (U1 & U2 & U3). unfold DriverModel.process in B. destruct po.
      - destruct (open_ f w1) as [wa oa] eqn:Ea. assert (Qa := U1 f _ _ _ e Ea). destruct oa; [|injection B as <- <- <-; auto..].
        destruct (obj f wa) as [wb ob] eqn:Eb. assert (Qb := U2 f _ _ _ e Eb). destruct ob; [|injection B as <- <- <-; auto..].
        destruct (call_methods R method ms f wb) as [[wc trc] oc] eqn:Ecc. injection B as <- <- <-. eapply call_methods_unint; eauto.
      - destruct (obj f w1) as [wb ob] eqn:Eb. assert (Qb := U2 f _ _ _ e Eb). destruct ob; [|injection B as <- <- <-; auto..].
        destruct (call_methods R method ms f wb) as [[wc trc] oc] eqn:Ecc. injection B as <- <- <-. eapply call_methods_unint; eauto. }
    destruct (chdir R isdir _ w2) as [w3 o3] eqn:E3. destruct o3; injection H as <- <- <-; auto; try discriminate. apply chdir_fail in E3; [|discriminate]. destruct E3 as (_ & E3 & _). discriminate.
  - injection H as <- <- <-. discriminate.
  - injection H as <- <- <-. apply chdir_fail in E; [|discriminate]. destruct E as (_ & E & _). discriminate.
Qed.
Theorem C54_uninterrupted : forall po ms files (w w' : world) tr o,
  isdir (rest R w) (cwd R w) = true -> user_keeps (cwd R w) -> user_uninterrupted -> run_files (process po ms) files w = (w', tr, o) ->
  o = Done /\ taken_up tr = files /\ cwd R w' = cwd R w /\ level R w' = level R w.
Proof.
  intros po ms files w w' tr o Hw K U H. destruct (C54_every_file _ _ _ _ _ _ _ Hw K H) as (Ec & runs & w1 & B & _ & _ & _ & HR).
  destruct HR as [(-> & Ht & Hl & _)|(l0 & f & e & tr0 & later & -> & -> & _)]; [auto|]. exfalso.
  clear H Ec. revert B. generalize (set_level R INFO w). induction l0 as [|r l0 IH]; intros v B.
  - inversion B; subst. eapply wd_unint; [exact U|eassumption|reflexivity].
  - inversion B; subst. eauto.
Qed.
(** Every object is constructed in the directory of its file; and when the directories of the files
    exist and stay, once for every file. *)
Theorem C54_in_its_directory : forall po ms f (w w' : world) tr o g d,
  (forall f v, cwd R (fst (open_ f v)) = cwd R v) -> absolute f = true ->
  working_directory (dirname f) (process po ms f) w = (w', tr, o) -> In (g, d) (constructed tr) -> g = f /\ d = removelast (parts f).
Proof.
  intros po ms f w w' tr o g d Ho Ha H Hin. unfold DriverModel.working_directory in H. destruct (isdir (rest R w) (cwd R w)); cbn [negb] in H; [|injection H as <- <- <-; destruct Hin].
  destruct (chdir R isdir (dirname f) w) as [w1 o1] eqn:E. destruct o1 as [|e1|e1]; [|injection H as <- <- <-; destruct Hin..].
  apply chdir_ok in E. destruct E as ([[[_ L]|[L _]] _] & _); [|unfold dirname in L; cbn in L; congruence]. cbn in L.
  assert (Q : exists w2 o2, process po ms f w1 = (w2, tr, o2)). { destruct (process po ms f w1) as [[w2 tr2] o2] eqn:B. destruct (chdir R isdir _ w2) as [w3 o3]. exists w2, o2. destruct o3; injection H as <- <- <-; reflexivity. }
  destruct Q as (w2 & o2 & B). clear H. rewrite <- L.
  assert (M : forall w w' tr o, call_methods R method ms f w = (w', tr, o) -> constructed tr = []) by (intros; eapply call_methods_spec; eauto).
  unfold DriverModel.process in B. destruct po.
  - assert (Ho1 := Ho f w1). destruct (open_ f w1) as [wa oa]. cbn in Ho1. destruct oa; [|injection B as <- <- <-; destruct Hin..]. destruct (obj f wa) as [wb ob]. destruct ob.
    + destruct (call_methods R method ms f wb) as [[wc trc] oc] eqn:Ecc. injection B as <- <- <-. change (In (g, d) ((f, cwd R wa) :: constructed trc)) in Hin. rewrite (M _ _ _ _ Ecc) in Hin. destruct Hin as [Q|[]]. injection Q as <- <-. auto.
    + injection B as <- <- <-. destruct Hin as [Q|[]]. injection Q as <- <-. auto.
    + injection B as <- <- <-. destruct Hin as [Q|[]]. injection Q as <- <-. auto.
  - destruct (obj f w1) as [wb ob]. destruct ob.
    + destruct (call_methods R method ms f wb) as [[wc trc] oc] eqn:Ecc. injection B as <- <- <-. change (In (g, d) ((f, cwd R w1) :: constructed trc)) in Hin. rewrite (M _ _ _ _ Ecc) in Hin. destruct Hin as [Q|[]]. injection Q as <- <-. auto.
    + injection B as <- <- <-. destruct Hin as [Q|[]]. injection Q as <- <-. auto.
    + injection B as <- <- <-. destruct Hin as [Q|[]]. injection Q as <- <-. auto.
Qed.
Theorem C54_once_each : forall ms files (w w' : world) tr o,
  isdir (rest R w) (cwd R w) = true -> (forall d, user_keeps d) -> user_uninterrupted ->
  (forall f, In f files -> absolute f = true /\ isdir (rest R w) (removelast (parts f)) = true) ->
  run_files (process false ms) files w = (w', tr, o) -> constructed tr = map (fun f => (f, removelast (parts f))) files.
Proof.
  intros ms files w w' tr o Hw K U Hf H. unfold DriverModel.run_files in H. destruct (loop R isdir (process false ms) files (set_level R INFO w)) as [[w1 tr1] o1] eqn:E.
  assert (G : constructed tr1 = map (fun f => (f, removelast (parts f))) files).
  { destruct (loop_batch _ _ _ _ _ _ _ E) as (l & B & HT & HP & HC & HR). rewrite HC.
    assert (Hl : map (fun r => fst (fst r)) l = files).
    { destruct HR as [(_ & Hl & _)|(l0 & f & e & tr0 & _ & -> & _)]; [auto|]. exfalso. clear - B U. revert B. generalize (set_level R INFO w). induction l0 as [|r l0 IH]; intros v B.
      - inversion B; subst. eapply wd_unint; [exact U|eassumption|reflexivity].
      - inversion B; subst. eauto. }
    clear HR HT HP HC E H. assert (Hw0 : isdir (rest R (set_level R INFO w)) (cwd R (set_level R INFO w)) = true) by exact Hw. assert (Hf0 : forall f, In f files -> absolute f = true /\ isdir (rest R (set_level R INFO w)) (removelast (parts f)) = true) by exact Hf.
    clear Hw Hf. subst files. revert Hw0 Hf0. generalize dependent (set_level R INFO w). clear w. intros w B. induction B as [w|w f trf of wn l wl Hrun B IH]; intros Hw Hf; [reflexivity|].
    cbn [map fst flat_map snd]. destruct (Hf f) as [Ha Hd]; [left; reflexivity|]. assert (Hk := wd_keeps _ _ _ _ _ (K _) _ _ _ _ Hrun Hw). destruct (C51_restored _ _ _ _ _ _ Hw Hrun Hk) as [Ec P].
    rewrite IH.
    - destruct P as [(d & w2 & L & Bd & _)|(N & _)]; [|exfalso; apply (N (removelast (parts f))); split; [left; split; [exact Ha|reflexivity]|exact Hd]].
      assert (d = removelast (parts f)) as -> by (destruct L as [[[_ L]|[L _]] _]; [exact L|unfold dirname in L; cbn in L; congruence]).
      unfold DriverModel.process in Bd. destruct (obj f _) as [wb ob]. cbn [cwd] in Bd. destruct ob.
      + destruct (call_methods R method ms f wb) as [[wc trc] oc] eqn:Ecc. injection Bd as <- <- <-. cbn [app]. change (constructed (EConstruct f (removelast (parts f)) :: trc)) with ((f, removelast (parts f)) :: constructed trc).
        replace (constructed trc) with (@nil (path * list string)) by (symmetry; eapply call_methods_spec; eauto). reflexivity.
      + injection Bd as <- <- <-. reflexivity.
      + injection Bd as <- <- <-. reflexivity.
    - rewrite Ec. exact Hk.
    - intros g Hg. destruct (Hf g) as [Hag Hdg]; [right; auto|]. split; auto. eapply wd_keeps; [apply K|exact Hrun|exact Hdg]. }
  destruct o1; injection H as <- <- <-; [change (constructed (ELog_start :: tr1 ++ [ELog_end])) with (constructed (tr1 ++ [ELog_end])); rewrite constructed_app, G; apply app_nil_r|exact G|exact G].
Qed.

(** ** Which files *)
Variable listdir : list string -> list string. Variable matches : string -> string -> bool. Variable dialog : option (list path).
Notation select := (select R isdir listdir matches dialog).
Notation main := (main R isdir open_ obj method listdir matches dialog).
(** --directory without --pattern, --pattern without --directory, --filename with --directory, and a
    directory that does not exist are usage errors; no matching file is an error; nothing is run. *)
Theorem C54_usage_errors : forall po ms a (w : world),
  ((exists p, pattern a = Some p) /\ directory a = None \/ (exists ds, directory a = Some ds) /\ pattern a = None \/
   (exists fs ds, filename a = Some fs /\ directory a = Some ds) \/
   (exists ds d, directory a = Some ds /\ In d ds /\ isdir (rest R w) (parts (abspath (cwd R w) d)) = false)) ->
  main po ms a w = (w, [], (UsageError, Done)).
Proof.
  intros po ms [fn dr pt] w H. assert (E : select (mkArgs fn dr pt) w = UsageError).
  { unfold DriverModel.select. cbn [filename directory pattern] in *. destruct H as [[(p & ->) ->]|[[(ds & ->) ->]|[(fs & ds & -> & ->)|(ds & d & -> & Hd & N)]]]; try reflexivity.
    - destruct pt; reflexivity.
    - destruct pt; [|reflexivity]. destruct fn; [reflexivity|]. cbn [present xorb andb]. destruct ds as [|d0 ds]; [destruct Hd|].
      replace (forallb _ (d0 :: ds)) with false; [reflexivity|]. symmetry. apply not_true_is_false. intros Q. rewrite forallb_forall in Q. specialize (Q d Hd). congruence. }
  unfold DriverModel.main. rewrite E. reflexivity.
Qed.
(** With --directory and --pattern: exactly the names in the directories that match, directory by
    directory (an empty --directory means the current one), except the module's own file name. *)
Theorem C54_directory_files : forall a (w : world) files ds p, directory a = Some ds -> pattern a = Some p -> select a w = Files files ->
  let ds' := match ds with [] => [mkPath true (cwd R w)] | _ => ds end in
  files <> [] /\ forall f, In f files <-> exists d v, In d ds' /\ In v (listdir (parts (abspath (cwd R w) d))) /\ matches p v = true /\ v <> own_name /\ f = mkPath true (parts (abspath (cwd R w) d) ++ [v]).
Proof.
  intros [fn dr pt] w files ds p Ed Ep H ds'. cbn [directory pattern] in *. subst dr pt. unfold DriverModel.select in H. cbn [filename directory pattern present xorb] in H.
  destruct (present fn && true); [discriminate|]. fold ds' in H. destruct (negb _); [discriminate|].
  match type of H with context [match ?l with [] => _ | _ :: _ => _ end] => set (fs := l) in H end.
  assert (E : files = fs /\ fs <> []). { destruct fs; [discriminate|]. injection H as <-. split; [auto|discriminate]. } destruct E as [-> Hne]. split; auto. intros f. unfold fs.
  rewrite in_flat_map. split.
  - intros (d & Hd & Hf). apply in_map_iff in Hf. destruct Hf as (v & <- & Hv). apply filter_In in Hv. destruct Hv as [Hv N]. apply filter_In in Hv. destruct Hv as [Hv M]. exists d, v.
    split; auto. split; auto. split; auto. split; [|reflexivity]. intros ->. rewrite String.eqb_refl in N. discriminate.
  - intros (d & v & Hd & Hv & M & N & ->). exists d. split; auto. apply in_map_iff. exists v. split; [reflexivity|]. apply filter_In. split; [apply filter_In; auto|]. apply negb_true_iff. apply String.eqb_neq. auto.
Qed.
Theorem C54_named_files : forall a (w : world) fs, filename a = Some fs -> directory a = None -> pattern a = None -> select a w = Files (map (abspath (cwd R w)) fs).
Proof. intros [fn dr pt] w fs E1 E2 E3. cbn in *. subst. reflexivity. Qed.
End Any.

(** ** An instance, and the logger after an interrupt *)
Definition always (_ : unit) (_ : list string) : bool := true.
Definition f1 := mkPath true ["a"%string; "one.py"%string]. Definition f2 := mkPath true ["b"%string; "two.py"%string]. Definition f3 := mkPath true ["b"%string; "three.py"%string].
Definition fine : path -> action unit := fun _ w => (w, Done).
Definition name_is (s : string) (f : path) : bool := String.eqb (List.last (parts f) EmptyString) s.
(** the object of two.py fails *)
Definition bad2 : path -> action unit := fun f w => (w, if name_is "two.py" f then Raised 7 else Done).
Definition stop2 : path -> action unit := fun f w => (w, if name_is "two.py" f then RaisedBase 1 else Done).
Definition w0 : world unit := mkWorld unit ["home"%string] 30 tt.
Example batch_with_failure : run_files unit always (process unit fine bad2 (fun _ => fine) false ["go"%string]) [f1; f2; f3] w0 =
  (w0, [ELog_start; EFile f1; EConstruct f1 ["a"%string]; ECall "go" f1; EFile f2; EConstruct f2 ["b"%string]; EProblem f2; EFile f3; EConstruct f3 ["b"%string]; ECall "go" f3; ELog_end], Done).
Proof. reflexivity. Qed.
Example hypotheses_met : user_keeps unit always fine bad2 (fun _ => fine) ["home"%string] /\ user_uninterrupted unit fine bad2 (fun _ => fine).
Proof.
  split; [repeat split; intros; red; intros; reflexivity|]. split; [|split]; intros; intros w w' o e H; unfold fine, bad2 in H; injection H as <- <-; [discriminate|destruct (name_is _ _); discriminate|discriminate].
Qed.
(** After KeyboardInterrupt or SystemExit the root logger stays at INFO. *)
Theorem C54_level_refuted : exists files (w w' : world unit) tr e,
  run_files unit always (process unit fine stop2 (fun _ => fine) false []) files w = (w', tr, RaisedBase e) /\ level unit w <> level unit w' /\ taken_up tr <> files.
Proof. exists [f1; f2; f3], w0. do 3 eexists. split; [reflexivity|]. split; [discriminate|discriminate]. Qed.
(** A directory given twice is processed twice. *)
Theorem C54_twice_refuted : exists a files (w : world unit), select unit always (fun _ => ["one.py"%string]) (fun _ _ => true) None a w = Files files /\ ~ NoDup files.
Proof.
  exists (mkArgs None (Some [mkPath true ["a"%string]; mkPath true ["a"%string]]) (Some "*.py"%string)). eexists. exists w0. split; [reflexivity|].
  intros H. inversion H as [|? ? N _]. apply N. left. reflexivity.
Qed.
Print Assumptions C51_restored.
Print Assumptions C54_every_file.
Print Assumptions C54_once_each.

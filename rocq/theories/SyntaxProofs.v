From Coq Require Import List String Bool Permutation.
From Verif Require Import Base SyntaxGen SyntaxModel SpecSyntax.
Import ListNotations.
Open Scope string_scope. Open Scope list_scope.

Section Ind.
Variable P : node -> Prop.
Hypothesis HN : forall id ctx, P (Name id ctx).
Hypothesis HA : forall v a ctx, P v -> P (Attribute v a ctx).
Hypothesis HC : forall f rest, P f -> List.Forall P rest -> P (Call f rest).
Hypothesis HO : forall ty ch, List.Forall P ch -> P (Node ty ch).
Fixpoint node_ind2 (t : node) : P t :=
  match t with
  | Name id ctx => HN id ctx
  | Attribute v a ctx => HA v a ctx (node_ind2 v)
  | Call f rest => HC f rest (node_ind2 f) ((fix go l : List.Forall P l := match l with [] => List.Forall_nil P | x :: r => List.Forall_cons x (node_ind2 x) (go r) end) rest)
  | Node ty ch => HO ty ch ((fix go l : List.Forall P l := match l with [] => List.Forall_nil P | x :: r => List.Forall_cons x (node_ind2 x) (go r) end) ch)
  end.
End Ind.

Lemma mem_In s l : mem s l = true <-> In s l.
Proof. unfold mem. rewrite existsb_exists. split; [intros (x & Hx & E); apply String.eqb_eq in E; subst; auto|intros H; exists s; split; auto; apply String.eqb_refl]. Qed.
Lemma mem_false s l : mem s l = false <-> ~ In s l.
Proof. rewrite <- mem_In. destruct (mem s l); split; intros; try congruence; try (intros X; congruence). Qed.

(** going through a list of items *)
Definition step (c : config) (i : item) (attrs : list string) : result (list string) :=
  match i with
  | UsesName id ctx => if ctx =? "Store" then Ok (id :: attrs)
                 else if ctx =? "Load" then
                   if negb (mem id (safe_names c)) && negb (mem id (functions c)) && negb (mem id attrs)
                   then Err SyntaxError_ else Ok attrs
                 else Ok attrs
  | UsesAttribute a => if negb (mem a (functions c)) && negb (mem a attrs) then Err SyntaxError_ else Ok attrs
  | CallsName f => if mem f (functions c) then Ok attrs else Err SyntaxError_
  | HasNode ty => if mem ty (node_types c) then Ok attrs else Err SyntaxError_
  end.
Fixpoint walk (c : config) (l : list item) (attrs : list string) : result (list string) :=
  match l with [] => Ok attrs | i :: r => a <- step c i attrs ;; walk c r a end.
Lemma walk_app c l1 : forall l2 attrs, walk c (l1 ++ l2) attrs = (a <- walk c l1 attrs ;; walk c l2 a).
Proof. induction l1 as [|i l1 IH]; intros l2 attrs; [reflexivity|]. cbn. destruct (step c i attrs); cbn; auto. Qed.
Definition vchildren (c : config) := fix go (l : list node) (attrs : list string) : result (list string) :=
  match l with [] => Ok attrs | x :: r => attrs' <- visit c x attrs ;; go r attrs' end.
Lemma children_walk c l : List.Forall (fun t => forall attrs, visit c t attrs = walk c (items t) attrs) l ->
  forall attrs, vchildren c l attrs = walk c (flat_map items l) attrs.
Proof. induction 1 as [|x l Hx Hl IH]; intros attrs; [reflexivity|]. cbn [flat_map]. rewrite walk_app, <- Hx. change (vchildren c (x :: l) attrs) with (attrs' <- visit c x attrs ;; vchildren c l attrs'). destruct (visit c x attrs); cbn [bind]; auto. Qed.
Lemma visit_walk c t : forall attrs, visit c t attrs = walk c (items t) attrs.
Proof.
  induction t as [id ctx|v a ctx IH|f rest IHf IHr|ty ch IH] using node_ind2; intros attrs.
  - cbn [visit items walk step]. unfold visit_ctx. destruct (ctx =? "Store"); [cbn; destruct (mem ctx (node_types c)); reflexivity|].
    destruct (ctx =? "Load"); [destruct (_ && _)|]; cbn; try destruct (mem ctx (node_types c)); reflexivity.
  - cbn [visit items walk step]. destruct (_ && _); [reflexivity|]. cbn [bind]. rewrite walk_app, IH. destruct (walk c (items v) attrs) as [a'|e]; [|reflexivity].
    cbn [bind walk step]. unfold visit_ctx. destruct (mem ctx (node_types c)); reflexivity.
  - assert (E : visit c (Call f rest) attrs = (match f with Name id _ => if mem id (functions c) then attrs' <- visit c f attrs ;; vchildren c rest attrs' else Err SyntaxError_
        | _ => attrs' <- visit c f attrs ;; vchildren c rest attrs' end)) by (destruct f; reflexivity). rewrite E. cbn [items].
    assert (G : (attrs' <- visit c f attrs ;; vchildren c rest attrs') = walk c (items f ++ flat_map items rest) attrs).
    { rewrite walk_app, IHf. destruct (walk c (items f) attrs); [|reflexivity]. cbn [bind]. apply children_walk. auto. }
    destruct f as [id ctx|v a ctx|g r|ty ch]; try exact G. cbn [app walk step]. destruct (mem id (functions c)); [|reflexivity]. cbn [bind]. exact G.
  - change (visit c (Node ty ch) attrs) with (if mem ty (node_types c) then vchildren c ch attrs else Err SyntaxError_). cbn [items walk step]. destruct (mem ty (node_types c)); [|reflexivity].
    cbn [bind]. apply children_walk. auto.
Qed.
Lemma stored_app l1 l2 : stored (l1 ++ l2) = stored l1 ++ stored l2.
Proof. induction l1 as [|i l1 IH]; [reflexivity|]. cbn. destruct i; rewrite ?IH; auto. destruct string_dec; cbn; rewrite ?IH; reflexivity. Qed.

Lemma step_ok c i attrs a before attrs0 : (forall s, In s attrs <-> In s attrs0 \/ In s before) -> step c i attrs = Ok a <->
  permitted (functions c) (node_types c) (safe_names c) attrs0 before i /\ a = (match i with UsesName id ctx => if string_dec ctx "Store" then id :: attrs else attrs | _ => attrs end).
Proof.
  intros HA. destruct i as [id ctx|at_|f|ty]; cbn [step permitted].
  - destruct (String.eqb_spec ctx "Store") as [->|N].
    + destruct (string_dec "Store" "Store"); [|congruence]. split; [intros H; injection H as <-; split; auto; discriminate|intros [_ ->]; auto].
    + destruct (string_dec ctx "Store"); [contradiction|]. destruct (String.eqb_spec ctx "Load") as [->|N2].
      * destruct (mem id (safe_names c)) eqn:E1; cbn [negb andb].
        { apply mem_In in E1. split; [intros H; injection H as <-; split; auto|intros [_ ->]; auto]. }
        destruct (mem id (functions c)) eqn:E2; cbn [negb andb].
        { apply mem_In in E2. split; [intros H; injection H as <-; split; auto|intros [_ ->]; auto]. }
        destruct (mem id attrs) eqn:E3; cbn [negb andb].
        { apply mem_In in E3. apply HA in E3. split; [intros H; injection H as <-; split; [tauto|auto]|intros [_ ->]; auto]. }
        split; [discriminate|]. intros [H _]. specialize (H eq_refl). rewrite mem_false in E1, E2, E3. rewrite HA in E3. tauto.
      * split; [intros H; injection H as <-; split; auto; congruence|intros [_ ->]; auto].
  - destruct (mem at_ (functions c)) eqn:E2; cbn [negb andb].
    { apply mem_In in E2. split; [intros H; injection H as <-; split; auto|intros [_ ->]; auto]. }
    destruct (mem at_ attrs) eqn:E3; cbn [negb andb].
    { apply mem_In in E3. apply HA in E3. split; [intros H; injection H as <-; split; [tauto|auto]|intros [_ ->]; auto]. }
    split; [discriminate|]. intros [H _]. rewrite mem_false in E2, E3. rewrite HA in E3. tauto.
  - destruct (mem f (functions c)) eqn:E; [apply mem_In in E; split; [intros H; injection H as <-; auto|intros [_ ->]; auto]|]. split; [discriminate|]. intros [H _]. apply mem_false in E. tauto.
  - destruct (mem ty (node_types c)) eqn:E; [apply mem_In in E; split; [intros H; injection H as <-; auto|intros [_ ->]; auto]|]. split; [discriminate|]. intros [H _]. apply mem_false in E. tauto.
Qed.
Lemma walk_ok c attrs0 l : forall attrs before, (forall s, In s attrs <-> In s attrs0 \/ In s before) ->
  ((exists a, walk c l attrs = Ok a /\ forall s, In s a <-> In s attrs0 \/ In s (before ++ stored l)) <->
   (forall pre i post, l = pre ++ i :: post -> permitted (functions c) (node_types c) (safe_names c) attrs0 (before ++ stored pre) i)).
Proof.
  induction l as [|i l IH]; intros attrs before HA.
  - split; [intros _ pre i post H; destruct pre; discriminate|]. intros _. exists attrs. split; [reflexivity|]. cbn [stored]. rewrite app_nil_r. exact HA.
  - cbn [walk]. set (a1 := match i with UsesName id ctx => if string_dec ctx "Store" then id :: attrs else attrs | _ => attrs end).
    assert (HA1 : forall s, In s a1 <-> In s attrs0 \/ In s (before ++ stored [i])).
    { intros s. rewrite in_app_iff. unfold a1. destruct i as [id ctx| | |]; cbn [stored]; try (cbn [In]; rewrite HA; tauto). destruct string_dec; cbn [In app]; rewrite HA; tauto. }
    split.
    + intros (a & H & _). destruct (step c i attrs) as [a2|e] eqn:E; [|discriminate]. apply (step_ok c i attrs a2 before attrs0 HA) in E. destruct E as [E ->]. fold a1 in H. cbn [bind] in H.
      destruct (IH a1 (before ++ stored [i]) HA1) as [IH1 _]. intros [|j pre] k post Hl.
      * cbn in Hl. injection Hl as <- <-. cbn [stored]. rewrite app_nil_r. exact E.
      * cbn in Hl. injection Hl as <- Hl. replace (before ++ stored (i :: pre)) with ((before ++ stored [i]) ++ stored pre) by (rewrite <- app_assoc, <- stored_app; reflexivity).
        apply IH1 with post; auto. exists a. split; [exact H|]. clearbody a1. clear - H HA1.
        revert a1 H HA1. generalize (before ++ stored [i]). induction l as [|j l IHl]; intros b a1 H HA1; [cbn in H; injection H as <-; cbn; rewrite app_nil_r; exact HA1|].
        cbn [walk] in H. destruct (step c j a1) as [a2|e] eqn:E; [|discriminate]. apply (step_ok c j a1 a2 b attrs0 HA1) in E. destruct E as [_ ->]. cbn [bind] in H.
        intros s. replace (b ++ stored (j :: l)) with ((b ++ stored [j]) ++ stored l) by (rewrite <- app_assoc, <- stored_app; reflexivity). eapply IHl; [exact H|].
        intros s'. rewrite in_app_iff. destruct j as [id ctx| | |]; cbn [stored]; try (cbn [In]; rewrite HA1; tauto). destruct string_dec; cbn [In app]; rewrite HA1; tauto.
    + intros H. assert (E : step c i attrs = Ok a1). { apply (step_ok c i attrs a1 before attrs0 HA). split; [|reflexivity]. assert (Q := H [] i l eq_refl). cbn [stored] in Q. rewrite app_nil_r in Q. exact Q. }
      rewrite E. cbn [bind]. destruct (IH a1 (before ++ stored [i]) HA1) as [_ IH2]. destruct IH2 as (a & Ha & Hs).
      * intros pre k post Hl. rewrite <- app_assoc, <- stored_app. apply (H (i :: pre) k post). rewrite Hl. reflexivity.
      * exists a. split; auto. intros s. rewrite Hs. rewrite <- app_assoc, <- stored_app. reflexivity.
Qed.
Lemma walk_err c l : forall attrs e, walk c l attrs = Err e -> e = SyntaxError_.
Proof.
  induction l as [|i l IH]; intros attrs e H; [discriminate|]. cbn [walk] in H. destruct (step c i attrs) as [a|e'] eqn:E.
  - cbn [bind] in H. eapply IH; eauto.
  - cbn [bind] in H. injection H as <-. destruct i; cbn [step] in E; repeat match type of E with context [if ?b then _ else _] => destruct b end; congruence.
Qed.

Lemma walk_state c attrs0 l : forall attrs before a, (forall s, In s attrs <-> In s attrs0 \/ In s before) -> walk c l attrs = Ok a ->
  (forall pre i post, l = pre ++ i :: post -> permitted (functions c) (node_types c) (safe_names c) attrs0 (before ++ stored pre) i) /\
  forall s, In s a <-> In s attrs0 \/ In s (before ++ stored l).
Proof.
  induction l as [|j l IHl]; intros attrs b a HA H; [cbn in H; injection H as <-; cbn; rewrite app_nil_r; split; [intros pre i post E; destruct pre; discriminate|exact HA]|].
  cbn [walk] in H. destruct (step c j attrs) as [a2|e] eqn:E; [|discriminate]. apply (step_ok c j attrs a2 b attrs0 HA) in E. destruct E as [E1 ->]. cbn [bind] in H.
  edestruct (IHl) with (before := b ++ stored [j]) (2 := H) as [P1 P2].
  - intros s'. rewrite in_app_iff. destruct j as [id ctx| | |]; cbn [stored]; try (cbn [In]; rewrite HA; tauto). destruct string_dec; cbn [In app]; rewrite HA; tauto.
  - split.
    + intros [|k pre] i post Hl; cbn in Hl; injection Hl as <- Hl.
      * cbn [stored]. rewrite app_nil_r. exact E1.
      * change (j :: pre) with ([j] ++ pre). rewrite stored_app, app_assoc. apply (P1 pre i post Hl).
    + intros s. change (j :: l) with ([j] ++ l). rewrite stored_app, app_assoc. apply P2.
Qed.
Lemma walk_refused c attrs0 l : forall attrs before e, (forall s, In s attrs <-> In s attrs0 \/ In s before) -> walk c l attrs = Err e ->
  exists pre i post, l = pre ++ i :: post /\ ~ permitted (functions c) (node_types c) (safe_names c) attrs0 (before ++ stored pre) i.
Proof.
  induction l as [|j l IHl]; intros attrs b e HA H; [discriminate|]. cbn [walk] in H. destruct (step c j attrs) as [a2|e'] eqn:E.
  - apply (step_ok c j attrs a2 b attrs0 HA) in E. destruct E as [E1 ->]. cbn [bind] in H.
    edestruct (IHl) with (before := b ++ stored [j]) (2 := H) as (pre & i & post & -> & N).
    + intros s'. rewrite in_app_iff. destruct j as [id ctx| | |]; cbn [stored]; try (cbn [In]; rewrite HA; tauto). destruct string_dec; cbn [In app]; rewrite HA; tauto.
    + exists (j :: pre), i, post. split; auto. change (j :: pre) with ([j] ++ pre). rewrite stored_app, app_assoc. exact N.
  - exists [], j, l. split; auto. cbn [stored]. rewrite app_nil_r. intros P.
    assert (Q := proj2 (step_ok c j attrs _ b attrs0 HA) (conj P eq_refl)). congruence.
Qed.

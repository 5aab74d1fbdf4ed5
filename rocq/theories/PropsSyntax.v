(** * Property C49: what the input-file syntax checker lets through *)
From Coq Require Import List String Ascii Bool.
From Verif Require Import Base SyntaxGen SyntaxModel SpecSyntax SyntaxProofs.
Import ListNotations.
Open Scope string_scope. Open Scope list_scope.

(** A text is accepted exactly when everything in it is permitted by the whitelists or by a name
    stored to before it, whatever the whitelists and the tree. *)
Theorem C49_accepts_exactly : forall c t attrs,
  (exists a, visit c t attrs = Ok a) <->
  forall pre i post, items t = pre ++ i :: post -> permitted (functions c) (node_types c) (safe_names c) attrs (stored pre) i.
Proof.
  intros c t attrs. rewrite visit_walk. destruct (walk_ok c attrs (items t) attrs []) as [W1 W2]; [intros s; cbn; tauto|]. split.
  - intros (a & H) pre i post E. assert (P := W1). destruct (walk_state c attrs (items t) attrs [] a) as [_ Hs]; auto; [intros s; cbn; tauto|].
    apply (P (ex_intro _ a (conj H Hs)) pre i post E).
  - intros H. destruct (W2 H) as (a & Ha & _). eauto.
Qed.
(** The only refusal is a SyntaxError. *)
Theorem C49_refusal : forall c t attrs e, visit c t attrs = Err e -> e = SyntaxError_.
Proof. intros c t attrs e. rewrite visit_walk. apply walk_err. Qed.
(** What the checker remembers afterwards: the names it allowed before and the names stored to. *)
Theorem C49_remembers : forall c t attrs a, visit c t attrs = Ok a -> forall s, In s a <-> In s attrs \/ In s (stored (items t)).
Proof. intros c t attrs a. rewrite visit_walk. intros H. destruct (walk_state c attrs (items t) attrs [] a) as [_ Hs]; auto; intros s; cbn; tauto. Qed.
(** A checker used for a second text treats it as the continuation of the first. *)
Theorem C49_reuse : forall c t1 t2 attrs a, visit c t1 attrs = Ok a ->
  ((exists a2, visit c t2 a = Ok a2) <->
   forall pre i post, items t2 = pre ++ i :: post -> permitted (functions c) (node_types c) (safe_names c) attrs (stored (items t1) ++ stored pre) i).
Proof.
  intros c t1 t2 attrs a H. assert (R := C49_remembers c t1 attrs a H). rewrite C49_accepts_exactly.
  assert (Q : forall pre i, permitted (functions c) (node_types c) (safe_names c) a (stored pre) i <-> permitted (functions c) (node_types c) (safe_names c) attrs (stored (items t1) ++ stored pre) i).
  { intros pre i. destruct i; cbn [permitted]; rewrite ?in_app_iff, ?R; tauto. }
  split; intros G pre i post E; apply Q; eauto.
Qed.

(** ** The checkers the programs build: any groups, any python *)
Definition occurs (i : item) (t : node) : Prop := In i (items t).

Local Opaque ast_nodes builtin_functions builtin_attributes numpy_functions numpy_attributes PolyLine_functions PolyLine_attributes.
Lemma filter_sub f (l : list string) x : In x (filter f l) -> In x l.
Proof. intros H. apply filter_In in H. tauto. Qed.
Lemma nodes_one in_ast g x : In x (allow_nodes in_ast g) -> In x ast_nodes.
Proof. destruct g; [exact (filter_sub _ _ _)|intros []|intros []|intros []]. Qed.
Lemma functions_one in_b g x : In x (allow_functions in_b g) -> In x (builtin_functions ++ numpy_functions ++ PolyLine_functions).
Proof.
  destruct g; intros H; [destruct H|apply in_or_app; left; exact (filter_sub _ _ _ H)|apply in_or_app; right; apply in_or_app; left; exact H|apply in_or_app; right; apply in_or_app; right; exact H].
Qed.
Lemma attributes_one g x : In x (allow_attributes g) -> In x (builtin_attributes ++ numpy_attributes ++ PolyLine_attributes).
Proof.
  destruct g; intros H; [destruct H|apply in_or_app; left; exact H|apply in_or_app; right; apply in_or_app; left; exact H|apply in_or_app; right; apply in_or_app; right; exact H].
Qed.
Lemma nodes_in in_ast allow x : In x (flat_map (allow_nodes in_ast) allow) -> In x ast_nodes.
Proof. intros H. apply in_flat_map in H. destruct H as (g & _ & H). exact (nodes_one _ _ _ H). Qed.
Lemma functions_in in_b allow x : In x (flat_map (allow_functions in_b) allow) -> In x (builtin_functions ++ numpy_functions ++ PolyLine_functions).
Proof. intros H. apply in_flat_map in H. destruct H as (g & _ & H). exact (functions_one _ _ _ H). Qed.
Lemma attributes_in allow x : In x (flat_map allow_attributes allow) -> In x (builtin_attributes ++ numpy_attributes ++ PolyLine_attributes).
Proof. intros H. apply in_flat_map in H. destruct H as (g & _ & H). exact (attributes_one _ _ H). Qed.
Lemma accepted_item c t attrs a i : visit c t attrs = Ok a -> occurs i t -> exists pre post, items t = pre ++ i :: post /\ permitted (functions c) (node_types c) (safe_names c) attrs (stored pre) i.
Proof.
  intros H O. unfold occurs in O. apply in_split in O. destruct O as (pre & post & E). exists pre, post. split; auto.
  apply (proj1 (C49_accepts_exactly c t attrs) (ex_intro _ a H) pre i post E).
Qed.
Ltac absent H := apply mem_In in H; vm_compute in H; discriminate.

(** No text with an import, a class, an exec statement, ... is ever accepted, even by a checker that
    has been used before. *)
Theorem C49_no_imports : forall in_ast in_builtins allow attrs t a ty,
  visit (fst (checker in_ast in_builtins allow)) t attrs = Ok a -> occurs (HasNode ty) t ->
  ~ In ty ["Import"; "ImportFrom"; "ClassDef"; "Exec"; "AsyncFunctionDef"; "AsyncFor"; "AsyncWith"; "Await"; "Nonlocal"; "NamedExpr"; "AnnAssign"; "JoinedStr"; "FormattedValue"].
Proof.
  intros ia ib allow attrs t a ty H O B. destruct (accepted_item _ _ _ _ _ H O) as (pre & post & _ & P). cbn [permitted checker fst node_types] in P.
  apply nodes_in in P. cbn [In] in B. repeat (destruct B as [<-|B]; [absent P|]). destruct B.
Qed.
(** No call by name of the functions that reach the system, other namespaces or other attributes. *)
Theorem C49_no_dangerous_calls : forall in_ast in_builtins allow attrs t a f,
  visit (fst (checker in_ast in_builtins allow)) t attrs = Ok a -> occurs (CallsName f) t ->
  ~ In f ["eval"; "exec"; "execfile"; "open"; "file"; "__import__"; "reload"; "getattr"; "setattr"; "delattr"; "globals"; "vars"; "dir"; "exit"; "quit"; "help"; "breakpoint"; "memoryview"; "object"; "property"; "staticmethod"; "classmethod"].
Proof.
  intros ia ib allow attrs t a f H O B. destruct (accepted_item _ _ _ _ _ H O) as (pre & post & _ & P). cbn [permitted checker fst functions] in P.
  apply functions_in in P. cbn [In] in B. repeat (destruct B as [<-|B]; [absent P|]). destruct B.
Qed.
(** A function the text defines cannot be called by its name: only whitelisted functions can. *)
Theorem C49_only_listed_functions : forall in_ast in_builtins allow attrs t a f,
  visit (fst (checker in_ast in_builtins allow)) t attrs = Ok a -> occurs (CallsName f) t ->
  In f (builtin_functions ++ numpy_functions ++ PolyLine_functions).
Proof. intros ia ib allow attrs t a f H O. destruct (accepted_item _ _ _ _ _ H O) as (pre & post & _ & P). apply functions_in in P. auto. Qed.

(** No double-underscore attribute ([x.__class__], [x.__globals__], ...) unless the text first
    stores to a name of that spelling. *)
Definition dunder (s : string) : bool := String.prefix "__" s.
Lemma no_dunder : forallb (fun s => negb (dunder s)) (builtin_functions ++ numpy_functions ++ PolyLine_functions ++ builtin_attributes ++ numpy_attributes ++ PolyLine_attributes) = true.
Proof. vm_compute. reflexivity. Qed.
Theorem C49_no_dunder_attributes : forall in_ast in_builtins allow t a at_,
  let '(c, attrs) := checker in_ast in_builtins allow in
  visit c t attrs = Ok a -> occurs (UsesAttribute at_) t -> dunder at_ = true ->
  exists pre post, items t = pre ++ UsesAttribute at_ :: post /\ In at_ (stored pre).
Proof.
  intros ia ib allow t a at_. cbn [checker]. intros H O D. destruct (accepted_item _ _ _ _ _ H O) as (pre & post & E & P). exists pre, post. split; auto.
  cbn [permitted functions] in P. assert (F := no_dunder). rewrite forallb_forall in F.
  destruct P as [P|[P|P]]; auto; exfalso.
  - apply functions_in in P. assert (Q := F at_). rewrite D in Q. cbn in Q. apply diff_false_true. apply Q. rewrite !in_app_iff in *. tauto.
  - apply attributes_in in P. assert (Q := F at_). rewrite D in Q. cbn in Q. apply diff_false_true. apply Q. rewrite !in_app_iff in *. tauto.
Qed.

(** ** Running the text *)
(** A text that does not parse or is refused is not executed at all, not even in part; otherwise
    exactly the tree that was checked is executed, once, in a namespace holding the allowed
    functions.  Without a checker the text is executed unseen. *)
Theorem C49_checked_before_running : forall A parse run run_text text c attrs,
  let '(events, r) := make_module_from_text A parse run run_text text (Some (c, attrs)) in
  match parse text with
  | Err e => events = [] /\ r = Err e
  | Ok t => (exists i pre post, items t = pre ++ i :: post /\ ~ permitted (functions c) (node_types c) (safe_names c) attrs (stored pre) i) /\ events = [] /\ r = Err SyntaxError_
            \/ (forall i pre post, items t = pre ++ i :: post -> permitted (functions c) (node_types c) (safe_names c) attrs (stored pre) i) /\
               events = [Executed t (functions c)] /\ r = run t (functions c)
  end.
Proof.
  intros A parse run run_text text c attrs. cbn [make_module_from_text]. destruct (parse text) as [t|e]; [|auto].
  destruct (visit c t attrs) as [a|e] eqn:E.
  - right. split; [|auto]. intros i pre post H. apply (proj1 (C49_accepts_exactly c t attrs) (ex_intro _ a E) pre i post H).
  - left. split; [|split; auto; f_equal; eapply C49_refusal; eauto]. rewrite visit_walk in E. destruct (walk_refused c attrs (items t) attrs [] e) as (pre & i & post & H & N); auto; [intros s; cbn; tauto|].
    exists i, pre, post. split; auto.
Qed.
Theorem C49_unchecked_refuted : exists (parse : string -> result node) run run_text text,
  make_module_from_text unit parse run run_text text None = ([ExecutedText text], Ok tt) /\ parse text = Err SyntaxError_.
Proof. exists (fun _ => Err SyntaxError_), (fun _ _ => Ok tt), (fun _ => Ok tt), "import os". split; reflexivity. Qed.

(** ** What gets past it *)
Definition everything (s : string) : bool := true.
Definition full := checker everything everything [GAst; GBuiltin; GNumpy; GPolyLine].
(** [system = 0] then [np.system]: an attribute that is in no whitelist *)
Definition bypass_attribute : node :=
  Node "Module" [Node "Assign" [Name "system" "Store"; Node "Num" []]; Node "Expr" [Attribute (Name "np" "Load") "system" "Load"]].
Theorem C49_attribute_whitelist_refuted : exists t a, visit (fst full) t (snd full) = Ok a /\ occurs (UsesAttribute "system") t /\
  ~ In "system" (functions (fst full)) /\ ~ In "system" (snd full).
Proof.
  exists bypass_attribute, ("system" :: snd full). split; [vm_compute; reflexivity|]. split; [vm_compute; tauto|].
  split; intros H; apply mem_In in H; vm_compute in H; discriminate.
Qed.
(** [eval = eval], then [[eval].pop()("...")]: the builtin eval is read (targets are visited before
    the value) and called, although it is not an allowed function. *)
Definition bypass_eval : node :=
  Node "Module" [Node "Assign" [Name "eval" "Store"; Name "eval" "Load"];
                 Node "Expr" [Call (Call (Attribute (Node "List" [Name "eval" "Load"; Node "Load" []]) "pop" "Load") []) [Node "Str" []]]].
Theorem C49_eval_refuted : exists t a, visit (fst full) t (snd full) = Ok a /\ occurs (UsesName "eval" "Load") t /\
  ~ In "eval" (functions (fst full)) /\ ~ In "eval" (snd full).
Proof.
  exists bypass_eval, ("eval" :: snd full). split; [vm_compute; reflexivity|]. split; [vm_compute; tauto|].
  split; intros H; apply mem_In in H; vm_compute in H; discriminate.
Qed.
(** ... and refused without the assignment *)
Example refused_attribute : visit (fst full) (Node "Module" [Node "Expr" [Attribute (Name "np" "Load") "system" "Load"]]) (snd full) = Err SyntaxError_.
Proof. vm_compute. reflexivity. Qed.
Example refused_import : visit (fst full) (Node "Module" [Node "Import" [Node "alias" []]]) (snd full) = Err SyntaxError_.
Proof. vm_compute. reflexivity. Qed.
Example refused_eval : visit (fst full) (Node "Module" [Node "Expr" [Call (Name "eval" "Load") [Node "Str" []]]]) (snd full) = Err SyntaxError_.
Proof. vm_compute. reflexivity. Qed.
(** [a = np.array([1])], [b = a.sum()]: an ordinary input file *)
Example accepted_input : exists l, visit (fst full)
  (Node "Module" [Node "Assign" [Name "a" "Store"; Call (Attribute (Name "np" "Load") "array" "Load") [Node "List" [Node "Num" []; Node "Load" []]]];
                  Node "Assign" [Name "b" "Store"; Call (Attribute (Name "a" "Load") "sum" "Load") []]]) (snd full) = Ok l /\ firstn 2 l = ["b"; "a"].
Proof. eexists. split; [vm_compute; reflexivity|]. reflexivity. Qed.

Print Assumptions C49_accepts_exactly.
Print Assumptions C49_no_imports.
Print Assumptions C49_checked_before_running.
Print Assumptions C49_attribute_whitelist_refuted.

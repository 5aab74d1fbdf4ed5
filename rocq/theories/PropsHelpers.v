(** * C174, C175: helpers that call methods, merge arguments, set attributes and choose styles *)
From Coq Require Import List Bool Arith Lia.
From Verif Require Import Base HelpersModel.
Import ListNotations.
Local Open Scope list_scope.

(** *** specification *)
(** the steps are done in order up to the first failure; what was not reached is as before *)
Definition in_order {Ob} (f : nat -> Ob -> result Ob) (l l' : list Ob) (e : option exn) : Prop :=
  length l' = length l /\ exists j, (j <= length l)%nat /\
    (forall k o o', nth_error l k = Some o -> nth_error l' k = Some o' -> if k <? j then f k o = Ok o' else o' = o) /\
    match e with None => j = length l | Some x => exists o, nth_error l j = Some o /\ f j o = Err x end.

Section C.
Variables Ob P : Type.
Variable method : Ob -> list P -> result Ob.
Variable items : P -> result (list P).
Notation imc := (iterable_method_call Ob P method items).
Notation call := (call Ob P method items).
Lemma in_order_cons (f : nat -> Ob -> result Ob) o o' l l' e : f 0%nat o = Ok o' -> in_order (fun k => f (S k)) l l' e -> in_order f (o :: l) (o' :: l') e.
Proof.
  intros H0 (HL & j & Hj & HA & HE). split; [cbn; lia|]. exists (S j). split; [cbn; lia|]. split.
  - intros [|k] u u' E1 E2; cbn in E1, E2; [injection E1 as <-; injection E2 as <-; exact H0|]. specialize (HA k u u' E1 E2). change (S k <? S j) with (k <? j). exact HA.
  - destruct e; cbn; auto.
Qed.
Lemma in_order_stop (f : nat -> Ob -> result Ob) o l e : f 0%nat o = Err e -> in_order f (o :: l) (o :: l) (Some e).
Proof.
  intros H. split; auto. exists 0%nat. split; [lia|]. split; [|exists o; auto]. intros k u u' E1 E2. cbn [Nat.ltb Nat.leb]. congruence.
Qed.
Lemma in_order_nil (f : nat -> Ob -> result Ob) : in_order f [] [] None.
Proof. split; auto. exists 0%nat. split; [lia|]. split; auto. intros [|k]; discriminate. Qed.
Lemma each_in_order (f : Ob -> result Ob) l : in_order (fun _ => f) l (fst (each Ob f l)) (snd (each Ob f l)).
Proof.
  induction l as [|o l IH]; cbn [each]; [apply in_order_nil|]. destruct (f o) as [o'|e] eqn:E; cbn [fst snd]; [apply (in_order_cons (fun _ => f)); auto|apply (in_order_stop (fun _ => f)); auto].
Qed.
(** what position k gets *)
Definition kth (unpack : bool) (args : list (option P)) (k : nat) (o : Ob) : result Ob := match nth_error args k with Some (Some a) => call unpack o a | _ => Ok o end.
Lemma by_position_fits unpack : forall args l, length args <= length l -> in_order (kth unpack args) l (fst (by_position Ob P method items unpack l args)) (snd (by_position Ob P method items unpack l args)).
Proof.
  induction args as [|[a|] args IH]; intros l Hl.
  - cbn. assert (G : forall l, in_order (kth unpack []) l l None); [|apply G]. clear. intros l. split; auto. exists (length l). split; [lia|]. split; auto. intros k o o' E1 E2. destruct (k <? length l) eqn:Q; [|congruence]. unfold kth. rewrite E1 in E2. injection E2 as ->. destruct k; reflexivity.
  - destruct l as [|o l]; [cbn in Hl; lia|]. cbn [by_position]. destruct (call unpack o a) as [o'|e] eqn:E; cbn [fst snd]; [|apply in_order_stop; exact E]. apply in_order_cons; [exact E|]. apply (IH l). cbn in Hl. lia.
  - destruct l as [|o l]; [cbn in Hl; lia|]. cbn [by_position fst snd]. apply in_order_cons; [reflexivity|]. apply (IH l). cbn in Hl. lia.
Qed.
(** no argument: every element's method is called without one; one: every element with it (None: nothing at all);
    more: element k with argument k, elements beyond the arguments and those whose argument is None untouched *)
Theorem C174_calls : forall (l : list Ob) (unpack : bool) (args : list (option P)), let r := imc l unpack args in
  (args = [] -> in_order (fun _ o => method o []) l (fst r) (snd r)) /\
  (args = [None] -> r = (l, None)) /\
  (forall a, args = [Some a] -> in_order (fun _ o => if unpack then xs <- items a ;; method o xs else method o [a]) l (fst r) (snd r)) /\
  ((2 <= length args <= length l)%nat -> in_order (fun k o => match nth_error args k with Some (Some a) => if unpack then xs <- items a ;; method o xs else method o [a] | _ => Ok o end) l (fst r) (snd r)).
Proof.
  intros l unpack args r. unfold r. clear r. repeat (match goal with |- _ /\ _ => split end).
  - intros ->. apply (each_in_order (fun o => method o [])).
  - intros ->. reflexivity.
  - intros a ->. apply (each_in_order (fun o => call unpack o a)).
  - intros [H1 H2]. destruct args as [|a [|b t]]; try (cbn in H1; lia). cbn [iterable_method_call]. replace (match a with Some _ | _ => by_position Ob P method items unpack l (a :: b :: t) end) with (by_position Ob P method items unpack l (a :: b :: t)) by (destruct a; reflexivity). apply by_position_fits. exact H2.
Qed.
Lemma too_many unpack : forall args l, (forall k o a, nth_error l k = Some o -> nth_error args k = Some (Some a) -> exists o', call unpack o a = Ok o') -> (exists k a, nth_error args k = Some (Some a) /\ (length l <= k)%nat) ->
  in_order (kth unpack args) l (fst (by_position Ob P method items unpack l args)) None /\ snd (by_position Ob P method items unpack l args) = Some IndexError.
Proof.
  induction args as [|x args IH]; intros l Hok (k & a & E1 & E2); [destruct k; discriminate|]. destruct l as [|o l].
  - destruct x as [b|]; cbn [by_position fst snd]; [split; [apply in_order_nil|reflexivity]|]. destruct k as [|k]; [discriminate|]. cbn in E1. assert (Hok' : forall i (u : Ob) b, nth_error (@nil Ob) i = Some u -> nth_error args i = Some (Some b) -> exists o', call unpack u b = Ok o') by (intros [|i] u b; discriminate). assert (Hex' : exists i b, nth_error args i = Some (Some b) /\ (length (@nil Ob) <= i)%nat) by (exists k, a; split; [exact E1|cbn; lia]). destruct (IH [] Hok' Hex') as [I1 I2]. split; auto.
    replace (fst (by_position Ob P method items unpack [] args)) with (@nil Ob); [apply in_order_nil|]. destruct I1 as [I1 _]. destruct (fst _); [reflexivity|discriminate].
  - destruct k as [|k]; [cbn in E2; lia|]. cbn in E1, E2. destruct (IH l) as [I1 I2]; [intros i u b Q1 Q2; apply (Hok (S i) u b Q1 Q2)|exists k, a; split; [exact E1|lia]|].
    destruct x as [b|]; cbn [by_position].
    + destruct (Hok 0%nat o b eq_refl eq_refl) as [o' E]. rewrite E. cbn [fst snd]. split; [apply in_order_cons; [exact E|exact I1]|exact I2].
    + cbn [fst snd]. split; [apply in_order_cons; [reflexivity|exact I1]|exact I2].
Qed.
(** more arguments than elements: IndexError, but only after every element's method was called *)
Theorem C174_too_many : forall (l : list Ob) (unpack : bool) (args : list (option P)), (2 <= length args)%nat ->
  (forall k o a, nth_error l k = Some o -> nth_error args k = Some (Some a) -> exists o', (if unpack then xs <- items a ;; method o xs else method o [a]) = Ok o') ->
  (exists k a, nth_error args k = Some (Some a) /\ (length l <= k)%nat) ->
  let r := imc l unpack args in snd r = Some IndexError /\
  in_order (fun k o => match nth_error args k with Some (Some a) => if unpack then xs <- items a ;; method o xs else method o [a] | _ => Ok o end) l (fst r) None.
Proof.
  intros l unpack args H2 Hok Hm r. assert (r = by_position Ob P method items unpack l args) by (unfold r; destruct args as [|[a|] [|b t]]; try (cbn in H2; lia); reflexivity). rewrite H. destruct (too_many unpack args l Hok Hm) as [A B]. split; [exact B|exact A].
Qed.
End C.

(** *** dicts and the rest *)
Section D.
Variables K V : Type.
Variable eqk : K -> K -> bool.
Hypothesis eqk_ok : forall a b, eqk a b = true <-> a = b.
Notation dict := (dict K V).
Notation lookup := (lookup K V eqk).
Notation put := (put K V eqk).
Notation update := (update K V eqk).
Lemma lookup_put d k v q : lookup (put d k v) q = if eqk k q then Some v else lookup d q.
Proof.
  induction d as [|[k' v'] d IH]; cbn [HelpersModel.put HelpersModel.lookup]; [reflexivity|]. destruct (eqk k' k) eqn:E; cbn [HelpersModel.lookup].
  - apply eqk_ok in E. subst k'. destruct (eqk k q); reflexivity.
  - rewrite IH. destruct (eqk k' q) eqn:E1; [|reflexivity]. destruct (eqk k q) eqn:E2; [|reflexivity]. apply eqk_ok in E1, E2. subst. rewrite (proj2 (eqk_ok q q) eq_refl) in E. discriminate.
Qed.
Definition keys_once (d : dict) : Prop := NoDup (map fst d).
Lemma lookup_update e : forall d q, keys_once e -> lookup (update d e) q = match lookup e q with Some v => Some v | None => lookup d q end.
Proof.
  unfold HelpersModel.update. induction e as [|[k v] e IH]; intros d q N; cbn [fold_left HelpersModel.lookup fst snd]; [reflexivity|]. inversion N as [|? ? N1 N2]; subst. rewrite IH by exact N2. rewrite lookup_put. destruct (eqk k q) eqn:E; [|reflexivity].
  apply eqk_ok in E. subst q. replace (lookup e k) with (@None V); [reflexivity|]. symmetry. clear - N1 eqk_ok. induction e as [|[k' v'] e IH]; [reflexivity|]. cbn in *. destruct (eqk k' k) eqn:E; [apply eqk_ok in E; tauto|]. apply IH. tauto.
Qed.
(** the last dict that has the key *)
Inductive last_says {A} : list (A + dict) -> K -> V -> Prop :=
| last_here before d k v : lookup d k = Some v -> last_says (before ++ [inr d]) k v
| last_skip_item before x k v : last_says before k v -> last_says (before ++ [inl x]) k v
| last_skip_dict before d k v : lookup d k = None -> last_says before k v -> last_says (before ++ [inr d]) k v.
Lemma last_inv {A} (args : list (A + dict)) a k v : last_says (args ++ [a]) k v ->
  match a with inl _ => last_says args k v | inr d => lookup d k = Some v \/ (lookup d k = None /\ last_says args k v) end.
Proof.
  intros H. remember (args ++ [a]) as l eqn:EL. destruct H; apply app_inj_tail in EL; destruct EL as [<- <-]; auto.
Qed.
Lemma last_nil {A} k v : ~ last_says (@nil (A + dict)) k v.
Proof. intros H. remember (@nil (A + dict)) as l eqn:EL. destruct H; destruct before; discriminate. Qed.
Theorem C174_split : forall A (args : list (A + dict)), (forall d, In (inr d) args -> keys_once d) ->
  map inl (fst (split_args K V eqk args)) = filter (fun a => match a with inl _ => true | inr _ => false end) args /\
  forall k v, lookup (snd (split_args K V eqk args)) k = Some v <-> last_says args k v.
Proof.
  intros A args N. unfold split_args. cbn [fst snd]. split.
  - clear N. induction args as [|[x|d] args IH]; cbn; [reflexivity|rewrite IH; reflexivity|exact IH].
  - induction args as [|a args IH] using rev_ind; intros k v.
    + cbn. split; [discriminate|]. intros H. destruct (last_nil _ _ H).
    + rewrite fold_left_app. cbn [fold_left]. assert (N' : forall d, In (inr d) args -> keys_once d) by (intros d Hd; apply N, in_or_app; auto). specialize (IH N'). destruct a as [x|d].
      * rewrite IH. split; [apply last_skip_item|]. intros H. apply last_inv in H. exact H.
      * rewrite lookup_update by (apply N, in_or_app; right; left; reflexivity). destruct (lookup d k) as [w|] eqn:E.
        -- split; [intros Q; injection Q as ->; apply last_here; exact E|]. intros H. apply last_inv in H. destruct H as [H|[H1 H2]]; [congruence|]. congruence.
        -- rewrite IH. split; [apply last_skip_dict; exact E|]. intros H. apply last_inv in H. destruct H as [H|[H1 H2]]; [congruence|exact H2].
Qed.

Variable Ob : Type.
Variable has : Ob -> K -> bool.
Variable setter : Ob -> K -> V -> result Ob.
(** setting the known keys of a dict, in its order; the others are passed over *)
Inductive sets : Ob -> dict -> Ob -> option exn -> Prop :=
| sets_done o : sets o [] o None
| sets_unknown o k v d o' e : has o k = false -> sets o d o' e -> sets o ((k, v) :: d) o' e
| sets_known o k v d o1 o' e : has o k = true -> setter o k v = Ok o1 -> sets o1 d o' e -> sets o ((k, v) :: d) o' e
| sets_fails o k v d x : has o k = true -> setter o k v = Err x -> sets o ((k, v) :: d) o (Some x).
Lemma set_all_sets d : forall o, sets o d (fst (set_all K V Ob has setter o d)) (snd (set_all K V Ob has setter o d)).
Proof.
  induction d as [|[k v] d IH]; intros o; cbn [set_all]; [constructor|]. destruct (has o k) eqn:E; [|apply sets_unknown; auto]. destruct (setter o k v) as [o1|x] eqn:E1; cbn [fst snd]; [eapply sets_known; eauto|apply sets_fails; auto].
Qed.
Theorem C174_apply : forall obj dic, let r := apply_dict_to_object K V Ob has setter obj dic in
  (length obj <> length dic -> r = (obj, Some ValueError)) /\
  (length obj = length dic -> length (fst r) = length obj /\ exists j, (j <= length obj)%nat /\ (snd r = None -> j = length obj) /\ (snd r <> None -> (j < length obj)%nat) /\
    forall k o o' d, nth_error obj k = Some o -> nth_error (fst r) k = Some o' -> nth_error dic k = Some d ->
      if k <? j then match d with None => o' = o | Some d => sets o d o' None end else if k =? j then exists d', d = Some d' /\ sets o d' o' (snd r) else o' = o).
Proof.
  intros obj dic r. unfold r, apply_dict_to_object. split.
  - intros H. rewrite (proj2 (Nat.eqb_neq _ _) H). reflexivity.
  - intros H. rewrite (proj2 (Nat.eqb_eq _ _) H). cbn [negb]. clear r. revert dic H. induction obj as [|o obj IH]; intros [|d dic] H; try discriminate.
    + cbn. split; auto. exists 0%nat. repeat (match goal with |- _ /\ _ => split end); auto; [congruence|]. intros [|k]; discriminate.
    + cbn [combine set_each]. injection H as H. destruct (IH dic H) as (L & j & J1 & J2 & J3 & J4). clear IH.
      set (s := match d with None => (o, None) | Some d => set_all K V Ob has setter o d end) in *. destruct s as [o1 [x|]] eqn:ES.
      * cbn [fst snd]. assert (ML : map fst (combine obj dic) = obj) by (clear - H; revert dic H; induction obj as [|a l IH]; intros [|b m] H; try discriminate; cbn; auto; f_equal; apply IH; injection H as H; exact H).
        rewrite ML. split; [reflexivity|]. exists 0%nat. split; [lia|]. split; [discriminate|]. split; [cbn; lia|]. intros [|k] u u' d' E1 E2 E3; cbn in E1, E2, E3 |- *.
        -- injection E1 as <-. injection E2 as <-. injection E3 as <-. destruct d as [dd|]; [|discriminate]. exists dd. split; auto. assert (Q := set_all_sets dd o). unfold s in ES. rewrite ES in Q. exact Q.
        -- congruence.
      * cbn [fst snd length]. split; [lia|]. exists (S j). split; [lia|]. split; [intros Q; rewrite (J2 Q); reflexivity|]. split; [intros Q; specialize (J3 Q); lia|]. intros [|k] u u' d' E1 E2 E3; cbn in E1, E2, E3.
        -- injection E1 as <-. injection E2 as <-. injection E3 as <-. cbn. destruct d as [dd|]; [|unfold s in ES; congruence]. assert (Q := set_all_sets dd o). unfold s in ES. rewrite ES in Q. exact Q.
        -- change (S k <? S j) with (k <? j). change (S k =? S j) with (k =? j). apply (J4 k u u' d' E1 E2 E3).
Qed.
End D.

(** *** styles *)
Section S.
Variables Color Dash Mark : Type.
Variable markers : list (marker Mark).
Variable dashes : list Dash.
Variable colors : list Color.
Variable plain : Color.
(** what is asked for at place i of a list that is repeated as often as needed; None where no list is given *)
Definition asked (l : option (list (option nat))) (i : nat) (c : option nat) : Prop :=
  match l with None => c = None | Some l => exists k, (k < length l)%nat /\ nth_error l k = Some c /\ exists m, i = (m * length l + k)%nat end.
Definition colour (c : option nat) (x : Color) : Prop := match c with None => x = plain | Some j => nth_error colors j = Some x end.
Definition style_says (ms ds mcs lcs : option (list (option nat))) (i : nat) (s : style Color Dash Mark) : Prop :=
  (exists m mc, asked ms i m /\ asked mcs i mc /\ match m with
     | None => st_marker _ _ _ s = None
     | Some m => exists mm, nth_error markers m = Some mm /\ exists e f, st_marker _ _ _ s = Some (m_mark _ mm, e, f) /\
         (if m_edge_none _ mm then e = None else exists x, e = Some x /\ colour mc x) /\ (if m_face_none _ mm then f = None else exists x, f = Some x /\ colour mc x)
     end) /\
  (exists d, asked ds i d /\ match d with None => st_dashes _ _ _ s = None | Some j => exists x, nth_error dashes j = Some x /\ st_dashes _ _ _ s = Some x end) /\
  (exists c, asked lcs i c /\ colour c (st_color _ _ _ s)).
Lemma cycled_asked l i c : cycled l i = Ok c -> asked l i c.
Proof.
  unfold cycled, asked. destruct l as [l|]; [|congruence]. destruct (length l) as [|n] eqn:E; [discriminate|]. intros H. assert (N : S n <> 0%nat) by lia. exists (i mod S n). split; [apply Nat.mod_upper_bound; lia|]. split.
  - unfold get in H. destruct (nth_error l (i mod S n)); congruence.
  - exists (i / S n). rewrite Nat.mul_comm. apply Nat.div_mod. exact N.
Qed.
Lemma get_ok {A} (l : list A) i x : get l i = Ok x -> nth_error l i = Some x.
Proof. unfold get. destruct (nth_error l i); congruence. Qed.
Lemma style_at_says ms ds mcs lcs i s : style_at Color Dash Mark markers dashes colors plain ms ds mcs lcs i = Ok s -> style_says ms ds mcs lcs i s.
Proof.
  unfold style_at. destruct (cycled ms i) as [m|] eqn:E1; [|discriminate]. destruct (cycled mcs i) as [mc|] eqn:E2; [|discriminate]. cbn [bind]. apply cycled_asked in E1, E2. intros H.
  match type of H with bind ?r _ = _ => destruct r as [mk|] eqn:EM; [|discriminate] end. cbn [bind] in H. destruct (cycled ds i) as [d|] eqn:E3; [|discriminate]. apply cycled_asked in E3. cbn [bind] in H.
  match type of H with bind ?r _ = _ => destruct r as [dd|] eqn:ED; [|discriminate] end. cbn [bind] in H. destruct (cycled lcs i) as [lc|] eqn:E4; [|discriminate]. apply cycled_asked in E4. cbn [bind] in H.
  match type of H with bind ?r _ = _ => destruct r as [c|] eqn:EC; [|discriminate] end. cbn [bind] in H. assert (s = mkStyle _ _ _ mk dd c) by congruence. subst s. clear H. unfold style_says. cbn [st_marker st_dashes st_color]. repeat (match goal with |- _ /\ _ => split end).
  - exists m, mc. split; auto. split; auto. destruct m as [m|]; [|congruence]. destruct (get markers m) as [mm|] eqn:EG; [|discriminate]. cbn [bind] in EM. apply get_ok in EG. exists mm. split; auto.
    match type of EM with bind ?r _ = _ => destruct r as [x|] eqn:EX; [|discriminate] end. cbn [bind] in EM. eexists. eexists. split; [symmetry; injection EM as EM; exact EM|].
    destruct (m_edge_none Mark mm) eqn:Q1, (m_face_none Mark mm) eqn:Q2; cbn [andb] in EX; split; auto; exists x; split; auto; unfold colour; destruct mc as [j|]; try congruence; apply get_ok; exact EX.
  - exists d. split; auto. destruct d as [j|]; [|congruence]. destruct (get dashes j) as [x|] eqn:EG; [|discriminate]. apply get_ok in EG. exists x. split; auto. cbn [bind] in ED. congruence.
  - exists lc. split; auto. unfold colour. destruct lc as [j|]; [apply get_ok; exact EC|congruence].
Qed.
Definition longest (n : nat) (ls : list nat) : Prop := (forall m, In m ls -> m <= n) /\ In n ls.
(** with a list that asks for something: as many styles as the longest list has entries, the lists repeated *)
Theorem C175_styles : forall ms ds mcs lcs r, styles Color Dash Mark markers dashes colors plain ms ds mcs lcs = Ok r -> (exists l, In (Some l) [ms; ds; mcs; lcs] /\ l <> []) ->
  longest (length r) (map (fun l => match l with None => 0 | Some l => length l end) [ms; ds; mcs; lcs]) /\
  forall i s, nth_error r i = Some s -> style_says ms ds mcs lcs i s.
Proof.
  intros ms ds mcs lcs r H (l & Hl & Hn). unfold styles in H. fold (len ms) (len ds) (len mcs) (len lcs) in *. set (n := Nat.max (Nat.max (len ms) (len ds)) (Nat.max (len mcs) (len lcs))) in *.
  assert (N : (0 < n)%nat). { assert (0 < length l) by (destruct l; [congruence|cbn; lia]). unfold n. destruct Hl as [-> |[-> |[-> |[-> |[]]]]]; cbn [len]; lia. }
  assert (H' : mapM (style_at Color Dash Mark markers dashes colors plain ms ds mcs lcs) (seq 0 n) = Ok r) by (destruct n; [lia|exact H]). apply mapM_Ok_Forall2 in H'. assert (LR : length (seq 0 n) = length r) by (clear - H'; induction H'; cbn; auto). rewrite seq_length in LR. split.
  - unfold longest. cbn [map]. fold (len ms) (len ds) (len mcs) (len lcs). rewrite <- LR. unfold n. split.
    + intros m [<-|[<-|[<-|[<-|[]]]]]; lia.
    + cbn [In]. lia.
  - intros i s Hi. apply style_at_says. assert (Q : forall j l r i s, Forall2 (fun a b => style_at Color Dash Mark markers dashes colors plain ms ds mcs lcs a = Ok b) (seq j l) r -> nth_error r i = Some s -> style_at Color Dash Mark markers dashes colors plain ms ds mcs lcs (j + i) = Ok s).
    { clear. intros j l. revert j. induction l as [|l IH]; intros j r i s F E; inversion F; subst; [destruct i; discriminate|]. destruct i as [|i]; cbn in E; [injection E as <-; rewrite Nat.add_0_r; assumption|]. replace (j + S i)%nat with (S j + i)%nat by lia. eapply IH; eauto. }
    apply (Q 0%nat _ _ i s H' Hi).
Qed.
(** asked for nothing: every marker, dash pattern and colour is used at least once *)
Theorem C175_all : forall ms ds mcs lcs, (forall l, In (Some l) [ms; ds; mcs; lcs] -> l = []) -> markers <> [] -> dashes <> [] -> colors <> [] ->
  exists r, styles Color Dash Mark markers dashes colors plain ms ds mcs lcs = Ok r /\ longest (length r) [length markers; length dashes; length colors] /\
  (forall m, In m markers -> exists s e f, In s r /\ st_marker _ _ _ s = Some (m_mark _ m, e, f)) /\ (forall d, In d dashes -> exists s, In s r /\ st_dashes _ _ _ s = Some d) /\ (forall c, In c colors -> exists s, In s r /\ st_color _ _ _ s = c).
Proof.
  intros ms ds mcs lcs HN Hm Hd Hc. unfold styles. assert (Z : forall l, In l [ms; ds; mcs; lcs] -> len l = 0%nat) by (intros [l|] Hl; cbn; [rewrite (HN l Hl)|]; reflexivity).
  rewrite !Z by (cbn; tauto). cbn [Nat.max]. set (n := Nat.max (Nat.max (length markers) (length dashes)) (length colors)).
  assert (PM : 0 < length markers) by (destruct markers; [congruence|cbn; lia]). assert (PD : 0 < length dashes) by (destruct dashes; [congruence|cbn; lia]). assert (PC : 0 < length colors) by (destruct colors; [congruence|cbn; lia]).
  assert (CY : forall k i, 0 < k -> cycled (all_of k) i = Ok (Some (i mod k))).
  { intros k i Hk. unfold cycled, all_of. rewrite map_length, seq_length. destruct k as [|k]; [lia|]. unfold get. rewrite nth_error_map. assert (B : i mod S k < S k) by (apply Nat.mod_upper_bound; lia).
    rewrite (nth_error_nth' (seq 0 (S k)) 0) by (rewrite seq_length; exact B). rewrite seq_nth by exact B. reflexivity. }
  assert (G : forall A (l : list A) i, 0 < length l -> exists x, get l (i mod length l) = Ok x /\ nth_error l (i mod length l) = Some x).
  { intros A l i Hl. unfold get. destruct (nth_error l (i mod length l)) as [x|] eqn:E; [eauto|]. apply nth_error_None in E. assert (i mod length l < length l) by (apply Nat.mod_upper_bound; lia). lia. }
  set (f := style_at Color Dash Mark markers dashes colors plain (all_of (length markers)) (all_of (length dashes)) (all_of (length colors)) (all_of (length colors))).
  assert (F : forall i, exists s, f i = Ok s /\ (forall m, nth_error markers (i mod length markers) = Some m -> exists e f, st_marker _ _ _ s = Some (m_mark _ m, e, f)) /\ (forall d, nth_error dashes (i mod length dashes) = Some d -> st_dashes _ _ _ s = Some d) /\ (forall c, nth_error colors (i mod length colors) = Some c -> st_color _ _ _ s = c)).
  { intros i. unfold f, style_at. rewrite !CY by lia. cbn [bind]. destruct (G _ markers i PM) as (m & GM & NM). destruct (G _ dashes i PD) as (d & GD & ND). destruct (G _ colors i PC) as (c & GC & NC). rewrite GM, GD, GC. cbn [bind].
    replace (if (m_edge_none Mark m && m_face_none Mark m)%bool then Ok plain else Ok c) with (Ok (if (m_edge_none Mark m && m_face_none Mark m)%bool then plain else c)) by (destruct (_ && _)%bool; reflexivity). cbn [bind].
    eexists. split; [reflexivity|]. cbn [st_marker st_dashes st_color]. repeat (match goal with |- _ /\ _ => split end).
    - intros m' E. assert (m' = m) by congruence. subst m'. eauto.
    - intros d' E. congruence.
    - intros c' E. congruence. }
  assert (T : exists r, mapM f (seq 0 n) = Ok r /\ length r = n /\ forall i, i < n -> exists s, f i = Ok s /\ In s r).
  { clear - F. assert (X : forall l, exists r, mapM f l = Ok r /\ length r = length l /\ forall i, In i l -> exists s, f i = Ok s /\ In s r).
    { induction l as [|a l IH]; [exists []; split; [reflexivity|split; [reflexivity|intros i []]]|]. destruct IH as (r & R1 & R2 & R3). destruct (F a) as (s & FA & _). exists (s :: r). cbn [mapM]. rewrite FA. cbn [bind]. rewrite R1. cbn [bind]. split; [reflexivity|]. split; [cbn; lia|].
      intros i [<-|Hi]; [exists s; split; [exact FA|left; reflexivity]|]. destruct (R3 i Hi) as (u & U1 & U2). exists u. split; [exact U1|right; exact U2]. }
    destruct (X (seq 0 n)) as (r & R1 & R2 & R3). rewrite seq_length in R2. exists r. split; auto. split; auto. intros i Hi. apply R3, in_seq. lia. }
  destruct T as (r & R1 & R2 & R3). exists r. split.
  { destruct n eqn:En; [unfold n in En; lia|]. exact R1. }
  split; [rewrite R2; unfold longest, n; split; [intros m [<-|[<-|[<-|[]]]]; lia|cbn [In]; lia]|].
  assert (W : forall A (l : list A) x, In x l -> length l <= n -> exists i, i < n /\ nth_error l (i mod length l) = Some x).
  { intros A l x Hx Hl. apply In_nth_error in Hx. destruct Hx as [i Hi]. assert (i < length l) by (apply nth_error_Some; congruence). exists i. split; [lia|]. rewrite Nat.mod_small by assumption. exact Hi. }
  repeat (match goal with |- _ /\ _ => split end).
  - intros m Hin. destruct (W _ markers m Hin ltac:(unfold n; lia)) as (i & I1 & I2). destruct (R3 i I1) as (s & S1 & S2). destruct (F i) as (s' & F1 & F2 & _). assert (s' = s) by congruence. subst s'. destruct (F2 m I2) as (e & g & E). exists s, e, g. auto.
  - intros d Hin. destruct (W _ dashes d Hin ltac:(unfold n; lia)) as (i & I1 & I2). destruct (R3 i I1) as (s & S1 & S2). destruct (F i) as (s' & F1 & _ & F2 & _). assert (s' = s) by congruence. subst s'. exists s. auto.
  - intros c Hin. destruct (W _ colors c Hin ltac:(unfold n; lia)) as (i & I1 & I2). destruct (R3 i I1) as (s & S1 & S2). destruct (F i) as (s' & F1 & _ & _ & F2). assert (s' = s) by congruence. subst s'. exists s. auto.
Qed.
End S.
(** a given empty list next to one that is not raises *)
Theorem C175_empty_list_refuted : styles nat nat nat [mkMarker nat 0 false false] [0] [0] 0 (Some [Some 0]) (Some []) None None = Err StopIteration.
Proof. reflexivity. Qed.
(** *** examples *)
Theorem C175_example : styles nat nat nat [mkMarker nat 7 false true] [10; 11] [20; 21; 22] 99 (Some [Some 0; None]) None (Some [Some 2]) (Some [Some 1; None; Some 0]) =
  Ok [mkStyle nat nat nat (Some (7, Some 22, None)) None 21; mkStyle nat nat nat None None 99; mkStyle nat nat nat (Some (7, Some 22, None)) None 20].
Proof. reflexivity. Qed.
Theorem C174_example : iterable_method_call nat nat (fun o xs => if o =? 3 then Err ValueError else Ok (fold_left Nat.add xs o)) (fun n => Ok [n; n]) [1; 2; 3; 4] true [Some 10; None; Some 30; Some 40] = ([21; 2; 3; 4], Some ValueError) /\
  split_args nat nat Nat.eqb [inl 5; inr [(1, 10)]; inl 6; inr [(2, 20); (1, 11)]] = ([5; 6], [(1, 11); (2, 20)]) /\
  apply_dict_to_object nat nat nat (fun _ k => k =? 1) (fun o _ v => Ok (o + v)) [100; 200] [None; Some [(1, 5); (2, 9)]] = ([100; 205], None).
Proof. repeat split; reflexivity. Qed.
Print Assumptions C174_apply.
Print Assumptions C175_all.

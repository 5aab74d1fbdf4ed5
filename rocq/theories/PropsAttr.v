(** * Properties C52, C53, C90, C91: checking, copying and constructing the attributes of input objects *)
From Coq Require Import List String Bool Arith Reals Lia Lra.
From Verif Require Import Base SetupGen AttrModel SpecAttr AttrProofs.
Import ListNotations.
Local Open Scope list_scope.

(** ** C52: each check raises exactly for the documented inconsistency *)
Theorem C52_combinations : forall o za al oi, (forall c v, In c (za ++ al ++ oi) -> In v c -> has o v) ->
  (check_attribute_combinations o za al oi = Ok tt /\ consistent o za al oi) \/ (check_attribute_combinations o za al oi = Err ValueError /\ ~ consistent o za al oi).
Proof. apply combinations_spec. Qed.
(** Without force_list nothing changes, and a ValueError says that some attribute is neither None nor
    a list. *)
Theorem C52_is_list : forall o l, (forall v, In v l -> has o v) ->
  (check_attribute_is_list o l false = Ok o /\ forall v, In v l -> none_or_list o v) \/ (check_attribute_is_list o l false = Err ValueError /\ ~ forall v, In v l -> none_or_list o v).
Proof. intros o l. apply is_list_check. Qed.
(** With force_list it always succeeds; a listed attribute that is neither None nor a list is put
    into a list, everything else stays. *)
Theorem C52_force_list : forall o l, (forall v, In v l -> has o v) -> exists o', check_attribute_is_list o l true = Ok o' /\
  forall v, (In v l -> ~ none_or_list o v -> exists x, o v = Some x /\ o' v = Some (VList [x])) /\ (~ In v l \/ none_or_list o v -> o' v = o v).
Proof.
  intros o l H. destruct (is_list_force l o H) as (o' & E & S'). exists o'. split; auto. intros v. rewrite S'. destruct (in_dec string_dec v l) as [Hv|Hv].
  - destruct (H v Hv) as (x & Ex). rewrite Ex. cbn [option_map]. unfold listed, none_or_list, undefined. rewrite Ex. split.
    + intros _ N. exists x. split; auto. destruct x; cbn; auto; exfalso; apply N; [left|right; eexists]; reflexivity.
    + intros [N|[Q|(k & Q)]]; [contradiction|injection Q as ->; reflexivity|injection Q as ->; reflexivity].
  - split; [contradiction|auto].
Qed.
Theorem C52_pairs : forall o pairs, (forall p v, In p pairs -> In v p -> has o v) ->
  (check_attribute_pairs_have_equal_length o pairs = Ok tt <-> forall p, In p pairs -> pair_ok o p) /\
  forall e, check_attribute_pairs_have_equal_length o pairs = Err e -> e = ValueError \/ e = TypeError.
Proof. apply pairs_spec. Qed.
(** An attribute is only changed if it was None and belongs to a group whose first attribute is
    defined; it becomes a list as long as the first attribute; and no such attribute stays None. *)
Theorem C52_same_len : forall filler groups o o', force_attribute_same_len_if_none o groups filler = Ok o' ->
  (forall v, o' v = o v \/ (undefined o v /\ exists g0 gs x n, In (g0 :: gs) groups /\ In v gs /\ o' g0 = Some x /\ x <> VNone /\ len x = Some n /\ o' v = Some (VList (repeat filler n)))) /\
  (forall g0 gs x v, In (g0 :: gs) groups -> o g0 = Some x -> x <> VNone -> (forall id, x <> VArray 0 id) -> In v gs -> defined o' v).
Proof. intros f groups o o' H. destruct (force_spec f groups o o' H) as (_ & A & B). auto. Qed.
Theorem C52_same_len_succeeds : forall filler groups o,
  (forall g, In g groups -> exists g0 gs, g = g0 :: gs /\ none_or_list o g0 /\ forall v, In v gs -> has o v) -> exists o', force_attribute_same_len_if_none o groups filler = Ok o'.
Proof. intros f groups o. apply force_ok. Qed.
(** A numpy array as first attribute is a ValueError (truth value of [a1 != None]). *)
Theorem C52_array_refuted : exists o groups, (forall g v, In g groups -> In v g -> has o v) /\ (exists n i, o "a"%string = Some (VArray n i)) /\
  force_attribute_same_len_if_none o groups VNone = Err ValueError.
Proof.
  exists (fun v => if String.eqb v "a" then Some (VArray 2 0) else Some VNone), [["a"; "b"]%string]. split; [|split; [eexists; eexists; reflexivity|reflexivity]].
  intros g v _ _. unfold has. destruct (String.eqb v "a"); eauto.
Qed.
(** Same x limits: every PolyLine of the attributes, single or in a list, has the end points of the
    first one. *)
Definition x_limits_agree (o : object) (sub : list string) : Prop :=
  (forall v, In v sub -> undefined o v) \/
  exists pre v0 post x0 p0 ps a b, sub = pre ++ v0 :: post /\ (forall v, In v pre -> undefined o v) /\ o v0 = Some x0 /\ polylines x0 = p0 :: ps /\ x_limits p0 a b /\
    forall v x p, In v sub -> o v = Some x -> In p (polylines x) -> exists a' b', x_limits p a' b' /\ close a' a /\ close b' b.
Lemma first_defined_spec o vs : (forall v, In v vs -> has o v) ->
  (first_defined o vs = Ok None /\ forall v, In v vs -> undefined o v) \/
  exists pre v0 post x0, vs = pre ++ v0 :: post /\ (forall v, In v pre -> undefined o v) /\ o v0 = Some x0 /\ x0 <> VNone /\ first_defined o vs = Ok (Some x0).
Proof.
  induction vs as [|v vs IH]; intros H; [left; split; auto; intros v []|]. cbn [first_defined]. destruct (H v (or_introl eq_refl)) as (x & E). unfold getattr. rewrite !E. cbn [bind].
  destruct (is_None x) eqn:N.
  - apply is_None_spec in N. subst x. destruct IH as [(Q & U)|(pre & v0 & post & x0 & -> & U & E0 & N0 & Q)]; [intros w Hw; apply H; right; auto| |].
    + left. split; auto. intros w [<-|Hw]; auto.
    + right. exists (v :: pre), v0, post, x0. split; auto. split; auto. intros w [<-|Hw]; auto.
  - right. exists [], v, vs, x. split; auto. split; [intros w []|]. split; auto. split; [intros ->; discriminate|auto].
Qed.
Lemma members_polylines x : x <> VNone -> members x = polylines x.
Proof. destruct x; auto. intros N. contradiction. Qed.
Lemma x_limits_fun p a b a' b' : x_limits p a b -> x_limits p a' b' -> a = a' /\ b = b'.
Proof. intros (xs & -> & N & -> & ->) (ys & Q & _ & -> & ->). injection Q as <-. auto. Qed.
Lemma check_x_limits_spec o sub : (forall v, In v sub -> has o v) -> check_x_limits o sub = Ok tt <-> x_limits_agree o sub.
Proof.
  intros H. unfold check_x_limits. destruct (first_defined_spec o sub H) as [(-> & U)|(pre & v0 & post & x0 & Es & U & E0 & N0 & ->)]; cbn [bind].
  - split; [left; auto|]. intros _. apply each_ok. intros v Hv. unfold getattr. rewrite (U v Hv). reflexivity.
  - rewrite (members_polylines x0 N0). destruct (polylines x0) as [|p0 ps] eqn:P.
    + split; [discriminate|]. intros [Q|(pre' & v0' & post' & x0' & p0 & ps & a & b & Es' & U' & E0' & P' & _)].
      * exfalso. rewrite Es in Q. assert (QQ : undefined o v0) by (apply Q; apply in_or_app; right; left; reflexivity). unfold undefined in QQ. congruence.
      * exfalso. assert (v0' = v0 /\ pre' = pre) as [-> ->].
        { clear - Es Es' U U' E0 E0' N0 P'. assert (N0' : x0' <> VNone) by (intros ->; discriminate). rewrite Es in Es'. clear Es. revert pre' Es' U'. induction pre as [|a pre IH]; intros [|a' pre'] Es' U'; cbn in Es'; injection Es' as Q1 Q2; subst.
          - auto.
          - exfalso. assert (Q := U' a' (or_introl eq_refl)). unfold undefined in Q. congruence.
          - exfalso. assert (Q := U v0' (or_introl eq_refl)). unfold undefined in Q. congruence.
          - destruct (IH (fun v Hv => U v (or_intror Hv)) pre' Q2 (fun v Hv => U' v (or_intror Hv))) as [-> ->]. auto. }
        assert (x0' = x0) as -> by congruence. congruence.
    + destruct (limits p0) as [[a b]|e] eqn:L; cbn [bind].
      * apply limits_spec in L. rewrite each_ok. split.
        { intros F. right. exists pre, v0, post, x0, p0, ps, a, b. split; auto. split; auto. split; auto. split; auto. split; auto. intros v x p Hv Ex Hp. specialize (F v Hv). unfold getattr in F. rewrite Ex in F. cbn [bind] in F.
          destruct (is_None x) eqn:N; [apply is_None_spec in N; subst x; destruct Hp|]. assert (Nx : x <> VNone) by (intros ->; discriminate). rewrite members_polylines in F by auto. rewrite each_ok in F. specialize (F p Hp).
          destruct (limits p) as [[a' b']|e] eqn:Lp; [|discriminate]. cbn [bind fst snd] in F. exists a', b'. split; [apply limits_spec; auto|]. destruct (isclose a' a) eqn:C1; [|discriminate]. destruct (isclose b' b) eqn:C2; [|discriminate]. split; apply isclose_spec; auto. }
        { intros [Q|(pre' & v0' & post' & x0' & p0' & ps' & a' & b' & Es' & U' & E0' & P' & L' & F)].
          - exfalso. rewrite Es in Q. assert (QQ : undefined o v0) by (apply Q; apply in_or_app; right; left; reflexivity). unfold undefined in QQ. congruence.
          - assert (v0' = v0).
            { clear - Es Es' U U' E0 E0' N0 P'. assert (N0' : x0' <> VNone) by (intros ->; discriminate). rewrite Es in Es'. clear Es. revert pre' Es' U'. induction pre as [|c pre IH]; intros [|c' pre'] Es' U'; cbn in Es'; injection Es' as Q1 Q2; subst.
              - auto.
              - exfalso. assert (Q := U' c' (or_introl eq_refl)). unfold undefined in Q. congruence.
              - exfalso. assert (Q := U v0' (or_introl eq_refl)). unfold undefined in Q. congruence.
              - apply (IH (fun v Hv => U v (or_intror Hv)) pre' Q2 (fun v Hv => U' v (or_intror Hv))). }
            subst v0'. assert (x0' = x0) as -> by congruence. rewrite P in P'. injection P' as <- <-. destruct (x_limits_fun _ _ _ _ _ L L') as [<- <-].
            intros v Hv. unfold getattr. destruct (H v Hv) as (x & Ex). rewrite Ex. cbn [bind]. destruct (is_None x) eqn:N; [reflexivity|]. assert (Nx : x <> VNone) by (intros ->; discriminate). rewrite members_polylines by auto. apply each_ok. intros p Hp.
            destruct (F v x p Hv Ex Hp) as (c & d & Lp & C1 & C2). apply limits_spec in Lp. rewrite Lp. cbn [bind fst snd]. apply isclose_spec in C1. apply isclose_spec in C2. rewrite C1, C2. reflexivity. }
      * split; [discriminate|]. intros [Q|(pre' & v0' & post' & x0' & p0' & ps' & a' & b' & Es' & U' & E0' & P' & L' & F)].
        { exfalso. rewrite Es in Q. assert (QQ : undefined o v0) by (apply Q; apply in_or_app; right; left; reflexivity). unfold undefined in QQ. congruence. }
        { exfalso. destruct (F v0 x0 p0) as (c & d & Lp & _); [rewrite Es; apply in_or_app; right; left; auto|auto|rewrite P; left; auto|]. apply limits_spec in Lp. congruence. }
Qed.
Theorem C52_x_limits : forall o attributes, (forall s v, In s attributes -> In v s -> has o v) ->
  check_attribute_PolyLines_have_same_x_limits o attributes = Ok tt <-> forall s, In s attributes -> x_limits_agree o s.
Proof. intros o l H. unfold check_attribute_PolyLines_have_same_x_limits. rewrite each_ok. split; intros Q s Hs; apply (check_x_limits_spec o s (fun v => H s v Hs)); auto. Qed.

(** ** C53: copying attributes, also from an object to itself *)
Theorem C53_copied : forall s a b attributes defaults not_found,
  let s' := copy_attributes s a b attributes defaults not_found in
  (forall v, In v attributes -> s' b v = Some (match s a v with Some x => x | None => match lookup defaults v with Some x => x | None => not_found end end)) /\
  (forall v, ~ In v attributes -> s' b v = s b v) /\ forall k, k <> b -> s' k = s k.
Proof.
  intros s a b l d nf. cbv zeta. set (val := fun (t : store) v => match t a v with Some x => x | None => match lookup d v with Some x => x | None => nf end end).
  assert (G : forall l s, (forall v, copy_attributes s a b l d nf b v = if in_dec string_dec v l then Some (val s v) else s b v) /\ forall k, k <> b -> copy_attributes s a b l d nf k = s k).
  { clear s l. induction l as [|w l IH]; intros s; [split; auto|]. cbn [copy_attributes]. fold (get_or d w nf). change (match s a w with Some x => x | None => get_or d w nf end) with (val s w). set (s1 := update s b (setattr (s b) w (val s w))).
    assert (V : forall v, val s1 v = val s v).
    { intros v. unfold val at 1, s1, update. destruct (Nat.eqb_spec a b) as [->|N]; [|reflexivity]. unfold setattr. destruct (String.eqb_spec v w) as [->|N2]; reflexivity. }
    assert (B : forall v, s1 b v = if string_dec v w then Some (val s w) else s b v).
    { intros v. unfold s1, update. rewrite Nat.eqb_refl. unfold setattr. destruct (String.eqb_spec v w); destruct (string_dec v w); congruence. }
    destruct (IH s1) as [H1 H2]. split.
    - intros v. rewrite H1, V, B. destruct (in_dec string_dec v l) as [Q|Q], (in_dec string_dec v (w :: l)) as [Q2|Q2]; auto.
      + exfalso. apply Q2. right. auto.
      + destruct Q2 as [->|Q2]; [destruct (string_dec v v); congruence|contradiction].
      + destruct (string_dec v w) as [->|]; [exfalso; apply Q2; left; auto|auto].
    - intros k Nk. rewrite H2 by auto. unfold s1, update. destruct (Nat.eqb_spec k b); [contradiction|reflexivity]. }
  destruct (G l s) as [G1 G2]. split; [|split; auto]; intros v Hv; rewrite G1; destruct (in_dec string_dec v l); try contradiction; reflexivity.
Qed.
Theorem C53_initialized : forall attributes defaults not_found o v,
  initialize_attributes o attributes defaults not_found v = if in_dec string_dec v attributes then Some (match lookup defaults v with Some x => x | None => not_found end) else o v.
Proof.
  intros l d nf. unfold initialize_attributes. induction l as [|w l IH]; intros o v; [reflexivity|]. cbn [fold_left]. rewrite IH. destruct (in_dec string_dec v l) as [Q|Q], (in_dec string_dec v (w :: l)) as [Q2|Q2]; auto.
  - exfalso. apply Q2. right. auto.
  - destruct Q2 as [->|Q2]; [|contradiction]. rewrite setattr_same. reflexivity.
  - apply setattr_other. intros ->. apply Q2. left. auto.
Qed.

(** ** C90: an object made from an input text *)
Lemma all_attributes_In attrs v : In v (all_attributes attrs) <-> In v attrs \/ In v common_attributes.
Proof.
  unfold all_attributes. generalize common_attributes as cs. intros cs. revert attrs. induction cs as [|c cs IH]; intros attrs; cbn [fold_left]; [cbn [In]; tauto|]. rewrite IH. cbn [In].
  destruct (existsb (String.eqb c) attrs) eqn:E.
  - apply existsb_exists in E. destruct E as (w & Hw & Q). apply String.eqb_eq in Q. subst w. split; [tauto|]. intros [H|[<-|H]]; auto.
  - rewrite in_app_iff. cbn [In]. tauto.
Qed.
(** Every attribute - the class's own and the common ones - is what the text assigned to it, else
    the class's default, else the common default, else None; nothing else of the object changes; if
    the text cannot be executed there is no object. *)
Theorem C90_constructed : forall attrs own common start module, exists o,
  construct attrs own common start (Some (Ok module)) = Ok o /\
  (forall v, In v attrs \/ In v common_attributes -> o v = Some (match module v with Some x => x | None => match lookup own v with Some x => x | None => match lookup common v with Some x => x | None => VNone end end end)) /\
  (forall v, ~ In v attrs -> ~ In v common_attributes -> o v = start v).
Proof.
  intros attrs own common start md. unfold construct. cbn [bind]. eexists. split; [reflexivity|].
  assert (LK : forall d1 d2 v, lookup (d1 ++ d2) v = match lookup d1 v with Some x => Some x | None => lookup d2 v end).
  { induction d1 as [|[k x] d1 IH]; intros d2 v; [reflexivity|]. cbn. destruct (String.eqb k v); auto. }
  match goal with |- context [copy_attributes ?s 0 1 ?l ?d ?nf] => destruct (C53_copied s 0 1 l d nf) as (G1 & G2 & _) end. split.
  - intros v Hv. rewrite G1 by (apply all_attributes_In; auto). unfold copy_dict. rewrite LK. destruct (md v); auto. destruct (lookup own v); auto.
  - intros v N1 N2. assert (N : ~ In v (all_attributes attrs)) by (rewrite all_attributes_In; tauto). rewrite G2 by auto. cbv beta iota. rewrite C53_initialized. destruct (in_dec string_dec v (all_attributes attrs)); [contradiction|reflexivity].
Qed.
Theorem C90_no_text : forall attrs own common start, exists o, construct attrs own common start None = Ok o /\
  (forall v, In v attrs \/ In v common_attributes -> o v = Some (match lookup own v with Some x => x | None => match lookup common v with Some x => x | None => VNone end end)) /\
  (forall v, ~ In v attrs -> ~ In v common_attributes -> o v = start v).
Proof.
  intros attrs own common start. unfold construct. eexists. split; [reflexivity|].
  assert (LK : forall d1 d2 v, lookup (d1 ++ d2) v = match lookup d1 v with Some x => Some x | None => lookup d2 v end).
  { induction d1 as [|[k x] d1 IH]; intros d2 v; [reflexivity|]. cbn. destruct (String.eqb k v); auto. }
  split; intros v Hv; [|intros N2]; rewrite C53_initialized; destruct (in_dec string_dec v (all_attributes attrs)) as [Q|Q]; rewrite all_attributes_In in Q; try tauto.
  unfold copy_dict. rewrite LK. destruct (lookup own v); auto.
Qed.
Theorem C90_bad_text : forall attrs own common start e, construct attrs own common start (Some (Err e)) = Err e.
Proof. reflexivity. Qed.
Example constructed_instance : exists o, construct ["H"; "kv"]%string [("H", VOther None 1)]%string [("prefix", VOther None 2); ("author", VOther None 3)]%string (fun _ => None)
   (Some (Ok (fun v => if String.eqb v "kv" then Some (VPolyLine [0; 1]%R) else if String.eqb v "author" then Some (VOther None 9) else None))) = Ok o /\
   o "H"%string = Some (VOther None 1) /\ o "kv"%string = Some (VPolyLine [0; 1]%R) /\ o "prefix"%string = Some (VOther None 2) /\ o "author"%string = Some (VOther None 9) /\ o "title"%string = Some VNone /\ o "nonsense"%string = None.
Proof. eexists. split; [reflexivity|]. repeat split. Qed.

(** ** C91: the complete check of the programs *)
Definition mems (v : string) (l : list string) : bool := existsb (String.eqb v) l.
Lemma mems_In v l : mems v l = true <-> In v l.
Proof. unfold mems. rewrite existsb_exists. split; [intros (x & Hx & E); apply String.eqb_eq in E; subst; auto|intros H; exists v; split; auto; apply String.eqb_refl]. Qed.
Definition rests (cfg : setup) : list string := flat_map (fun g => List.tl g) (force_same_len cfg).
(** conditions on the tables, checked for each program below *)
Definition tables_ok (cfg : setup) : bool :=
  forallb (fun v => mems v (all_attributes (attributes cfg)))
    (should_be_lists cfg ++ List.concat (same_x_limits cfg) ++ List.concat (same_len_pairs cfg) ++ List.concat (force_same_len cfg) ++ List.concat (zero_or_all cfg) ++ List.concat (at_least_one cfg) ++ List.concat (one_implies_others cfg)) &&
  forallb (fun g => match g with [] => false | g0 :: gs => mems g0 (should_be_lists cfg) && negb (mems g0 (rests cfg)) end) (force_same_len cfg) &&
  forallb (fun c => forallb (fun v => negb (mems v (rests cfg))) c) (zero_or_all cfg) &&
  forallb (fun c => match c with [] => true | c0 :: cs =>
     forallb (fun g => match g with [] => true | g0 :: gs => negb (mems c0 gs) || forallb (fun w => String.eqb w g0 || existsb (fun z => mems g0 z && mems w z) (zero_or_all cfg)) cs end) (force_same_len cfg) end) (one_implies_others cfg).
Theorem C91_tables : forall cfg, In cfg [Speccon1dVR_setup; Speccon1dVRC_setup; Speccon1dVRW_setup; Speccon1dUnsat_setup; SchiffmanAndStein1970_setup; NogamiAndLi2003_setup] -> tables_ok cfg = true.
Proof. intros cfg H. repeat (destruct H as [<-|H]; [vm_compute; reflexivity|]). destruct H. Qed.

(** what is guaranteed about an object that passed *)
Definition guaranteed (cfg : setup) (o : object) : Prop :=
  consistent o (zero_or_all cfg) (at_least_one cfg) (one_implies_others cfg) /\
  (forall v, In v (should_be_lists cfg) -> none_or_list o v) /\
  (forall g0 gs v, In (g0 :: gs) (force_same_len cfg) -> defined o g0 -> In v gs -> defined o v) /\
  (forall s, In s (same_x_limits cfg) -> x_limits_agree o s) /\
  (forall p, In p (same_len_pairs cfg) -> pair_ok o p).

Section Check.
Variable cfg : setup.
Hypothesis T : tables_ok cfg = true.
Lemma T_parts : (forall v, In v (should_be_lists cfg ++ List.concat (same_x_limits cfg) ++ List.concat (same_len_pairs cfg) ++ List.concat (force_same_len cfg) ++ List.concat (zero_or_all cfg) ++ List.concat (at_least_one cfg) ++ List.concat (one_implies_others cfg)) -> In v (all_attributes (attributes cfg))) /\
  (forall g, In g (force_same_len cfg) -> exists g0 gs, g = g0 :: gs /\ In g0 (should_be_lists cfg) /\ ~ In g0 (rests cfg)) /\
  (forall c v, In c (zero_or_all cfg) -> In v c -> ~ In v (rests cfg)) /\
  (forall c0 cs g0 gs w, In (c0 :: cs) (one_implies_others cfg) -> In (g0 :: gs) (force_same_len cfg) -> In c0 gs -> In w cs -> w = g0 \/ exists z, In z (zero_or_all cfg) /\ In g0 z /\ In w z).
Proof.
  unfold tables_ok in T. apply andb_true_iff in T. destruct T as [T1 T4]. apply andb_true_iff in T1. destruct T1 as [T1 T3]. apply andb_true_iff in T1. destruct T1 as [T1 T2].
  rewrite forallb_forall in T1, T2, T3, T4. split; [|split; [|split]].
  - intros v Hv. apply mems_In. auto.
  - intros g Hg. specialize (T2 g Hg). destruct g as [|g0 gs]; [discriminate|]. apply andb_true_iff in T2. destruct T2 as [A B]. exists g0, gs. split; auto. split; [apply mems_In; auto|]. intros Q. apply mems_In in Q. rewrite Q in B. discriminate.
  - intros c v Hc Hv Q. specialize (T3 c Hc). rewrite forallb_forall in T3. specialize (T3 v Hv). apply mems_In in Q. rewrite Q in T3. discriminate.
  - intros c0 cs g0 gs w Hc Hg H0 Hw. specialize (T4 _ Hc). cbv beta iota in T4. rewrite forallb_forall in T4. specialize (T4 _ Hg). cbv beta iota in T4. apply orb_true_iff in T4. destruct T4 as [A|A]; [apply mems_In in H0; rewrite H0 in A; discriminate|].
    rewrite forallb_forall in A. specialize (A w Hw). apply orb_true_iff in A. destruct A as [A|A]; [left; apply String.eqb_eq; auto|right]. apply existsb_exists in A. destruct A as (z & Hz & A). apply andb_true_iff in A. destruct A as [A B]. exists z. split; auto. split; apply mems_In; auto.
Qed.
Variable o : object.
Hypothesis Hall : forall v, In v (all_attributes (attributes cfg)) -> has o v.
Lemma has_table t : In t [same_x_limits cfg; same_len_pairs cfg; force_same_len cfg; zero_or_all cfg; at_least_one cfg; one_implies_others cfg] -> forall c v, In c t -> In v c -> has o v.
Proof.
  intros Ht c v Hc Hv. apply Hall. apply (proj1 T_parts). assert (Q : In v (List.concat t)) by (apply in_concat; eauto). rewrite !in_app_iff. cbn [In] in Ht.
  destruct Ht as [<-|[<-|[<-|[<-|[<-|[<-|[]]]]]]]; tauto.
Qed.
Lemma has_lists v : In v (should_be_lists cfg) -> has o v.
Proof. intros Hv. apply Hall. apply (proj1 T_parts). apply in_or_app. auto. Qed.

(** listing keeps definedness *)
Lemma listed_None x : listed x = VNone <-> x = VNone.
Proof. destruct x; cbn; split; congruence. Qed.
Definition same_definedness (o1 o2 : object) (v : string) : Prop := (defined o1 v <-> defined o2 v) /\ (undefined o1 v <-> undefined o2 v).
End Check.

Lemma in_rests cfg g0 gs v : In (g0 :: gs) (force_same_len cfg) -> In v gs -> In v (rests cfg).
Proof. intros Hg Hv. unfold rests. apply in_flat_map. exists (g0 :: gs). auto. Qed.

Lemma Err_Ok {A} e (x : A) : Err e = Ok x -> False.
Proof. discriminate. Qed.
Ltac bad := match goal with H : Err _ = Ok _ |- _ => exfalso; exact (Err_Ok _ _ H) | H : bind (Err _) _ = Ok _ |- _ => exfalso; exact (Err_Ok _ _ H) end.
(** A successful check leaves an object with all the guarantees; the only changes are that single
    values are put into lists and that missing companions become lists of None of the right length. *)
Theorem C91_guarantees : forall cfg o o', tables_ok cfg = true -> (forall v, In v (all_attributes (attributes cfg)) -> has o v) ->
  check_input_attributes cfg o = Ok o' ->
  guaranteed cfg o' /\
  (forall v, o' v = o v \/ (In v (should_be_lists cfg) /\ ~ none_or_list o v /\ exists x, o v = Some x /\ o' v = Some (VList [x])) \/
             (undefined o v /\ exists g0 gs l, In (g0 :: gs) (force_same_len cfg) /\ In v gs /\ o' g0 = Some (VList l) /\ o' v = Some (VList (repeat VNone (List.length l))))).
Proof.
  intros cfg o o' T Hall H. destruct (T_parts cfg T) as (T1 & T2 & T3 & T4). unfold check_input_attributes in H.
  destruct (C52_combinations o (zero_or_all cfg) (at_least_one cfg) (one_implies_others cfg)) as [[Ec Cc]|[Ec _]].
  { intros c v Hc Hv. apply in_app_or in Hc. destruct Hc as [Hc|Hc]; [apply (has_table cfg T o Hall (zero_or_all cfg)) with c; auto; cbn; tauto|]. apply in_app_or in Hc.
    destruct Hc as [Hc|Hc]; [apply (has_table cfg T o Hall (at_least_one cfg)) with c|apply (has_table cfg T o Hall (one_implies_others cfg)) with c]; auto; cbn; tauto. }
  2: { rewrite Ec in H. bad. }
  rewrite Ec in H. cbn [bind] in H. destruct (is_list_force (should_be_lists cfg) o (fun v => has_lists cfg T o Hall v)) as (o1 & E1 & S1). rewrite E1 in H. cbn [bind] in H.
  destruct (force_attribute_same_len_if_none o1 (force_same_len cfg) VNone) as [o2|e] eqn:E2; [|bad]. cbn [bind] in H.
  destruct (check_attribute_PolyLines_have_same_x_limits o2 (same_x_limits cfg)) as [[]|e] eqn:E3; [|bad]. cbn [bind] in H.
  destruct (check_attribute_pairs_have_equal_length o2 (same_len_pairs cfg)) as [[]|e] eqn:E4; [|bad]. cbn [bind] in H. injection H as <-.
  destruct (force_spec VNone _ _ _ E2) as (G & D & K).
  (* definedness *)
  assert (D1 : forall v, defined o v <-> defined o1 v).
  { intros v. unfold defined. rewrite S1. destruct (in_dec string_dec v (should_be_lists cfg)); [|tauto]. split.
    - intros (x & E & N). rewrite E. exists (listed x). split; auto. rewrite listed_None. auto.
    - intros (x & E & N). destruct (o v) as [y|]; [|discriminate]. cbn in E. injection E as <-. exists y. split; auto. rewrite <- listed_None. auto. }
  assert (U1 : forall v, undefined o v <-> undefined o1 v).
  { intros v. unfold undefined. rewrite S1. destruct (in_dec string_dec v (should_be_lists cfg)); [|tauto]. destruct (o v) as [y|]; [|split; discriminate]. cbn. split; intros Q; injection Q as Q; f_equal; apply listed_None; auto. }
  assert (Dm : forall v, defined o1 v -> defined o2 v). { intros v (x & E & N). exists x. split; auto. eapply grown_defined; eauto. }
  assert (H1 : forall v, has o v -> has o1 v). { intros v Hv. destruct (has_cases o v Hv) as [Q|Q]; [apply defined_has, D1; auto|apply undefined_has, U1; auto]. }
  assert (H2 : forall v, has o v -> has o2 v). { intros v Hv. eapply grown_has; eauto. }
  assert (NR : forall v, ~ In v (rests cfg) -> o2 v = o1 v).
  { intros v N. destruct (K v) as [Q|(_ & g0 & gs & x & n & Hg & Hv & _)]; [auto|]. exfalso. apply N. eapply in_rests; eauto. }
  assert (NL : forall v, In v (should_be_lists cfg) -> none_or_list o1 v).
  { intros v Hv. destruct (has_lists cfg T o Hall v Hv) as (x & Ex). unfold none_or_list, undefined. rewrite S1. destruct (in_dec string_dec v (should_be_lists cfg)); [|contradiction]. rewrite Ex. cbn [option_map].
    destruct x; cbn; eauto. }
  assert (NL2 : forall v, In v (should_be_lists cfg) -> none_or_list o2 v).
  { intros v Hv. destruct (K v) as [Q|(_ & g0 & gs & x & n & _ & _ & _ & _ & _ & Q)]; [|right; eauto]. destruct (NL v Hv) as [U|(l & E)]; [left; unfold undefined in *; congruence|right; exists l; congruence]. }
  assert (FD : forall g0 gs v, In (g0 :: gs) (force_same_len cfg) -> defined o2 g0 -> In v gs -> defined o2 v).
  { intros g0 gs v Hg Dg Hv. destruct (T2 _ Hg) as (g0' & gs' & Q & Hl & N). injection Q as <- <-. destruct Dg as (x & Ex & Nx). rewrite (NR g0 N) in Ex. apply (D g0 gs x v Hg Ex Nx); auto. intros id ->.
    destruct (NL g0 Hl) as [U|(l & E)]; unfold undefined in *; congruence. }
  assert (Cc2 : consistent o2 (zero_or_all cfg) (at_least_one cfg) (one_implies_others cfg)).
  { destruct Cc as (C1 & C2 & C3). split; [|split].
    - intros c Hc. assert (EQ : forall v, In v c -> o2 v = o1 v) by (intros v Hv; apply NR; eapply T3; eauto). destruct (C1 c Hc) as [Q|Q]; [left|right]; intros v Hv.
      + apply Dm, D1, Q; auto.
      + unfold undefined. rewrite (EQ v Hv). apply U1, Q; auto.
    - intros c Hc. destruct (C2 c Hc) as (v & Hv & Dv). exists v. split; auto. apply Dm, D1; auto.
    - intros c Hc. destruct (C3 c Hc) as (L & Q). split; auto. intros c0 cs -> Dc w Hw. destruct (K c0) as [E|(U & g0 & gs & x & n & Hg & Hv & Eg & Ng & _)].
      + apply Dm, D1. apply (Q c0 cs eq_refl); auto. apply D1. unfold defined in *. rewrite <- E. auto.
      + destruct (T4 c0 cs g0 gs w Hc Hg Hv Hw) as [->|(z & Hz & H0 & Hwz)]; [exists x; auto|]. destruct (T2 _ Hg) as (g0' & gs' & QQ & Hl & N). injection QQ as <- <-.
        destruct (C1 z Hz) as [A|A]; [apply Dm, D1, A; auto|]. exfalso. assert (U0 := proj1 (U1 g0) (A g0 H0)). unfold undefined in U0. rewrite <- (NR g0 N) in U0. congruence. }
  split.
  - split; [exact Cc2|]. split; [exact NL2|]. split; [exact FD|]. split.
    + apply (C52_x_limits o2 (same_x_limits cfg)); [|exact E3]. intros s v Hs Hv. apply H2. apply (has_table cfg T o Hall (same_x_limits cfg)) with s; auto; cbn; tauto.
    + apply (C52_pairs o2 (same_len_pairs cfg)); [|exact E4]. intros s v Hs Hv. apply H2. apply (has_table cfg T o Hall (same_len_pairs cfg)) with s; auto; cbn; tauto.
  - intros v. destruct (K v) as [Q|(U & g0 & gs & x & n & Hg & Hv & Eg & Ng & Lg & Q)].
    + rewrite Q, S1. destruct (in_dec string_dec v (should_be_lists cfg)) as [Hl|Hl]; [|auto]. destruct (has_lists cfg T o Hall v Hl) as (x & Ex). rewrite Ex. cbn [option_map].
      unfold listed. destruct (is_None x || is_list x) eqn:N; [left; auto|]. right. left. split; auto. split; [|eauto]. intros [A|(l & A)]; [unfold undefined in A|]; rewrite Ex in A; injection A as ->; discriminate.
    + right. right. split; [apply U1; auto|]. destruct (T2 _ Hg) as (g0' & gs' & QQ & Hl & N). injection QQ as <- <-. destruct (NL2 g0 Hl) as [A|(l & A)]; [unfold undefined in A; congruence|]. exists g0, gs, l. split; auto. split; auto. split; auto.
      rewrite A in Eg. injection Eg as <-. cbn in Lg. injection Lg as <-. auto.
Qed.

(** Checking again succeeds and changes nothing. *)
Lemma is_list_noop l o : (forall v, In v l -> none_or_list o v) -> check_attribute_is_list o l true = Ok o.
Proof.
  induction l as [|a l IH]; intros H; [reflexivity|]. cbn [check_attribute_is_list]. unfold getattr. destruct (H a (or_introl eq_refl)) as [U|(k & E)]; [unfold undefined in U; rewrite U|rewrite E]; cbn [bind is_None is_list orb]; apply IH; intros v Hv; apply H; right; auto.
Qed.
Lemma fill_all_noop f a1 vs o : (forall v, In v vs -> defined o v) -> fill_all f a1 o vs = Ok o.
Proof.
  induction vs as [|a vs IH]; intros H; [reflexivity|]. cbn [fill_all]. unfold fill, getattr. destruct (H a (or_introl eq_refl)) as (x & E & N). rewrite E. cbn [bind]. destruct (is_None x) eqn:Q; [apply is_None_spec in Q; contradiction|]. cbn [bind]. apply IH. intros v Hv. apply H. right. auto.
Qed.
Lemma force_noop f groups o : (forall g, In g groups -> exists g0 gs, g = g0 :: gs /\ none_or_list o g0 /\ (defined o g0 -> forall v, In v gs -> defined o v)) -> force_attribute_same_len_if_none o groups f = Ok o.
Proof.
  induction groups as [|g groups IH]; intros H; [reflexivity|]. cbn [force_attribute_same_len_if_none]. destruct (H g (or_introl eq_refl)) as (g0 & gs & -> & NL & D). cbn [force_group]. unfold getattr.
  destruct NL as [U|(l & E)].
  - unfold undefined in U. rewrite U. cbn [bind]. apply IH. intros g Hg. apply H. right. auto.
  - rewrite E. cbn [bind]. rewrite fill_all_noop by (apply D; exists (VList l); split; [auto|discriminate]). cbn [bind]. apply IH. intros g Hg. apply H. right. auto.
Qed.
Theorem C91_idempotent : forall cfg o o', tables_ok cfg = true -> (forall v, In v (all_attributes (attributes cfg)) -> has o v) ->
  check_input_attributes cfg o = Ok o' -> check_input_attributes cfg o' = Ok o'.
Proof.
  intros cfg o o' T Hall H. destruct (C91_guarantees cfg o o' T Hall H) as ((G1 & G2 & G3 & G4 & G5) & Ch). destruct (T_parts cfg T) as (T1 & T2 & T3 & T4).
  assert (Hall' : forall v, In v (all_attributes (attributes cfg)) -> has o' v).
  { intros v Hv. destruct (Hall v Hv) as (x & E). destruct (Ch v) as [Q|[(_ & _ & y & _ & Q)|(_ & g0 & gs & l & _ & _ & _ & Q)]]; [exists x; congruence|eexists; exact Q|eexists; exact Q]. }
  unfold check_input_attributes.
  destruct (C52_combinations o' (zero_or_all cfg) (at_least_one cfg) (one_implies_others cfg)) as [[Ec _]|[_ N]].
  { intros c v Hc Hv. apply in_app_or in Hc. destruct Hc as [Hc|Hc]; [apply (has_table cfg T o' Hall' (zero_or_all cfg)) with c; auto; cbn; tauto|]. apply in_app_or in Hc.
    destruct Hc as [Hc|Hc]; [apply (has_table cfg T o' Hall' (at_least_one cfg)) with c|apply (has_table cfg T o' Hall' (one_implies_others cfg)) with c]; auto; cbn; tauto. }
  2: { contradiction. }
  rewrite Ec. cbn [bind]. rewrite is_list_noop by auto. cbn [bind]. rewrite force_noop.
  - cbn [bind]. rewrite (proj2 (C52_x_limits o' (same_x_limits cfg) (fun s v Hs Hv => has_table cfg T o' Hall' (same_x_limits cfg) ltac:(cbn; tauto) s v Hs Hv)) G4). cbn [bind].
    rewrite (proj2 (proj1 (C52_pairs o' (same_len_pairs cfg) (fun s v Hs Hv => has_table cfg T o' Hall' (same_len_pairs cfg) ltac:(cbn; tauto) s v Hs Hv))) G5). reflexivity.
  - intros g Hg. destruct (T2 g Hg) as (g0 & gs & -> & Hl & _). exists g0, gs. split; auto. split; auto. intros Dg v Hv. eapply G3; eauto.
Qed.

(** No load is cut short by zip: the attributes of a load are all None, or lists of one length. *)
Definition together (o : object) (names : list string) : Prop :=
  (forall v, In v names -> undefined o v) \/ exists n, forall v, In v names -> exists l, o v = Some (VList l) /\ List.length l = n.
Definition lists_of (cfg : setup) (a b : string) : bool :=
  mems a (should_be_lists cfg) && mems b (should_be_lists cfg) && existsb (fun p => match p with [x; y] => (String.eqb x a && String.eqb y b) || (String.eqb x b && String.eqb y a) | _ => false end) (same_len_pairs cfg).
Definition joined (cfg : setup) (a b : string) : bool :=   (* a defined iff b defined *)
  existsb (fun z => mems a z && mems b z) (zero_or_all cfg) ||
  (existsb (fun g => match g with [] => false | g0 :: gs => String.eqb g0 a && mems b gs end) (force_same_len cfg) &&
   existsb (fun c => match c with [] => false | c0 :: cs => String.eqb c0 b && mems a cs end) (one_implies_others cfg)).
Lemma together2 cfg o a b : (forall v, In v [a; b] -> has o v) -> guaranteed cfg o -> lists_of cfg a b = true -> joined cfg a b = true -> together o [a; b].
Proof.
  intros Hh (G1 & G2 & G3 & G4 & G5) L J. unfold lists_of in L. apply andb_true_iff in L. destruct L as [L P]. apply andb_true_iff in L. destruct L as [La Lb]. apply mems_In in La. apply mems_In in Lb.
  assert (I : defined o a <-> defined o b).
  { unfold joined in J. apply orb_true_iff in J. destruct G1 as (Z & _ & I). destruct J as [J|J].
    - apply existsb_exists in J. destruct J as (z & Hz & J). apply andb_true_iff in J. destruct J as [Ja Jb]. apply mems_In in Ja. apply mems_In in Jb. destruct (Z z Hz) as [Q|Q]; [split; auto|].
      split; intros D; exfalso; eapply not_both; eauto.
    - apply andb_true_iff in J. destruct J as [J1 J2]. apply existsb_exists in J1. destruct J1 as (g & Hg & J1). destruct g as [|g0 gs]; [discriminate|]. apply andb_true_iff in J1. destruct J1 as [J1 J3]. apply String.eqb_eq in J1. subst g0. apply mems_In in J3.
      apply existsb_exists in J2. destruct J2 as (c & Hc & J2). destruct c as [|c0 cs]; [discriminate|]. apply andb_true_iff in J2. destruct J2 as [J2 J4]. apply String.eqb_eq in J2. subst c0. apply mems_In in J4. split.
      + intros D. eapply G3; eauto.
      + intros D. destruct (I _ Hc) as (_ & Q). eapply Q; eauto. }
  assert (PO : exists n, (forall l, o a = Some (VList l) -> forall k, o b = Some (VList k) -> List.length l = n /\ List.length k = n)).
  { apply existsb_exists in P. destruct P as (p & Hp & P). destruct (G5 p Hp) as (v1 & v2 & -> & C). apply orb_true_iff in P.
    destruct P as [P|P]; apply andb_true_iff in P; destruct P as [P1 P2]; apply String.eqb_eq in P1; apply String.eqb_eq in P2; subst v1 v2; unfold undefined in C;
    (destruct C as [C|[C|(x1 & x2 & n & X1 & X2 & L1 & L2)]]; [exists 0; intros; congruence|exists 0; intros; congruence|exists n; intros l El k Ek]).
    - rewrite El in X1. rewrite Ek in X2. injection X1 as <-. injection X2 as <-. cbn in L1, L2. injection L1 as <-. injection L2 as <-. auto.
    - rewrite El in X2. rewrite Ek in X1. injection X1 as <-. injection X2 as <-. cbn in L1, L2. injection L1 as <-. injection L2 as <-. auto. }
  destruct (G2 a La) as [Ua|(l & El)].
  - left. intros v [<-|[<-|[]]]; auto. destruct (has_cases o b (Hh b ltac:(cbn; auto))) as [D|D]; auto. exfalso. apply I in D. eapply not_both; eauto.
  - right. assert (Db : defined o b) by (apply I; exists (VList l); split; [auto|discriminate]). destruct (G2 b Lb) as [U|(k & Ek)]; [exfalso; eapply not_both; eauto|]. destruct PO as (n & PO). destruct (PO l El k Ek) as [N1 N2].
    exists n. intros v [<-|[<-|[]]]; eauto.
Qed.
Lemma together3 o a b c : together o [a; b] -> together o [b; c] -> together o [a; b; c].
Proof.
  intros [U|(n & H)] [U'|(n' & H')].
  - left. intros v [<-|[<-|[<-|[]]]]; [apply U|apply U|apply U']; cbn; auto.
  - exfalso. destruct (H' b) as (l & E & _); [cbn; auto|]. assert (Q := U b ltac:(cbn; auto)). unfold undefined in Q. congruence.
  - exfalso. destruct (H b) as (l & E & _); [cbn; auto|]. assert (Q := U' b ltac:(cbn; auto)). unfold undefined in Q. congruence.
  - right. exists n. destruct (H b) as (l & E & L); [cbn; auto|]. destruct (H' b) as (l' & E' & L'); [cbn; auto|]. assert (EQ : n' = n) by congruence. rewrite EQ in H'. intros v [<-|[<-|[<-|[]]]]; [apply H|apply H|apply H']; cbn; auto.
Qed.
(** the loads of the spectral programs: distribution, magnitude and cyclic part *)
Definition loads : list (setup * list (list string)) := [
  (Speccon1dVR_setup, [["surcharge_vs_depth"; "surcharge_vs_time"; "surcharge_omega_phase"]; ["vacuum_vs_depth"; "vacuum_vs_time"; "vacuum_omega_phase"]; ["top_vs_time"; "top_omega_phase"]; ["bot_vs_time"; "bot_omega_phase"]; ["fixed_ppress"; "fixed_ppress_omega_phase"]; ["pumping"; "pumping_omega_phase"]]);
  (Speccon1dVRC_setup, [["surcharge_vs_depth"; "surcharge_vs_time"; "surcharge_omega_phase"]; ["top_vs_time"; "top_omega_phase"]; ["bot_vs_time"; "bot_omega_phase"]]);
  (Speccon1dVRW_setup, [["surcharge_vs_depth"; "surcharge_vs_time"; "surcharge_omega_phase"]; ["top_vs_time"; "top_omega_phase"]; ["bot_vs_time"; "bot_omega_phase"]; ["fixed_ppress"; "fixed_ppress_omega_phase"]; ["pumping"; "pumping_omega_phase"]]);
  (Speccon1dUnsat_setup, [["surcharge_vs_depth"; "surcharge_vs_time"; "surcharge_omega_phase"]; ["atop_vs_time"; "atop_omega_phase"]; ["abot_vs_time"; "abot_omega_phase"]; ["wtop_vs_time"; "wtop_omega_phase"]; ["wbot_vs_time"; "wbot_omega_phase"]])]%string.
Definition load_tables_ok (cfg : setup) (names : list string) : bool :=
  match names with
  | [a; b] => lists_of cfg a b && joined cfg a b
  | [a; b; c] => lists_of cfg a b && joined cfg a b && lists_of cfg b c && joined cfg b c
  | _ => false
  end.
Lemma loads_ok : forallb (fun e => tables_ok (fst e) && forallb (fun names => load_tables_ok (fst e) names && forallb (fun v => mems v (all_attributes (attributes (fst e)))) names) (snd e)) loads = true.
Proof. vm_compute. reflexivity. Qed.
Theorem C91_loads : forall cfg names load o o', In (cfg, names) loads -> In load names -> (forall v, In v (all_attributes (attributes cfg)) -> has o v) ->
  check_input_attributes cfg o = Ok o' -> together o' load.
Proof.
  intros cfg names load o o' Hc Hl Hall H. assert (Q := loads_ok). rewrite forallb_forall in Q. specialize (Q _ Hc). cbn [fst snd] in Q. apply andb_true_iff in Q. destruct Q as [T Q]. rewrite forallb_forall in Q. specialize (Q load Hl). apply andb_true_iff in Q. destruct Q as [Q Hm].
  destruct (C91_guarantees cfg o o' T Hall H) as (G & Ch).
  assert (Hall' : forall v, In v load -> has o' v).
  { rewrite forallb_forall in Hm. intros v Hv. specialize (Hm v Hv). apply mems_In in Hm. destruct (Hall v Hm) as (x & E). destruct (Ch v) as [R|[(_ & _ & y & _ & R)|(_ & g0 & gs & l & _ & _ & _ & R)]]; [exists x; congruence|eexists; exact R|eexists; exact R]. }
  destruct load as [|a [|b [|c [|d load]]]]; try discriminate; cbn [load_tables_ok] in Q.
  - apply andb_true_iff in Q. destruct Q as [Q1 Q2]. exact (together2 cfg o' a b Hall' G Q1 Q2).
  - apply andb_true_iff in Q. destruct Q as [Q Q4]. apply andb_true_iff in Q. destruct Q as [Q Q3]. apply andb_true_iff in Q. destruct Q as [Q1 Q2]. clear H Hc Hl Hall T Hm Ch.
    assert (A1 : forall v, In v [a; b] -> has o' v) by (intros v [<-|[<-|[]]]; apply Hall'; cbn; auto).
    assert (A2 : forall v, In v [b; c] -> has o' v) by (intros v [<-|[<-|[]]]; apply Hall'; cbn; auto).
    exact (together3 o' a b c (together2 cfg o' a b A1 G Q1 Q2) (together2 cfg o' b c A2 G Q3 Q4)).
Qed.
(** An object that passes: one surcharge given without lists, no cyclic part; the others None. *)
Definition sample : object := fun v =>
  if mems v ["surcharge_vs_depth"; "mv"; "kv"]%string then Some (VPolyLine [0; 1]%R) else if String.eqb v "surcharge_vs_time" then Some (VPolyLine [0; 10]%R)
  else if mems v ["dTv"; "tvals"; "ppress_z"]%string then Some (VOther (Some 3) 0) else Some VNone.
Lemma isclose_refl x : isclose x x = true.
Proof. apply isclose_spec. unfold close. rewrite Rminus_diag_eq, Rabs_R0 by auto. apply Rplus_le_le_0_compat; [|apply Rmult_le_pos; [|apply Rabs_pos]]; left; apply Rinv_0_lt_compat, pow_lt; lra. Qed.
Definition sample1 : object := setattr (setattr sample "surcharge_vs_depth" (VList [VPolyLine [0; 1]%R])) "surcharge_vs_time" (VList [VPolyLine [0; 10]%R]).
Definition sample2 : object := setattr sample1 "surcharge_omega_phase" (VList [VNone]).
Local Opaque isclose.
Example sample_passes : check_input_attributes Speccon1dVR_setup sample = Ok sample2.
Proof.
  unfold check_input_attributes.
  assert (E1 : check_attribute_combinations sample (zero_or_all Speccon1dVR_setup) (at_least_one Speccon1dVR_setup) (one_implies_others Speccon1dVR_setup) = Ok tt) by reflexivity.
  assert (E2 : check_attribute_is_list sample (should_be_lists Speccon1dVR_setup) true = Ok sample1) by reflexivity.
  assert (E3 : force_attribute_same_len_if_none sample1 (force_same_len Speccon1dVR_setup) VNone = Ok sample2) by reflexivity.
  assert (E5 : check_attribute_pairs_have_equal_length sample2 (same_len_pairs Speccon1dVR_setup) = Ok tt) by reflexivity.
  rewrite E1. cbn [bind]. rewrite E2. cbn [bind]. rewrite E3. cbn [bind]. rewrite E5.
  assert (E4 : check_attribute_PolyLines_have_same_x_limits sample2 (same_x_limits Speccon1dVR_setup) = Ok tt).
  { assert (A1 : getattr sample2 "mv" = Ok (VPolyLine [0; 1]%R)) by reflexivity. assert (A2 : getattr sample2 "kv" = Ok (VPolyLine [0; 1]%R)) by reflexivity.
    assert (A3 : getattr sample2 "kh" = Ok VNone) by reflexivity. assert (A4 : getattr sample2 "et" = Ok VNone) by reflexivity.
    assert (A5 : getattr sample2 "surcharge_vs_depth" = Ok (VList [VPolyLine [0; 1]%R])) by reflexivity. assert (A6 : getattr sample2 "vacuum_vs_depth" = Ok VNone) by reflexivity.
    unfold check_attribute_PolyLines_have_same_x_limits, check_x_limits. cbn [same_x_limits Speccon1dVR_setup each first_defined]. rewrite A1, A2, A3, A4, A5, A6.
    cbn [bind is_None members limits List.last each fst snd]. rewrite !isclose_refl. reflexivity. }
  rewrite E4. reflexivity.
Qed.
Print Assumptions C52_combinations.
Print Assumptions C52_x_limits.
Print Assumptions C53_copied.
Print Assumptions C90_constructed.
Print Assumptions C91_guarantees.
Print Assumptions C91_idempotent.
Print Assumptions C91_loads.

From Coq Require Import List String Bool Arith Reals Lia Lra.
From Verif Require Import Base SetupGen AttrModel SpecAttr.
Import ListNotations.
Local Open Scope list_scope.

Lemma each_ok {A} (f : A -> result unit) l : each f l = Ok tt <-> forall a, In a l -> f a = Ok tt.
Proof.
  induction l as [|a l IH]; cbn; [split; auto; intros _ a []|]. destruct (f a) as [[]|e] eqn:E; cbn [bind].
  - rewrite IH. split; [intros H b [<-|Hb]; auto|auto].
  - split; [discriminate|]. intros H. specialize (H a (or_introl eq_refl)). congruence.
Qed.
Lemma each_err {A} (f : A -> result unit) l e : each f l = Err e -> exists a, In a l /\ f a = Err e.
Proof.
  induction l as [|a l IH]; cbn; [discriminate|]. destruct (f a) as [[]|e'] eqn:E; cbn [bind].
  - intros H. destruct (IH H) as (b & Hb & Eb). exists b. auto.
  - intros H. injection H as <-. exists a. auto.
Qed.
Definition isn (o : object) (v : string) : bool := match o v with Some x => is_None x | None => false end.
Lemma is_None_spec x : is_None x = true <-> x = VNone.
Proof. destruct x; cbn; split; congruence. Qed.
Lemma isn_true o v : isn o v = true <-> undefined o v.
Proof. unfold isn, undefined. destruct (o v) as [x|]; [rewrite is_None_spec; split; congruence|split; discriminate]. Qed.
Lemma isn_false o v : has o v -> isn o v = false <-> defined o v.
Proof.
  intros (x & E). unfold isn, defined. rewrite E. destruct (is_None x) eqn:N.
  - apply is_None_spec in N. split; [discriminate|]. intros (y & Q & Ny). injection Q as <-. contradiction.
  - split; auto. intros _. exists x. split; auto. intros ->. discriminate.
Qed.
Lemma defined_has o v : defined o v -> has o v. Proof. intros (x & H & _). exists x. auto. Qed.
Lemma undefined_has o v : undefined o v -> has o v. Proof. intros H. exists VNone. auto. Qed.
Lemma has_cases o v : has o v -> defined o v \/ undefined o v.
Proof. intros H. destruct (isn o v) eqn:E; [right; apply isn_true; auto|left; apply isn_false; auto]. Qed.
Lemma not_both o v : defined o v -> undefined o v -> False.
Proof. intros (x & E & N) U. unfold undefined in U. congruence. Qed.
Lemma nones_has o check : (forall v, In v check -> has o v) -> nones o check = Ok (map (isn o) check).
Proof.
  unfold nones. induction check as [|v l IH]; intros H; [reflexivity|]. cbn [mapM map]. destruct (H v (or_introl eq_refl)) as (x & E). unfold getattr at 1. unfold isn at 1. rewrite E. cbn [bind].
  rewrite IH by (intros; apply H; right; auto). reflexivity.
Qed.
Lemma count_true o l : let k := count_occ bool_dec (map (isn o) l) true in (k = 0%nat <-> forall v, In v l -> isn o v = false) /\ (k = List.length l <-> forall v, In v l -> isn o v = true) /\ (k <= List.length l)%nat.
Proof.
  cbv zeta. induction l as [|a l (IH1 & IH2 & IH3)]; [cbn; split; [split; auto; intros _ v []|split; [split; auto; intros _ v []|lia]]|].
  cbn [map count_occ List.length]. destruct (isn o a) eqn:E.
  - destruct (bool_dec true true); [|congruence]. split; [split; [discriminate|intros H; specialize (H a (or_introl eq_refl)); congruence]|]. split; [|lia].
    split; [intros H v [<-|Hv]; auto; apply IH2; auto; lia|intros H; f_equal; apply IH2; intros v Hv; apply H; right; auto].
  - destruct (bool_dec false true); [discriminate|]. split; [rewrite IH1; split; [intros H v [<-|Hv]; auto|intros H v Hv; apply H; right; auto]|]. split; [|lia].
    split; [lia|intros H; specialize (H a (or_introl eq_refl)); congruence].
Qed.

(** ** combinations *)
Lemma combinations_spec o za al oi : (forall c v, In c (za ++ al ++ oi) -> In v c -> has o v) ->
  (check_attribute_combinations o za al oi = Ok tt /\ consistent o za al oi) \/ (check_attribute_combinations o za al oi = Err ValueError /\ ~ consistent o za al oi).
Proof.
  intros H. unfold check_attribute_combinations.
  assert (Hz : forall c v, In c za -> In v c -> has o v) by (intros c v Hc; apply H; apply in_or_app; auto).
  assert (Ha : forall c v, In c al -> In v c -> has o v) by (intros c v Hc; apply H; apply in_or_app; right; apply in_or_app; auto).
  assert (Ho : forall c v, In c oi -> In v c -> has o v) by (intros c v Hc; apply H; apply in_or_app; right; apply in_or_app; auto).
  clear H.
  match goal with |- context [bind (each ?f za)] => set (fz := f) end. match goal with |- context [bind (each ?f al)] => set (fa := f) end. match goal with |- context [each ?f oi] => set (fo := f) end.
  assert (Z : forall c, In c za -> fz c = Ok tt /\ all_or_none o c \/ fz c = Err ValueError /\ ~ all_or_none o c).
  { intros c Hc. unfold fz. rewrite nones_has by eauto. cbn [bind]. cbv zeta. destruct (count_true o c) as (C0 & C1 & C2). cbv zeta in C0, C1, C2. set (k := count_occ _ _ _) in *. clearbody k.
    destruct (Nat.leb_spec 1 k) as [L|L]; cbn [andb].
    - destruct (Nat.ltb_spec k (List.length c)) as [L2|L2].
      + right. split; auto. intros [D|U].
        * assert (k = 0%nat) by (apply C0; intros v Hv; apply isn_false; eauto). lia.
        * assert (k = List.length c) by (apply C1; intros v Hv; apply isn_true; auto). lia.
      + left. split; auto. right. intros v Hv. apply isn_true. apply C1; auto. lia.
    - left. split; auto. left. intros v Hv. apply isn_false; eauto. apply C0; auto. lia. }
  assert (Al : forall c, In c al -> fa c = Ok tt /\ some_defined o c \/ fa c = Err ValueError /\ ~ some_defined o c).
  { intros c Hc. unfold fa. rewrite nones_has by eauto. cbn [bind]. destruct (existsb negb (map (isn o) c)) eqn:E.
    - left. split; auto. apply existsb_exists in E. destruct E as (b & Hb & Nb). apply in_map_iff in Hb. destruct Hb as (v & <- & Hv). exists v. split; auto. apply isn_false; eauto. apply negb_true_iff. auto.
    - right. split; auto. intros (v & Hv & D). assert (Q : existsb negb (map (isn o) c) = true); [|congruence]. apply existsb_exists. exists (isn o v). split; [apply in_map; auto|]. apply negb_true_iff. apply isn_false; eauto. }
  assert (Oi : forall c, In c oi -> fo c = Ok tt /\ implied o c \/ fo c = Err ValueError /\ ~ implied o c).
  { intros c Hc. unfold fo. destruct (Nat.leb_spec (List.length c) 1) as [L|L]; [right; split; auto; intros (Q & _); lia|]. destruct c as [|c0 cs]; [cbn in L; lia|].
    destruct (Ho (c0 :: cs) c0 Hc (or_introl eq_refl)) as (x & E). unfold getattr. rewrite !E. cbn [bind]. destruct (is_None x) eqn:N.
    - left. split; auto. split; auto. intros d ds Q D. injection Q as <- <-. exfalso. apply is_None_spec in N. subst x. eapply not_both; eauto.
    - assert (D0 : defined o c0) by (exists x; split; auto; intros ->; discriminate). rewrite nones_has by (intros v Hv; apply (Ho (c0 :: cs)); auto; right; auto). cbn [bind].
      destruct (forallb negb (map (isn o) cs)) eqn:F.
      + left. split; auto. split; auto. intros d ds Q D v Hv. injection Q as <- <-. rewrite forallb_forall in F. apply isn_false; [apply (Ho (c0 :: cs)); auto; right; auto|]. apply negb_true_iff. apply F. apply in_map. auto.
      + right. split; [reflexivity|]. intros (_ & Q). assert (G : forallb negb (map (isn o) cs) = true); [|congruence]. apply forallb_forall. intros b Hb. apply in_map_iff in Hb. destruct Hb as (v & <- & Hv). apply negb_true_iff.
        assert (D := Q c0 cs eq_refl D0 v Hv). apply isn_false; auto. apply defined_has. auto. }
  assert (EZ : each fz za = Ok tt /\ (forall c, In c za -> all_or_none o c) \/ each fz za = Err ValueError /\ ~ (forall c, In c za -> all_or_none o c)).
  { destruct (each fz za) as [[]|e] eqn:E.
    - left. split; auto. intros c Hc. destruct (Z c Hc) as [[_ G]|[G _]]; auto. rewrite (proj1 (each_ok fz za) E c Hc) in G. discriminate.
    - right. apply each_err in E. destruct E as (c & Hc & Ec). destruct (Z c Hc) as [[G _]|[G N]]; [congruence|]. split; [congruence|]. intros Q. apply N. auto. }
  assert (EA : each fa al = Ok tt /\ (forall c, In c al -> some_defined o c) \/ each fa al = Err ValueError /\ ~ (forall c, In c al -> some_defined o c)).
  { destruct (each fa al) as [[]|e] eqn:E.
    - left. split; auto. intros c Hc. destruct (Al c Hc) as [[_ G]|[G _]]; auto. rewrite (proj1 (each_ok fa al) E c Hc) in G. discriminate.
    - right. apply each_err in E. destruct E as (c & Hc & Ec). destruct (Al c Hc) as [[G _]|[G N]]; [congruence|]. split; [congruence|]. intros Q. apply N. auto. }
  assert (EO : each fo oi = Ok tt /\ (forall c, In c oi -> implied o c) \/ each fo oi = Err ValueError /\ ~ (forall c, In c oi -> implied o c)).
  { destruct (each fo oi) as [[]|e] eqn:E.
    - left. split; auto. intros c Hc. destruct (Oi c Hc) as [[_ G]|[G _]]; auto. rewrite (proj1 (each_ok fo oi) E c Hc) in G. discriminate.
    - right. apply each_err in E. destruct E as (c & Hc & Ec). destruct (Oi c Hc) as [[G _]|[G N]]; [congruence|]. split; [congruence|]. intros Q. apply N. auto. }
  unfold consistent. destruct EZ as [[-> Q1]|[-> Q1]]; [cbn [bind]|cbn [bind]; right; split; auto; tauto].
  destruct EA as [[-> Q2]|[-> Q2]]; [cbn [bind]|cbn [bind]; right; split; auto; tauto].
  destruct EO as [[-> Q3]|[-> Q3]]; [left|right]; split; auto; tauto.
Qed.

(** ** lists *)
Lemma setattr_same o v x : setattr o v x v = Some x. Proof. unfold setattr. rewrite String.eqb_refl. reflexivity. Qed.
Lemma setattr_other o v x w : w <> v -> setattr o v x w = o w.
Proof. intros N. unfold setattr. destruct (String.eqb_spec w v); [contradiction|reflexivity]. Qed.
Definition listed (x : value) : value := if is_None x || is_list x then x else VList [x].
Lemma is_list_force l : forall o, (forall v, In v l -> has o v) -> exists o', check_attribute_is_list o l true = Ok o' /\
  forall v, o' v = if in_dec string_dec v l then option_map listed (o v) else o v.
Proof.
  induction l as [|a l IH]; intros o H; [exists o; split; auto|]. cbn [check_attribute_is_list]. destruct (H a (or_introl eq_refl)) as (x & E). unfold getattr at 1. rewrite E. cbn [bind].
  assert (LL : forall y, listed (listed y) = listed y) by (intros []; reflexivity).
  destruct (is_None x || is_list x) eqn:N.
  - destruct (IH o) as (o' & E' & S'); [intros v Hv; apply H; right; auto|]. exists o'. split; auto. intros v. rewrite S'. destruct (in_dec string_dec v l) as [Q|Q].
    + destruct (in_dec string_dec v (a :: l)) as [Q2|Q2]; [reflexivity|exfalso; apply Q2; right; auto].
    + destruct (in_dec string_dec v (a :: l)) as [[->|Q2]|Q2]; [|contradiction|reflexivity]. rewrite E. cbn. unfold listed. rewrite N. reflexivity.
  - destruct (IH (setattr o a (VList [x]))) as (o' & E' & S').
    { intros v Hv. destruct (string_dec v a) as [->|Nv]; [eexists; apply setattr_same|]. destruct (H v) as (y & Ey); [right; auto|]. exists y. rewrite setattr_other; auto. }
    exists o'. split; auto. intros v. rewrite S'. destruct (string_dec v a) as [->|Nv].
    + rewrite setattr_same. destruct (in_dec string_dec a (a :: l)) as [Q2|Q2]; [|exfalso; apply Q2; left; auto]. rewrite E. cbn [option_map]. replace (listed x) with (VList [x]) by (unfold listed; rewrite N; reflexivity). destruct (in_dec string_dec a l); reflexivity.
    + rewrite setattr_other by auto. destruct (in_dec string_dec v l) as [Q|Q].
      * destruct (in_dec string_dec v (a :: l)) as [Q2|Q2]; [reflexivity|exfalso; apply Q2; right; auto].
      * destruct (in_dec string_dec v (a :: l)) as [[Q2|Q2]|Q2]; [congruence|contradiction|reflexivity].
Qed.
Lemma is_list_check l : forall o, (forall v, In v l -> has o v) ->
  (check_attribute_is_list o l false = Ok o /\ forall v, In v l -> none_or_list o v) \/ (check_attribute_is_list o l false = Err ValueError /\ ~ forall v, In v l -> none_or_list o v).
Proof.
  induction l as [|a l IH]; intros o H; [left; split; auto; intros v []|]. cbn [check_attribute_is_list]. destruct (H a (or_introl eq_refl)) as (x & E). unfold getattr. rewrite !E. cbn [bind].
  destruct (is_None x || is_list x) eqn:N.
  - assert (Ha : none_or_list o a). { apply orb_true_iff in N. destruct N as [N|N]; [left; apply is_None_spec in N; subst; auto|right; destruct x; try discriminate; eauto]. }
    destruct (IH o) as [[E' S']|[E' S']]; [intros v Hv; apply H; right; auto| |]; [left|right]; (split; [auto|]).
    + intros v [<-|Hv]; auto.
    + intros Q. apply S'. intros v Hv. apply Q. right. auto.
  - right. split; auto. intros Q. destruct (Q a (or_introl eq_refl)) as [U|(y & Ey)]; [unfold undefined in U|]; rewrite E in *; [injection U as ->|injection Ey as ->]; discriminate.
Qed.

(** ** pairs *)
Lemma pairs_spec o pairs : (forall p v, In p pairs -> In v p -> has o v) ->
  (check_attribute_pairs_have_equal_length o pairs = Ok tt <-> forall p, In p pairs -> pair_ok o p) /\
  forall e, check_attribute_pairs_have_equal_length o pairs = Err e -> e = ValueError \/ e = TypeError.
Proof.
  intros H. unfold check_attribute_pairs_have_equal_length. match goal with |- context [each ?f] => set (fp := f) end.
  assert (P : forall p, In p pairs -> (fp p = Ok tt <-> pair_ok o p) /\ forall e, fp p = Err e -> e = ValueError \/ e = TypeError).
  { intros p Hp. unfold fp. destruct p as [|v1 [|v2 [|v3 p]]]; try (split; [split; [discriminate|intros (a & b & Q & _); discriminate]|intros e Q; injection Q as <-; auto]).
    destruct (H _ v1 Hp) as (x1 & E1); [left; auto|]. destruct (H _ v2 Hp) as (x2 & E2); [right; left; auto|]. unfold getattr. rewrite E1, E2. cbn [bind].
    destruct (is_None x1) eqn:N1; cbn [orb].
    { apply is_None_spec in N1. subst. split; [split; auto; intros _; exists v1, v2; split; auto|discriminate]. }
    destruct (is_None x2) eqn:N2.
    { apply is_None_spec in N2. subst. split; [split; auto; intros _; exists v1, v2; split; auto|discriminate]. }
    assert (Q : pair_ok o [v1; v2] <-> exists n, len x1 = Some n /\ len x2 = Some n).
    { split.
      - intros (a & b & Q & C). injection Q as <- <-. unfold undefined in C. rewrite E1, E2 in C. destruct C as [C|[C|(y1 & y2 & n & Y1 & Y2 & L1 & L2)]]; [injection C as ->; discriminate|injection C as ->; discriminate|]. injection Y1 as <-. injection Y2 as <-. eauto.
      - intros (n & L1 & L2). exists v1, v2. split; auto. right. right. exists x1, x2, n. auto. }
    rewrite Q. destruct (len x1) as [n1|]; [|split; [split; [discriminate|intros (n & L & _); discriminate]|intros e G; injection G as <-; auto]].
    destruct (len x2) as [n2|]; [|split; [split; [discriminate|intros (n & _ & L); discriminate]|intros e G; injection G as <-; auto]].
    destruct (Nat.eqb_spec n1 n2) as [->|N]; [split; [split; eauto|discriminate]|]. split; [split; [discriminate|intros (n & L1 & L2); congruence]|intros e G; injection G as <-; auto]. }
  split.
  - rewrite each_ok. split; intros Q p Hp; apply P; auto.
  - intros e E. apply each_err in E. destruct E as (p & Hp & Ep). apply (proj2 (P p Hp) e Ep).
Qed.

(** ** same length *)
Section Force.
Variable filler : value.
Definition grown (o o' : object) : Prop := forall v, o' v = o v \/ (undefined o v /\ exists n, o' v = Some (VList (repeat filler n))).
Lemma grown_refl o : grown o o. Proof. intros v. left. auto. Qed.
Lemma grown_trans o1 o2 o3 : grown o1 o2 -> grown o2 o3 -> grown o1 o3.
Proof.
  intros G1 G2 v. destruct (G1 v) as [E1|(U1 & n1 & E1)], (G2 v) as [E2|(U2 & n2 & E2)].
  - left. congruence.
  - right. unfold undefined in *. split; [congruence|]. eauto.
  - right. split; auto. exists n1. congruence.
  - unfold undefined in *. rewrite E1 in U2. discriminate.
Qed.
Lemma grown_defined o o' v x : grown o o' -> o v = Some x -> x <> VNone -> o' v = Some x.
Proof. intros G E N. destruct (G v) as [Q|(U & _)]; [congruence|]. unfold undefined in U. congruence. Qed.
Lemma grown_has o o' v : grown o o' -> has o v -> has o' v.
Proof. intros G (x & E). destruct (G v) as [Q|(U & n & Q)]; [exists x; congruence|eexists; exact Q]. Qed.
Lemma fill_spec a1 o v o' : fill filler a1 o v = Ok o' -> grown o o' /\ defined o' v /\ (forall w, w <> v -> o' w = o w) /\
  (o' v = o v \/ exists n, len a1 = Some n /\ undefined o v /\ o' v = Some (VList (repeat filler n))).
Proof.
  unfold fill, getattr. destruct (o v) as [x|] eqn:E; [|discriminate]. cbn [bind]. destruct (is_None x) eqn:N.
  - apply is_None_spec in N. subst x. destruct (len a1) as [n|]; [|discriminate]. intros H. injection H as <-. split.
    + intros w. destruct (string_dec w v) as [->|Nw]; [right; split; auto; exists n; apply setattr_same|left; apply setattr_other; auto].
    + split; [eexists; split; [apply setattr_same|discriminate]|]. split; [intros w Nw; apply setattr_other; auto|]. right. exists n. split; auto. split; auto. apply setattr_same.
  - intros H. injection H as <-. split; [apply grown_refl|]. split; [exists x; split; auto; intros ->; discriminate|]. auto.
Qed.
Lemma fill_all_spec a1 vs : forall o o', fill_all filler a1 o vs = Ok o' -> grown o o' /\ (forall v, In v vs -> defined o' v) /\
  (forall v, o' v = o v \/ (In v vs /\ exists n, len a1 = Some n /\ undefined o v /\ o' v = Some (VList (repeat filler n)))).
Proof.
  induction vs as [|a vs IH]; intros o o' H; cbn [fill_all] in H.
  - injection H as <-. split; [apply grown_refl|]. split; [intros v []|auto].
  - destruct (fill filler a1 o a) as [o1|e] eqn:E; [|discriminate]. cbn [bind] in H. destruct (fill_spec _ _ _ _ E) as (G1 & D1 & O1 & K1). destruct (IH _ _ H) as (G2 & D2 & K2).
    split; [eapply grown_trans; eauto|]. split.
    + intros v [<-|Hv]; auto. destruct D1 as (x & Ex & Nx). exists x. split; auto. eapply grown_defined; eauto.
    + intros v. destruct (string_dec v a) as [->|Nv].
      * destruct D1 as (x & Ex & Nx). rewrite (grown_defined _ _ _ _ G2 Ex Nx). rewrite <- Ex. destruct K1 as [K1|K1]; [left; auto|right; split; [left; auto|auto]].
      * destruct (K2 v) as [K|(Hv & n & L & U & K)]; [left; rewrite K; auto|right]. split; [right; auto|]. exists n. split; auto. split; auto. unfold undefined in *. rewrite <- (O1 v Nv). auto.
Qed.
Lemma force_group_spec o g o' : force_group filler o g = Ok o' -> exists g0 gs x, g = g0 :: gs /\ o g0 = Some x /\ grown o o' /\
  (x <> VNone -> (forall id, x <> VArray 0 id) -> forall v, In v gs -> defined o' v) /\
  (forall v, o' v = o v \/ (In v gs /\ x <> VNone /\ exists n, len x = Some n /\ undefined o v /\ o' v = Some (VList (repeat filler n)))).
Proof.
  destruct g as [|g0 gs]; [discriminate|]. cbn [force_group]. unfold getattr. destruct (o g0) as [x|] eqn:E; [|discriminate]. cbn [bind]. intros H. exists g0, gs, x. split; auto. split; auto.
  assert (F : fill_all filler x o gs = Ok o' -> x <> VNone -> grown o o' /\ (x <> VNone -> (forall id, x <> VArray 0 id) -> forall v, In v gs -> defined o' v) /\
     (forall v, o' v = o v \/ (In v gs /\ x <> VNone /\ exists n, len x = Some n /\ undefined o v /\ o' v = Some (VList (repeat filler n))))).
  { intros Q Nx. destruct (fill_all_spec _ _ _ _ Q) as (G & D & K). split; auto. split; auto. intros v. destruct (K v) as [K1|(Hv & n & K1)]; [left; auto|right]. split; auto. split; auto. exists n. auto. }
  destruct x as [|l|p|[|[|n]] id|l id]; try (apply F; [exact H|discriminate]); try discriminate H; injection H as <-; (split; [apply grown_refl|]; split; [|left; reflexivity]).
  - intros N. contradiction.
  - intros _ N. exfalso. apply (N id). auto.
Qed.
Lemma force_spec groups : forall o o', force_attribute_same_len_if_none o groups filler = Ok o' -> grown o o' /\
  (forall g0 gs x v, In (g0 :: gs) groups -> o g0 = Some x -> x <> VNone -> (forall id, x <> VArray 0 id) -> In v gs -> defined o' v) /\
  (forall v, o' v = o v \/ (undefined o v /\ exists g0 gs x n, In (g0 :: gs) groups /\ In v gs /\ o' g0 = Some x /\ x <> VNone /\ len x = Some n /\ o' v = Some (VList (repeat filler n)))).
Proof.
  induction groups as [|g groups IH]; intros o o' H; cbn [force_attribute_same_len_if_none] in H.
  - injection H as <-. split; [apply grown_refl|]. split; [intros g0 gs x v []|auto].
  - destruct (force_group filler o g) as [o1|e] eqn:E; [|discriminate]. cbn [bind] in H. destruct (force_group_spec _ _ _ E) as (g0 & gs & x & -> & Ex & G1 & D1 & K1). destruct (IH _ _ H) as (G2 & D2 & K2).
    split; [eapply grown_trans; eauto|]. split.
    + intros h0 hs y v [Q|Hin] Ey Ny Ay Hv.
      * injection Q as <- <-. assert (y = x) as -> by congruence. destruct (D1 Ny Ay v Hv) as (z & Ez & Nz). exists z. split; auto. eapply grown_defined; eauto.
      * apply (D2 h0 hs y v Hin); auto. eapply grown_defined; eauto.
    + intros v. destruct (K2 v) as [Q|(U & h0 & hs & y & n & Hin & Hv & Ey & Ny & Ly & Q)].
      * destruct (K1 v) as [Q1|(Hv & Nx & n & Ln & U & Q1)]; [left; congruence|]. right. split; auto. exists g0, gs, x, n. split; [left; auto|]. split; auto.
        split; [eapply grown_defined; [exact G2| |exact Nx]; eapply grown_defined; eauto|]. split; auto. split; auto. congruence.
      * right. split; [destruct (K1 v) as [Q1|(_ & _ & n1 & _ & U1 & _)]; [unfold undefined in *; congruence|auto]|]. exists h0, hs, y, n. split; [right; auto|]. auto.
Qed.
(** success when the first attributes are None or lists *)
Lemma fill_all_ok a1 n vs : len a1 = Some n -> forall o, (forall v, In v vs -> has o v) -> exists o', fill_all filler a1 o vs = Ok o'.
Proof.
  intros L. induction vs as [|a vs IH]; intros o H; [eexists; reflexivity|]. cbn [fill_all]. unfold fill at 1, getattr. destruct (H a (or_introl eq_refl)) as (x & E). rewrite E. cbn [bind].
  destruct (is_None x); [|cbn [bind]; apply IH; intros v Hv; apply H; right; auto]. rewrite L. cbn [bind]. apply IH. intros v Hv. destruct (string_dec v a) as [->|Nv]; [eexists; apply setattr_same|].
  destruct (H v) as (y & Ey); [right; auto|]. exists y. rewrite setattr_other; auto.
Qed.
Lemma force_ok groups : forall o, (forall g, In g groups -> exists g0 gs, g = g0 :: gs /\ none_or_list o g0 /\ forall v, In v gs -> has o v) -> exists o', force_attribute_same_len_if_none o groups filler = Ok o'.
Proof.
  induction groups as [|g groups IH]; intros o H; [eexists; reflexivity|]. cbn [force_attribute_same_len_if_none]. destruct (H g (or_introl eq_refl)) as (g0 & gs & -> & NL & Hh).
  assert (Q : exists o1, force_group filler o (g0 :: gs) = Ok o1).
  { cbn [force_group]. unfold getattr. destruct NL as [U|(l & E)]; [unfold undefined in U; rewrite U; cbn [bind]; eauto|]. rewrite E. cbn [bind]. eapply fill_all_ok; [reflexivity|auto]. }
  destruct Q as (o1 & E1). rewrite E1. cbn [bind]. destruct (force_group_spec _ _ _ E1) as (? & ? & ? & _ & _ & G & _). apply IH. intros g Hg. destruct (H g (or_intror Hg)) as (h0 & hs & -> & NL2 & Hh2). exists h0, hs. split; auto. split.
  - destruct NL2 as [U|(l & E)]; [|right; exists l; eapply grown_defined; eauto; discriminate]. destruct (G h0) as [Q|(_ & n & Q)]; [left; unfold undefined in *; congruence|right; eauto].
  - intros v Hv. eapply grown_has; eauto.
Qed.
End Force.

(** ** x limits *)
Lemma limits_spec p a b : limits p = Ok (a, b) <-> x_limits p a b.
Proof.
  unfold limits, x_limits. destruct p as [|l|xs|n i|l i]; try (split; [discriminate|intros (xs & Q & _); discriminate]). destruct xs as [|x xs]; [split; [discriminate|intros (ys & Q & N & _); injection Q as <-; contradiction]|].
  assert (LL : forall (l : list R) d d', l <> [] -> List.last l d = List.last l d') by (intros l d d'; induction l as [|y [|z l] IHl]; intros N; [contradiction|reflexivity|]; cbn [List.last]; apply IHl; discriminate).
  split.
  - intros H. injection H as <- <-. exists (x :: xs). split; auto. split; [discriminate|]. split; [reflexivity|]. change (List.last (x :: xs) x = List.last (x :: xs) 0%R). apply LL. discriminate.
  - intros (ys & Q & _ & -> & ->). injection Q as <-. f_equal. f_equal. apply LL. discriminate.
Qed.
Lemma isclose_spec a b : isclose a b = true <-> close a b.
Proof. unfold isclose, close. rewrite Rleb_true. replace (1 / 10 ^ 8)%R with (/ 10 ^ 8)%R by lra. replace (1 / 10 ^ 5)%R with (/ 10 ^ 5)%R by lra. tauto. Qed.

(** * C173: a function run under a time limit *)
From Coq Require Import Reals List Bool Arith ZArith Lia Lra.
From Verif Require Import TimeoutModel.
Local Open Scope R_scope.

Section T.
Variables V E : Type.
Variable what : behaviour V E.
Variable seconds : option R.
Variable force_kill : bool.
Variable cap : nat.
Variable size : behaviour V E -> option nat.
Variable releases : bool.
Notation step := (step V E what seconds force_kill cap size releases).
Notation steps := (steps V E what seconds force_kill cap size releases).
Notation st := (st V E).
Notation init := (init V E).

(** *** specification *)
(** the answers the caller may see *)
Definition justified (crash : bool) (elapsed : R) (a : answer V E) : Prop :=
  match a with
  | Returns _ _ v => what = Returned _ _ v /\ exists n, size what = Some n /\ (n <= cap)%nat
  | Raises _ _ e => what = Raised _ _ e /\ exists n, size what = Some n /\ (n <= cap)%nat
  | TimedOut _ _ n => exists sec T, seconds = Some sec /\ sec <= T <= elapsed /\ n = Int_part T
  | AssertFailed _ _ => what = Bails _ _ \/ crash = true \/ (size what = None /\ releases = true)
  end.
Definition answered (s : st) : Prop := exists a, par _ _ s = PDone _ _ a.

(** *** invariant *)
Definition child_inv (crash : bool) (p : parent V E) (c : child) (slot : bool) (pipe : nat) : Prop :=
  match c with
  | Unborn => slot = false /\ pipe = 0%nat
  | Working => slot = false /\ pipe = 0%nat
  | Put => posts _ _ what = true /\ slot = true /\ pipe = 0%nat
  | Feeding k => posts _ _ what = true /\ match size what with Some n => (pipe + k)%nat = n /\ slot = true | None => k = 0%nat /\ slot = negb releases end
  | Gone => (exists a, p = PDone _ _ a) \/ (posts _ _ what = false /\ slot = false) \/ (posts _ _ what = true /\ match size what with Some n => pipe = n /\ slot = true | None => slot = negb releases end)
  | Dead => (exists a, p = PDone _ _ a) \/ (crash = true /\ (slot = true -> posts _ _ what = true))
  end.
Definition late (called now : R) : Prop := exists sec, seconds = Some sec /\ called + sec <= now.
Definition over (c : child) : Prop := c = Gone \/ c = Dead.
Definition parent_inv (crash : bool) (p : parent V E) (c : child) (slot : bool) (called now : R) : Prop :=
  match p with
  | PCall _ _ | PStart _ _ => c = Unborn
  | PReady _ _ => c <> Unborn
  | PJoin _ _ dl => c <> Unborn /\ match dl with Some d => exists sec, seconds = Some sec /\ called + sec <= d | None => seconds = None end
  | PLook _ _ => c <> Unborn /\ (over c \/ late called now)
  | PKill _ _ => c <> Unborn /\ late called now
  | PAssert _ _ => over c
  | PGet _ _ => over c /\ slot = true
  | PDone _ _ a => c <> Unborn /\ justified crash (now - called) a /\ (over c \/ (force_kill = false /\ exists n, a = TimedOut _ _ n))
  end.
Definition inv (crash : bool) (s : st) : Prop :=
  called _ _ s <= now _ _ s /\ (pipe _ _ s <= cap)%nat /\ child_inv crash (par _ _ s) (chd _ _ s) (slot_taken _ _ s) (pipe _ _ s) /\ parent_inv crash (par _ _ s) (chd _ _ s) (slot_taken _ _ s) (called _ _ s) (now _ _ s).
Lemma not_alive c : alive c = false -> c <> Unborn -> over c.
Proof. destruct c; cbn; intros; try discriminate; try contradiction; unfold over; auto. Qed.
Lemma over_alive c : over c -> alive c = false /\ c <> Unborn.
Proof. intros [-> | ->]; split; auto; discriminate. Qed.
Lemma child_moves crash p c c' sl sl' cl nw : alive c = true -> c' <> Unborn -> parent_inv crash p c sl cl nw -> parent_inv crash p c' sl' cl nw.
Proof.
  intros A C I. assert (NO : over c -> False) by (intros O; apply over_alive in O; destruct O; congruence). assert (NU : c <> Unborn) by (intros ->; discriminate).
  destruct p; cbn in *; try contradiction; try tauto.
Qed.
Lemma inv_init crash t : inv crash (init t).
Proof. repeat split; cbn; auto with arith; try lra. Qed.
Lemma inv_step crash s s' : inv crash s -> step crash s s' -> inv crash s'.
Proof.
  intros (I1 & I2 & I3 & I4) H. destruct s as [nw cl p c sl pp]. inversion H; subst; cbn [now called par chd slot_taken pipe] in *; subst; unfold inv; cbn [now called par chd slot_taken pipe].
  - split; [lra|]. split; [auto|]. split; [auto|]. destruct p; cbn in *; auto.
    + destruct I4 as [? [?|(sec & ? & ?)]]; split; auto. right. exists sec. split; auto. lra.
    + destruct I4 as [? (sec & ? & ?)]; split; auto. exists sec. split; auto. lra.
    + destruct I4 as [? [J O]]. split; auto. split; auto. destruct a; cbn in *; auto. destruct J as (sec & T & ? & ? & ?). exists sec, T. split; auto. split; auto. lra.
  - cbn in I4. subst c. repeat split; cbn in *; try tauto; lra.
  - cbn in I4. subst c. cbn in I3. repeat split; cbn; try tauto; try lra. discriminate.
  - cbn in I4. split; [auto|]. split; [auto|]. split.
    + destruct c; cbn in *; auto; destruct I3 as [[a Q]|?]; auto; discriminate.
    + cbn. split; auto. destruct seconds as [sec|]; cbn; auto. exists sec. split; auto. lra.
  - cbn in I4. split; [auto|]. split; [auto|]. destruct I4 as [I4 _]. split.
    + destruct c; cbn in *; auto; destruct I3 as [[a Q]|?]; auto; discriminate.
    + cbn. split; auto. left. apply not_alive; auto.
  - cbn in I4. split; [auto|]. split; [auto|]. destruct I4 as [I4 (sec & S1 & S2)]. split.
    + destruct c; cbn in *; auto; destruct I3 as [[a Q]|?]; auto; discriminate.
    + cbn. split; auto. right. exists sec. split; auto. lra.
  - cbn in I4. split; [auto|]. split; [auto|]. destruct I4 as [I4 [O|L]]; [apply over_alive in O; destruct O; congruence|]. split; [destruct c; cbn in *; auto; discriminate|]. cbn. auto.
  - cbn in I4. split; [auto|]. split; [auto|]. destruct I4 as [I4 _]. split.
    + destruct c; cbn in *; auto; destruct I3 as [[a Q]|?]; auto; discriminate.
    + cbn. apply not_alive; auto.
  - cbn in I4. split; [auto|]. split; [auto|]. destruct I4 as [I4 (sec & S1 & S2)]. split.
    + destruct force_kill; destruct c; cbn in *; eauto.
    + cbn. split; [destruct force_kill; destruct c; cbn; congruence|]. split; [exists sec, (nw - cl); split; auto; split; [lra|reflexivity]|].
      destruct force_kill; [left|right; split; eauto]. unfold over. destruct c; cbn; auto. contradiction.
  - cbn in I4. split; [auto|]. split; [auto|]. destruct sl.
    + split; [|cbn; auto]. destruct I4 as [-> | ->]; cbn in *; destruct I3 as [[a Q]|?]; auto; discriminate.
    + split; [destruct I4 as [-> | ->]; cbn; eauto|]. cbn. split; [apply over_alive; auto|]. split; [|auto]. destruct I4 as [-> | ->]; cbn in I3.
      * destruct I3 as [[a Q]|[[Q _]|[Q1 Q2]]]; [discriminate|left; destruct what; [discriminate|discriminate|reflexivity]|]. right. right. destruct (size what); [destruct Q2; discriminate|]. split; auto. destruct releases; auto; discriminate.
      * destruct I3 as [[a Q]|[Q _]]; [discriminate|]. auto.
  - cbn in I4. destruct I4 as [I4 ->]. split; [auto|]. split; [cbn; lia|]. split; [destruct I4 as [-> | ->]; cbn; eauto|]. cbn. split; [apply over_alive; auto|]. split; [|auto].
    assert (P : posts _ _ what = true). { destruct I4 as [-> | ->]; cbn in I3; destruct I3 as [[a Q]|I3]; try discriminate; [destruct I3 as [[_ Q]|[Q _]]; [discriminate|auto]|apply I3; auto]. }
    assert (Q : exists n, size what = Some n /\ (n <= cap)%nat) by eauto. clear - P Q. destruct what as [v|e|] eqn:W; [| |discriminate]; (split; [exact W|rewrite W; exact Q]).
  - cbn in I3. destruct I3 as [-> ->]. split; [auto|]. split; [auto|]. split; [cbn; auto|]. apply (child_moves crash p Working Put false true); auto; discriminate.
  - cbn in I3. destruct I3 as [-> ->]. split; [auto|]. split; [auto|]. split; [cbn; auto|]. apply (child_moves crash p Working Gone false false); auto; discriminate.
  - cbn in I3. destruct I3 as (P & -> & ->). split; [auto|]. split; [auto|]. split; [cbn; split; auto; match goal with Q : size what = _ |- _ => rewrite Q end; auto|]. apply (child_moves crash p Put _ true true); auto; discriminate.
  - cbn in I3. destruct I3 as (P & -> & ->). split; [auto|]. split; [auto|]. split; [cbn; split; auto; match goal with Q : size what = _ |- _ => rewrite Q end; auto|]. apply (child_moves crash p Put _ true (negb releases)); auto; discriminate.
  - cbn in I3. destruct I3 as (P & Q). split; [auto|]. split; [auto|]. split; [cbn; split; auto; destruct (size what); [destruct Q; split; auto; lia|lia]|]. apply (child_moves crash p (Feeding k) _ sl sl); auto; discriminate.
  - cbn in I3. destruct I3 as (P & Q). split; [auto|]. split; [auto|]. split; [cbn; right; right; split; auto; destruct (size what); [destruct Q; split; auto; lia|tauto]|]. apply (child_moves crash p (Feeding 0) _ sl sl); auto; discriminate.
  - split; [auto|]. split; [auto|]. split.
    { cbn. right. split; auto. intros ->. destruct c; cbn in *; try discriminate; tauto || (destruct I3; discriminate). }
    apply (child_moves _ p c _ sl sl); auto; discriminate.
Qed.
Lemma inv_steps crash s s' : inv crash s -> steps crash s s' -> inv crash s'.
Proof. intros H1 H2. induction H2; auto. apply IHsteps. eapply inv_step; eauto. Qed.

(** *** what holds of every run *)
(** the answer is the function's own, or a time-out after the limit, or an AssertionError of a child that ended without an answer; no child is left behind when force_kill is on *)
Theorem C173_answer : forall crash t s a, steps crash (init t) s -> par _ _ s = PDone _ _ a ->
  justified crash (now _ _ s - called _ _ s) a /\ (alive (chd _ _ s) = false \/ (force_kill = false /\ exists n, a = TimedOut _ _ n)).
Proof.
  intros crash t s a H Ep. destruct (inv_steps _ _ _ (inv_init crash t) H) as (_ & _ & _ & I). rewrite Ep in I. cbn in I. destruct I as (_ & J & O). split; auto. destruct O as [O|O]; auto. left. apply over_alive; auto.
Qed.
(** a child that is over while the parent waits is never reported as timed out *)
Theorem C173_in_time : forall crash t s s' n dl, steps crash (init t) s -> par _ _ s = PJoin _ _ dl -> alive (chd _ _ s) = false -> steps crash s s' -> par _ _ s' <> PDone _ _ (TimedOut _ _ n).
Proof.
  intros crash t s s' n dl H Ep A H'. assert (O : over (chd _ _ s)). { destruct (inv_steps _ _ _ (inv_init crash t) H) as (_ & _ & _ & I). rewrite Ep in I. apply not_alive; auto. apply I. }
  assert (Q : over (chd _ _ s) /\ match par _ _ s with PJoin _ _ _ | PLook _ _ | PAssert _ _ | PGet _ _ => True | PDone _ _ a => forall n, a <> TimedOut _ _ n | _ => False end) by (rewrite Ep; auto).
  clear - H' Q. induction H' as [s|s s1 s2 HS _ IH].
  - destruct Q as [_ Q]. intros X. rewrite X in Q. apply (Q n). reflexivity.
  - apply IH. clear IH. destruct Q as [O Q]. destruct s as [nw cl p c sl pp]. cbn [chd par] in *.
    inversion HS; subst; cbn [now called par chd slot_taken pipe] in *; subst; cbn [now called par chd slot_taken pipe] in *; try contradiction; (split; [auto|]); auto; try (destruct O; discriminate).
    all: try (apply over_alive in O; destruct O; congruence); try (destruct sl; auto; intros ? ?; discriminate); try (intros k X; destruct what; discriminate); try (unfold over; auto; fail).
Qed.
(** the clock of the elapsed time starts when the call is made *)
Theorem C173_clock : forall crash s1 s2 s, par _ _ s1 = PCall _ _ -> step crash s1 s2 -> par _ _ s2 <> PCall _ _ -> steps crash s2 s -> called _ _ s = now _ _ s1.
Proof.
  intros crash s1 s2 s E1 HS E2 H.
  assert (Q : par _ _ s2 <> PCall _ _ /\ called _ _ s2 = now _ _ s1).
  { split; auto. destruct s1 as [nw cl p c sl pp]. cbn [par now] in *. subst p. inversion HS; subst; cbn [now called par chd slot_taken pipe] in *; try congruence; try discriminate. }
  clear HS E2. induction H as [u|u u1 u2 HS _ IH]; [apply Q|]. apply IH. clear IH. destruct Q as [Q1 Q2]. destruct u as [nw cl p c sl pp]. cbn [par called] in *. inversion HS; subst; cbn [now called par chd slot_taken pipe] in *; subst; split; auto; try congruence; try discriminate.
  destruct sl; discriminate.
Qed.
Local Ltac nx := cbn [chd par now called slot_taken pipe].
Lemma steps_app crash s1 s2 s3 : steps crash s1 s2 -> steps crash s2 s3 -> steps crash s1 s3.
Proof. intros H1 H2. induction H1; auto. econstructor; eauto. Qed.
(** with a limit, the parent always gets to an answer, without waiting for the child beyond the limit *)
Theorem C173_ends : forall t s sec, steps false (init t) s -> seconds = Some sec -> (size what = None -> releases = true) ->
  exists s', steps false s s' /\ answered s' /\ (par _ _ s <> PCall _ _ -> par _ _ s <> PStart _ _ -> chd _ _ s' = chd _ _ s \/ chd _ _ s' = Dead).
Proof.
  intros t s sec H Hs Hr. assert (I := inv_steps _ _ _ (inv_init false t) H). clear H.
  (* from each parent state on *)
  assert (K1 : forall s, inv false s -> par _ _ s = PAssert _ _ -> exists s', steps false s s' /\ answered s' /\ chd _ _ s' = chd _ _ s).
  { intros [nw cl p c sl pp] (_ & _ & I3 & I4) Ep. cbn in Ep. subst p. cbn in I3, I4. destruct sl.
    - assert (Q : exists n, size what = Some n /\ pp = n). { destruct I4 as [-> | ->]; destruct I3 as [[a Q]|I3]; try discriminate.
        - destruct I3 as [[_ Q]|[_ Q]]; [discriminate|]. destruct (size what) as [n|]; [exists n; tauto|]. rewrite Hr in Q by auto. discriminate.
        - destruct I3; discriminate. }
      destruct Q as (n & Q1 & Q2). eexists. split; [eapply steps_more; [apply s_assert; reflexivity|]; eapply steps_more; [apply (s_get _ _ _ _ _ _ _ _ _ _ n); [reflexivity|exact Q1|exact Q2]|]; apply steps_none|]. split; [eexists; reflexivity|reflexivity].
    - eexists. split; [eapply steps_more; [apply s_assert; reflexivity|]; apply steps_none|]. split; [eexists; reflexivity|reflexivity]. }
  assert (K2 : forall s, inv false s -> par _ _ s = PLook _ _ -> exists s', steps false s s' /\ answered s' /\ (chd _ _ s' = chd _ _ s \/ chd _ _ s' = Dead)).
  { intros u Iu Ep. destruct (alive (chd _ _ u)) eqn:A.
    - eexists. split; [eapply steps_more; [apply s_alive; auto|]; eapply steps_more; [apply s_kill; reflexivity|]; apply steps_none|]. split; [eexists; reflexivity|]. cbn. rewrite A, Bool.andb_true_r. destruct force_kill; auto.
    - destruct (K1 _ (inv_step _ _ _ Iu (s_over _ _ _ _ _ _ _ _ _ _ Ep A)) eq_refl) as (s' & S1 & S2 & S3). exists s'. split; [eapply steps_more; [apply s_over; auto|]; exact S1|]. split; auto. }
  assert (K3 : forall s dl, inv false s -> par _ _ s = PJoin _ _ dl -> exists s', steps false s s' /\ answered s' /\ (chd _ _ s' = chd _ _ s \/ chd _ _ s' = Dead)).
  { intros u dl Iu Ep. destruct dl as [d|].
    - set (u1 := mkSt V E (now _ _ u + (Rabs (d - now _ _ u) + 1)) (called _ _ u) (par _ _ u) (chd _ _ u) (slot_taken _ _ u) (pipe _ _ u)).
      assert (P : 0 < Rabs (d - now _ _ u) + 1) by (assert (X := Rabs_pos (d - now _ _ u)); lra). assert (T1 : step false u u1) by (apply s_tick; exact P). assert (I1 := inv_step _ _ _ Iu T1).
      assert (T2 : step false u1 (mkSt V E (now _ _ u1) (called _ _ u1) (PLook V E) (chd _ _ u1) (slot_taken _ _ u1) (pipe _ _ u1))). { apply (s_join_late _ _ _ _ _ _ _ _ _ u1 d); [exact Ep|]. cbn. assert (X := RRle_abs (d - now _ _ u)). lra. }
      destruct (K2 _ (inv_step _ _ _ I1 T2) eq_refl) as (s' & S1 & S2 & S3). exists s'. split; [eapply steps_more; [exact T1|]; eapply steps_more; [exact T2|]; exact S1|]. split; auto.
    - exfalso. destruct Iu as (_ & _ & _ & Iu). rewrite Ep in Iu. cbn in Iu. destruct Iu as [_ Iu]. congruence. }
  assert (K4 : forall s, inv false s -> par _ _ s = PReady _ _ -> exists s', steps false s s' /\ answered s' /\ (chd _ _ s' = chd _ _ s \/ chd _ _ s' = Dead)).
  { intros u Iu Ep. assert (T1 := s_join _ _ what seconds force_kill cap size releases false u Ep). destruct (K3 _ _ (inv_step _ _ _ Iu T1) eq_refl) as (s' & S1 & S2 & S3). exists s'. split; [eapply steps_more; [exact T1|exact S1]|]. split; auto. }
  assert (K5 : forall s, inv false s -> par _ _ s = PStart _ _ -> exists s', steps false s s' /\ answered s').
  { intros u Iu Ep. assert (T1 := s_start _ _ what seconds force_kill cap size releases false u Ep). destruct (K4 _ (inv_step _ _ _ Iu T1) eq_refl) as (s' & S1 & S2 & S3). exists s'. split; [eapply steps_more; [exact T1|exact S1]|]. auto. }
  destruct (par _ _ s) eqn:Ep.
  - assert (T1 := s_call _ _ what seconds force_kill cap size releases false s Ep). destruct (K5 _ (inv_step _ _ _ I T1) eq_refl) as (s' & S1 & S2). exists s'. split; [eapply steps_more; [exact T1|exact S1]|]. split; [auto|congruence].
  - destruct (K5 s I Ep) as (s' & S1 & S2). exists s'. split; auto. split; [auto|congruence].
  - destruct (K4 s I Ep) as (s' & S1 & S2 & S3). exists s'. auto.
  - destruct (K3 s _ I Ep) as (s' & S1 & S2 & S3). exists s'. auto.
  - destruct (K2 s I Ep) as (s' & S1 & S2 & S3). exists s'. auto.
  - eexists. split; [eapply steps_more; [apply s_kill; exact Ep|]; apply steps_none|]. split; [eexists; reflexivity|]. intros _ _. cbn. destruct (force_kill && alive (chd _ _ s))%bool; auto.
  - destruct (K1 s I Ep) as (s' & S1 & S2 & S3). exists s'. auto.
  - destruct I as (_ & _ & I3 & I4). rewrite Ep in I3, I4. cbn in I4. destruct I4 as [O SL].
    assert (Q : exists n, size what = Some n /\ pipe _ _ s = n). { destruct O as [Ec | Ec]; rewrite Ec in I3; cbn in I3; destruct I3 as [[a Q]|I3]; try discriminate.
      - destruct I3 as [[_ Q]|[_ Q]]; [congruence|]. destruct (size what) as [n|]; [exists n; tauto|]. rewrite Hr in Q by auto. cbn in Q. congruence.
      - destruct I3; discriminate. }
    destruct Q as (n & Q1 & Q2). eexists. split; [eapply steps_more; [apply (s_get _ _ _ _ _ _ _ _ _ s n Ep Q1 Q2)|]; apply steps_none|]. split; [eexists; reflexivity|auto].
  - exists s. split; [apply steps_none|]. split; [exists a; auto|auto].
Qed.
(** *** known defects *)
(** an answer larger than the pipe is never delivered, however fast the function is *)
Theorem C173_big_answer_refuted : forall t s a n, steps false (init t) s -> size what = Some n -> (cap < n)%nat -> posts _ _ what = true -> par _ _ s = PDone _ _ a ->
  seconds <> None /\ exists k, a = TimedOut _ _ k.
Proof.
  intros t s a n H Hn Hc Hp Ep. destruct (C173_answer _ _ _ _ H Ep) as [J _]. destruct a as [v|e|k|]; cbn in J.
  - destruct J as (_ & m & E1 & E2). rewrite Hn in E1. injection E1 as <-. lia.
  - destruct J as (_ & m & E1 & E2). rewrite Hn in E1. injection E1 as <-. lia.
  - destruct J as (sec & T & E1 & _). split; [congruence|eauto].
  - exfalso. destruct J as [J|[J|[J _]]]; [|discriminate|congruence]. rewrite J in Hp. discriminate.
Qed.
(** an answer that cannot be pickled, with a feeder that keeps the slot: the parent waits for ever, limit or not *)
Lemma stuck crash s : inv crash s -> par _ _ s = PGet _ _ -> (forall n, size what = Some n -> pipe _ _ s <> n) -> forall s', steps crash s s' -> ~ answered s'.
Proof.
  intros I Ep Hn s' H. induction H as [s|s s1 s2 HS _ IH].
  - intros [a Q]. congruence.
  - apply IH; [eapply inv_step; eauto| |]; destruct I as (_ & _ & _ & I4); rewrite Ep in I4; destruct I4 as [O _]; apply over_alive in O; destruct O as [O _]; destruct s as [nw cl p c sl pp]; cbn [par chd pipe] in *; subst p;
      inversion HS; subst; cbn [now called par chd slot_taken pipe] in *; subst; auto; try discriminate; try congruence; exfalso; eapply Hn; eauto.
Qed.
Theorem C173_unpicklable_refuted : forall t, size what = None -> releases = false -> posts _ _ what = true -> exists s, steps false (init t) s /\ forall s', steps false s s' -> ~ answered s'.
Proof.
  intros t Hn Hr Hp. exists (mkSt V E t t (PGet V E) Gone true 0).
  assert (H : steps false (init t) (mkSt V E t t (PGet V E) Gone true 0)).
  { nx; eapply steps_more; [apply s_call; reflexivity|]. nx; eapply steps_more; [apply s_start; reflexivity|]. nx; eapply steps_more; [apply s_join; reflexivity|]. nx; eapply steps_more; [apply s_put; [reflexivity|exact Hp]|]. nx; eapply steps_more; [apply s_drop; [reflexivity|exact Hn]|]. nx; eapply steps_more; [apply s_exit; reflexivity|].
    nx; eapply steps_more; [eapply s_join_over; reflexivity|]. nx; eapply steps_more; [apply s_over; reflexivity|]. nx; eapply steps_more; [apply s_assert; reflexivity|]. cbn. rewrite Hr. apply steps_none. }
  split; auto. apply stuck; auto; [eapply inv_steps; [apply inv_init|exact H]|]. intros; congruence.
Qed.
(** a child killed between put and the end of the writing: the same *)
Theorem C173_killed_child_refuted : forall t n, size what = Some n -> (0 < n)%nat -> posts _ _ what = true -> exists s, steps true (init t) s /\ forall s', steps true s s' -> ~ answered s'.
Proof.
  intros t n Hn H0 Hp. exists (mkSt V E t t (PGet V E) Dead true 0).
  assert (H : steps true (init t) (mkSt V E t t (PGet V E) Dead true 0)).
  { nx; eapply steps_more; [apply s_call; reflexivity|]. nx; eapply steps_more; [apply s_start; reflexivity|]. nx; eapply steps_more; [apply s_join; reflexivity|]. nx; eapply steps_more; [apply s_put; [reflexivity|exact Hp]|]. nx; eapply steps_more; [apply s_hit; reflexivity|].
    nx; eapply steps_more; [eapply s_join_over; reflexivity|]. nx; eapply steps_more; [apply s_over; reflexivity|]. nx; eapply steps_more; [apply s_assert; reflexivity|]. apply steps_none. }
  split; auto. apply stuck; auto; [eapply inv_steps; [apply inv_init|exact H]|]. cbn. intros m Hm. rewrite Hn in Hm. injection Hm as <-. lia.
Qed.
(** *** the hypotheses are met: an answer that fits is delivered by some run; a slow function is timed out by some run *)
Theorem C173_example : forall t n, (0 < n <= cap)%nat -> size what = Some n -> posts _ _ what = true ->
  (exists s, steps false (init t) s /\ par _ _ s = PDone _ _ (answer_of _ _ what)) /\
  (forall sec, seconds = Some sec -> 0 < sec -> exists s, steps false (init t) s /\ par _ _ s = PDone _ _ (TimedOut _ _ (Int_part sec)) /\ (chd _ _ s = if force_kill then Dead else Working)).
Proof.
  intros t n Hc Hn Hp. split.
  - eexists. split.
    + nx; eapply steps_more; [apply s_call; reflexivity|]. nx; eapply steps_more; [apply s_start; reflexivity|]. nx; eapply steps_more; [apply s_join; reflexivity|]. nx; eapply steps_more; [apply s_put; [reflexivity|exact Hp]|]. nx; eapply steps_more; [apply s_pickle; [reflexivity|exact Hn]|].
      nx; eapply steps_more; [apply (s_feed _ _ _ _ _ _ _ _ _ _ n n); [reflexivity|lia|cbn; lia]|]. cbn [chd par now called slot_taken pipe]. rewrite Nat.sub_diag. nx; eapply steps_more; [apply s_exit; reflexivity|].
      nx; eapply steps_more; [eapply s_join_over; reflexivity|]. nx; eapply steps_more; [apply s_over; reflexivity|]. nx; eapply steps_more; [apply s_assert; reflexivity|]. nx; eapply steps_more; [apply (s_get _ _ _ _ _ _ _ _ _ _ n); [reflexivity|exact Hn|reflexivity]|]. apply steps_none.
    + reflexivity.
  - intros sec Hs H0. eexists. split.
    + nx; eapply steps_more; [apply s_call; reflexivity|]. nx; eapply steps_more; [apply s_start; reflexivity|]. nx; eapply steps_more; [apply s_join; reflexivity|]. nx; eapply steps_more; [apply (s_tick _ _ _ _ _ _ _ _ _ _ sec H0)|]. cbn [chd par now called slot_taken pipe]. rewrite Hs. cbn [option_map].
      nx; eapply steps_more; [eapply s_join_late; [reflexivity|cbn; lra]|]. nx; eapply steps_more; [apply s_alive; reflexivity|]. nx; eapply steps_more; [apply s_kill; reflexivity|]. apply steps_none.
    + cbn [now called par chd slot_taken pipe init]. split; [|destruct force_kill; reflexivity]. do 3 f_equal. lra.
Qed.
End T.
Print Assumptions C173_answer.
Print Assumptions C173_ends.

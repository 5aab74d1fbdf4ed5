(** * A mode driven by a load: the integrals of C168 solve the equation of the mode *)
From Coq Require Import Reals List Arith Lia Lra Bool Sorted.
From Coquelicot Require Import Coquelicot.
From Verif Require Import Base PiecewiseModel SpecPiecewise PiecewiseProofs LayersProofs SpectralModel SpectralProofs SpectralProofs4 LoadModel BeamModel
  LoadComplexModel SpecLoad LoadProofs LoadProofs2 PropsLoad SpecComplex ComplexCalc LoadComplexProofs LoadComplexProofs2 PropsLoadComplex SpecModal ModalProofs1.
Import ListNotations.
Local Open Scope R_scope.
Local Notation at_ := SpecPiecewise.at_.

Lemma zero_int a b : is_RInt (fun _ => 0) a b 0.
Proof. pose proof (is_RInt_const (V := R_NormedModule) a b 0) as X. unfold scal in X; cbn in X. unfold Hierarchy.mult in X; cbn in X. rewrite Rmult_0_r in X. exact X. Qed.
Lemma CInt_zero f a b : (forall s, Rmin a b < s < Rmax a b -> f s = RtoC 0) -> is_CInt f a b (RtoC 0).
Proof.
  intros H. split; cbn [fst snd RtoC].
  - apply (is_RInt_ext (fun _ => 0)); [intros s Hs; rewrite H by auto; reflexivity|]. exact (zero_int a b).
  - apply (is_RInt_ext (fun _ => 0)); [intros s Hs; rewrite H by auto; reflexivity|]. exact (zero_int a b).
Qed.
Lemma CInt_Chasles f a b c u v : is_CInt f a b u -> is_CInt f b c v -> is_CInt f a c (Cplus u v).
Proof. intros [A B] [D E]. split; cbn [Cplus fst snd]; eapply (is_RInt_Chasles (V := R_NormedModule)); eauto. Qed.
Lemma CInt_unique f a b u v : is_CInt f a b u -> is_CInt f a b v -> u = v.
Proof. intros [A B] [D E]. apply (is_RInt_unique (V := R_CompleteNormedModule)) in A, B, D, E. apply C_eq; congruence. Qed.
Lemma CInt_scal f a b c v : is_CInt f a b v -> is_CInt (fun s => Cmult c (f s)) a b (Cmult c v).
Proof.
  intros [A B]. split; cbn [Cmult fst snd].
  - apply (is_RInt_minus (V := R_NormedModule)); apply (is_RInt_scal (V := R_NormedModule)); auto.
  - apply (is_RInt_plus (V := R_NormedModule)); apply (is_RInt_scal (V := R_NormedModule)); auto.
Qed.

Section Driven.
Variables (T0 : R) (B : list R).
(** at rest until T0, and e' = s - lam e except at the times B *)
Definition driven (lam : C) (e s : R -> C) : Prop :=
  (forall t, t <= T0 -> e t = RtoC 0) /\ (forall t, Ccont e t) /\ forall t, ~ In t B -> is_Cderive e t (Cminus (s t) (Cmult lam (e t))).
Lemma driven_ext lam e s s' : (forall t, s t = s' t) -> driven lam e s -> driven lam e s'.
Proof. intros H (A & D & E). split; auto. split; auto. intros t Ht. rewrite <- H. auto. Qed.
Lemma driven_zero lam : driven lam (fun _ => RtoC 0) (fun _ => RtoC 0).
Proof. split; auto. split; [intros; apply Ccont_const|]. intros t _. replace (Cminus (RtoC 0) (Cmult lam (RtoC 0))) with (RtoC 0) by ring. exact (Cderive_const (RtoC 0) t). Qed.
Lemma driven_plus lam e s e' s' : driven lam e s -> driven lam e' s' -> driven lam (fun t => Cplus (e t) (e' t)) (fun t => Cplus (s t) (s' t)).
Proof.
  intros (A & D & E) (A' & D' & E'). split; [intros t Ht; rewrite A, A' by auto; ring|]. split; [intros t; apply Ccont_plus; auto|].
  intros t Ht. replace (Cminus (Cplus (s t) (s' t)) (Cmult lam (Cplus (e t) (e' t)))) with (Cplus (Cminus (s t) (Cmult lam (e t))) (Cminus (s' t) (Cmult lam (e' t)))) by ring. apply Cderive_plus; auto.
Qed.
Lemma driven_scal lam c e s : driven lam e s -> driven lam (fun t => Cmult c (e t)) (fun t => Cmult c (s t)).
Proof.
  intros (A & D & E). split; [intros t Ht; rewrite A by auto; ring|]. split; [intros t; apply Ccont_mult; auto; apply Ccont_const|].
  intros t Ht. replace (Cminus (Cmult c (s t)) (Cmult lam (Cmult c (e t)))) with (Cplus (Cmult (RtoC 0) (e t)) (Cmult c (Cminus (s t) (Cmult lam (e t))))) by ring.
  apply (Cderive_mult (fun _ => c) e); auto. apply Cderive_const.
Qed.
Lemma driven_csum lam n : forall (e s : nat -> R -> C), (forall k, (k < n)%nat -> driven lam (e k) (s k)) -> driven lam (fun t => csum n (fun k => e k t)) (fun t => csum n (fun k => s k t)).
Proof.
  intros e s H. split; [|split].
  - intros t Ht. rewrite (Cg_ext n _ (fun _ => RtoC 0)); [apply Cg_zero|]. intros k Hk. apply (H k Hk); auto.
  - intros t. apply Ccont_csum. intros k Hk. apply (H k Hk).
  - intros t Ht. replace (Cminus (csum n (fun k => s k t)) (Cmult lam (csum n (fun k => e k t)))) with (csum n (fun k => Cminus (s k t) (Cmult lam (e k t)))).
    + apply Cderive_csum. intros k Hk. apply (H k Hk); auto.
    + rewrite (Cg_ext n _ (fun k => Cplus (s k t) (Cmult (Copp lam) (e k t)))) by (intros; ring). rewrite Cg_plus, Cg_scal. ring.
Qed.
Lemma driven_list {X} lam (e s : X -> R -> C) l : (forall q, In q l -> driven lam (e q) (s q)) -> driven lam (fun t => sumC (map (fun q => e q t) l)) (fun t => sumC (map (fun q => s q t) l)).
Proof.
  induction l as [|q l IH]; intros H; [apply driven_zero|]. cbn [map sumC fold_right]. apply driven_plus; [apply H; left; auto|]. apply IH. intros; apply H; right; auto.
Qed.

Lemma decay_split lam t z : decay 1 lam t z = Cmult (cexp (Cmult (Copp lam) (RtoC (t - 0)))) (cexp (Cmult lam (RtoC (z - 0)))).
Proof. unfold decay. rewrite <- cexp_plus. f_equal. apply C_eq; cbn; ring. Qed.
Lemma duhamel (F : R -> R) lam (e : R -> C) : (forall t, is_CInt (fun tau => Cmult (RtoC (F tau)) (decay 1 lam t tau)) T0 t (e t)) ->
  (forall t, t < T0 -> F t = 0) -> (forall t, ~ In t B -> continuous F t) -> driven lam e (fun t => RtoC (F t)).
Proof.
  intros HI HZ HC.
  set (h := fun tau => Cmult (RtoC (F tau)) (cexp (Cmult lam (RtoC (tau - 0))))).
  set (H := fun t => Cmult (cexp (Cmult lam (RtoC (t - 0)))) (e t)).
  assert (EX : forall t, Cmult (cexp (Cmult lam (RtoC (t - 0)))) (cexp (Cmult (Copp lam) (RtoC (t - 0)))) = RtoC 1).
  { intros t. rewrite <- cexp_plus. replace (Cplus (Cmult lam (RtoC (t - 0))) (Cmult (Copp lam) (RtoC (t - 0)))) with (RtoC 0) by ring. apply cexp_0. }
  assert (HH : forall t, is_CInt h T0 t (H t)).
  { intros t. apply (CInt_ext (fun tau => Cmult (cexp (Cmult lam (RtoC (t - 0)))) (Cmult (RtoC (F tau)) (decay 1 lam t tau)))).
    - intros s _. unfold h. rewrite decay_split. replace (Cmult (cexp (Cmult lam (RtoC (t - 0)))) (Cmult (RtoC (F s)) (Cmult (cexp (Cmult (Copp lam) (RtoC (t - 0)))) (cexp (Cmult lam (RtoC (s - 0)))))))
        with (Cmult (Cmult (cexp (Cmult lam (RtoC (t - 0)))) (cexp (Cmult (Copp lam) (RtoC (t - 0))))) (Cmult (RtoC (F s)) (cexp (Cmult lam (RtoC (s - 0)))))) by ring. rewrite EX. ring.
    - apply CInt_scal, HI. }
  assert (Ee : forall t, e t = Cmult (cexp (Cmult (Copp lam) (RtoC (t - 0)))) (H t)).
  { intros t. unfold H. replace (Cmult (cexp (Cmult (Copp lam) (RtoC (t - 0)))) (Cmult (cexp (Cmult lam (RtoC (t - 0)))) (e t))) with (Cmult (Cmult (cexp (Cmult lam (RtoC (t - 0)))) (cexp (Cmult (Copp lam) (RtoC (t - 0))))) (e t)) by ring. rewrite EX. ring. }
  assert (HCc : forall t, Ccont H t).
  { intros t. split; [apply (continuous_RInt_1 (V := R_NormedModule) (fun s => fst (h s)) T0 t)|apply (continuous_RInt_1 (V := R_NormedModule) (fun s => snd (h s)) T0 t)]; apply filter_forall; intros z; apply HH. }
  assert (XC : forall (l : C) t, Ccont (fun s => cexp (Cmult l (RtoC (s - 0)))) t) by (intros l t; eapply Ccont_derive; apply Cderive_exp).
  split; [|split].
  - intros t Ht. apply (CInt_unique _ _ _ _ _ (HI t)). apply CInt_zero. intros s. rewrite Rmin_right, Rmax_left by lra. intros Hs. rewrite HZ by lra. ring.
  - intros t. apply (Ccont_ext (fun t => Cmult (cexp (Cmult (Copp lam) (RtoC (t - 0)))) (H t))); [intros; symmetry; apply Ee|]. apply Ccont_mult; auto.
  - intros t Ht. assert (CH : Ccont h t). { unfold h. apply Ccont_mult; auto. split; cbn [fst snd RtoC]; [apply HC; auto|apply continuous_const]. }
    assert (DH : is_Cderive H t (h t)).
    { split; [apply (is_derive_RInt (V := R_NormedModule) (fun s => fst (h s)) (fun s => fst (H s)) T0 t)|apply (is_derive_RInt (V := R_NormedModule) (fun s => snd (h s)) (fun s => snd (H s)) T0 t)]; try (apply filter_forall; intros z; apply HH); apply CH. }
    apply (Cderive_ext (fun t => Cmult (cexp (Cmult (Copp lam) (RtoC (t - 0)))) (H t))); [intros; symmetry; apply Ee|].
    replace (Cminus (RtoC (F t)) (Cmult lam (e t))) with (Cplus (Cmult (Cmult (Copp lam) (cexp (Cmult (Copp lam) (RtoC (t - 0))))) (H t)) (Cmult (cexp (Cmult (Copp lam) (RtoC (t - 0)))) (h t))).
    { apply (Cderive_mult (fun s => cexp (Cmult (Copp lam) (RtoC (s - 0)))) H); [apply Cderive_exp|exact DH]. }
    rewrite (Ee t). unfold h. replace (Cmult (cexp (Cmult (Copp lam) (RtoC (t - 0)))) (Cmult (RtoC (F t)) (cexp (Cmult lam (RtoC (t - 0)))))) with (Cmult (RtoC (F t)) (Cmult (cexp (Cmult lam (RtoC (t - 0)))) (cexp (Cmult (Copp lam) (RtoC (t - 0)))))) by ring. rewrite EX. ring.
Qed.
End Driven.

(** *** loads within their tables *)
Lemma nondecr_0 x k : nondecr x -> (k < length x)%nat -> at_ x 0 <= at_ x k.
Proof. intros H. induction k as [|k IH]; intros Hk; [lra|]. specialize (H k Hk). specialize (IH ltac:(lia)). lra. Qed.
Lemma in_gap x t : nondecr x -> (1 <= length x)%nat -> ~ In t x -> at_ x 0 < t < at_ x (length x - 1) -> exists k, (S k < length x)%nat /\ at_ x k < t < at_ x (S k).
Proof.
  intros Hn Hl HI Ht. assert (H : forall k, (k < length x)%nat -> (exists j, (S j < length x)%nat /\ at_ x j < t < at_ x (S j)) \/ at_ x k < t).
  { induction k as [|k IH]; intros Hk; [right; lra|]. destruct (IH ltac:(lia)) as [?|A]; auto. destruct (Rlt_dec t (at_ x (S k))) as [L|L]; [left; eauto|]. right.
    assert (at_ x (S k) <> t) by (intros E; apply HI; rewrite <- E; apply nth_In; auto). lra. }
  destruct (H (length x - 1)%nat ltac:(lia)) as [?|A]; auto. lra.
Qed.
Lemma load_continuous x y F t : nondecr x -> (1 <= length x)%nat -> load_within x y F -> ~ In t x -> continuous F t.
Proof.
  intros Hn Hl [HL HO] HI.
  assert (N0 : t <> at_ x 0) by (intros ->; apply HI, nth_In; lia). assert (N1 : t <> at_ x (length x - 1)) by (intros ->; apply HI, nth_In; lia).
  destruct (Rlt_dec t (at_ x 0)) as [A|A]; [|destruct (Rlt_dec (at_ x (length x - 1)) t) as [D|D]].
  - apply (continuous_ext_loc _ (fun _ => 0)); [|apply continuous_const]. generalize (open_lt (at_ x 0) t A). apply filter_imp. intros s Hs. symmetry. apply HO; auto.
  - apply (continuous_ext_loc _ (fun _ => 0)); [|apply continuous_const]. generalize (open_gt (at_ x (length x - 1)) t D). apply filter_imp. intros s Hs. symmetry. apply HO; auto.
  - destruct (in_gap x t Hn Hl HI ltac:(lra)) as (k & Hk & Hlo & Hhi).
    apply (continuous_ext_loc _ (fun v => chord x y k v)).
    + generalize (filter_and _ _ (open_gt (at_ x k) t Hlo) (open_lt (at_ x (S k)) t Hhi)). apply filter_imp. intros s [H1 H2]. symmetry. apply HL; auto.
    + apply (ex_derive_continuous (V := R_NormedModule)). unfold chord, Rdiv. auto_derive; auto.
Qed.
Lemma table_int x (f : R -> C) T0 t v : nondecr x -> (1 <= length x)%nat -> T0 <= at_ x 0 -> (forall s, s < at_ x 0 \/ at_ x (length x - 1) < s -> f s = RtoC 0) ->
  is_CInt f (at_ x 0) (until x t) v -> is_CInt f T0 t v.
Proof.
  intros Hn Hl HT HZ HI. assert (H01 := nondecr_0 x (length x - 1) Hn ltac:(lia)). unfold until in HI.
  assert (HA : is_CInt f T0 (at_ x 0) (RtoC 0)) by (apply CInt_zero; intros s; rewrite Rmin_left, Rmax_right by lra; intros; apply HZ; lra).
  destruct (Rle_dec t (at_ x 0)) as [A|A].
  - rewrite (Rmax_left (at_ x 0)) in HI by (apply Rle_trans with t; auto; apply Rmin_l).
    assert (v = RtoC 0). { apply (CInt_unique _ _ _ _ _ HI). apply CInt_zero. intros s. rewrite Rmin_left, Rmax_left by lra. lra. }
    subst v. apply CInt_zero. intros s Hs. apply HZ. left. destruct (Rle_dec T0 t); [rewrite Rmax_right in Hs by lra|rewrite Rmax_left in Hs by lra]; lra.
  - destruct (Rle_dec t (at_ x (length x - 1))) as [D|D].
    + rewrite Rmin_left, Rmax_right in HI by lra. replace v with (Cplus (RtoC 0) v) by ring. eapply CInt_Chasles; eauto.
    + rewrite Rmin_right, Rmax_right in HI by lra. replace v with (Cplus (Cplus (RtoC 0) v) (RtoC 0)) by ring. eapply CInt_Chasles; [eapply CInt_Chasles; eauto|].
      apply CInt_zero. intros s. rewrite Rmin_left, Rmax_right by lra. intros; apply HZ; lra.
Qed.
(** a C168 table is the table of one function per eigenvalue *)
Definition duh (T0 : R) (F : R -> R) (lam : C) (t : R) : C :=
  (RInt (fun s => fst (Cmult (RtoC (F s)) (decay 1 lam t s))) T0 t, RInt (fun s => snd (Cmult (RtoC (F s)) (decay 1 lam t s))) T0 t).
Definition tabulated (calc : list R -> result (list (list C))) (eigs : list C) (e : C -> R -> C) : Prop :=
  forall tvals, exists A, calc tvals = Ok A /\ forall i j, (i < length tvals)%nat -> (j < length eigs)%nat -> nth j (nth i A []) (RtoC 0) = e (nth j eigs (RtoC 0)) (nth i tvals 0).
Lemma tables_driven T0 B (calc : list R -> result (list (list C))) (x : list R) (eigs : list C) (F : R -> R) :
  nondecr x -> (1 <= length x)%nat -> T0 <= at_ x 0 -> (forall s, s < at_ x 0 \/ at_ x (length x - 1) < s -> F s = 0) -> (forall t, ~ In t B -> continuous F t) ->
  (forall tvals, exists A, calc tvals = Ok A /\ length A = length tvals /\ forall i j, (i < length tvals)%nat -> (j < length eigs)%nat ->
      is_CInt (fun tau => Cmult (RtoC (F tau)) (decay 1 (nth j eigs (RtoC 0)) (nth i tvals 0) tau)) (at_ x 0) (until x (nth i tvals 0)) (nth j (nth i A []) (RtoC 0))) ->
  (forall lam, In lam eigs -> driven T0 B lam (duh T0 F lam) (fun t => RtoC (F t))) /\ tabulated calc eigs (duh T0 F).
Proof.
  intros Hn Hl HT HZ HC HA.
  set (f := fun lam t tau => Cmult (RtoC (F tau)) (decay 1 lam t tau)).
  assert (HZ' : forall lam t s, s < at_ x 0 \/ at_ x (length x - 1) < s -> f lam t s = RtoC 0) by (intros lam t s Hs; unfold f; rewrite HZ by auto; ring).
  assert (HI : forall lam t, In lam eigs -> is_CInt (f lam t) T0 t (duh T0 F lam t)).
  { intros lam t Hin. destruct (In_nth _ _ (RtoC 0) Hin) as (j & Hj & Ej). destruct (HA [t]) as (A & _ & _ & HA'). specialize (HA' 0%nat j ltac:(cbn; lia) Hj). cbn [nth] in HA'. rewrite Ej in HA'. fold (f lam t) in HA'.
    apply (table_int x (f lam t) T0 t) in HA'; auto. destruct HA' as [U W]. split; cbn [fst snd duh]; apply (RInt_correct (V := R_CompleteNormedModule)); eexists; eauto. }
  split.
  - intros lam Hin. apply duhamel; auto. intros t. apply HI; auto. intros t Ht. apply HZ. left. lra.
  - intros tvals. destruct (HA tvals) as (A & EA & _ & HA'). exists A. split; auto. intros i j Hi Hj. specialize (HA' i j Hi Hj). apply (table_int x _ T0 (nth i tvals 0)) in HA'; auto.
    eapply CInt_unique; [exact HA'|]. apply (HI (nth j eigs (RtoC 0)) (nth i tvals 0)); apply nth_In; auto. intros s Hs. apply (HZ' (nth j eigs (RtoC 0)) (nth i tvals 0)); auto.
Qed.
Lemma linear_driven im x y F T0 B eigs : nondecr x -> (1 <= length x)%nat -> length x = length y -> no_doubled_points x y -> load_within x y F -> T0 <= at_ x 0 -> (forall t, In t x -> In t B) ->
  (forall lam, In lam eigs -> lam <> RtoC 0) ->
  (forall lam, In lam eigs -> driven T0 B lam (duh T0 F lam) (fun t => RtoC (F t))) /\ tabulated (fun tv => CEload_linear im x y eigs tv 1) eigs (duh T0 F).
Proof.
  intros Hn Hl HL HD HF HT HB Hz. apply (tables_driven T0 B (fun tv => CEload_linear im x y eigs tv 1) x); auto.
  - apply HF.
  - intros t Ht. apply (load_continuous x y); auto.
  - intros tvals. apply C168_Eload_linear; auto. apply HF. intros lam Hin. replace (Cmult (RtoC 1) lam) with lam by ring. auto.
Qed.
Lemma sinlinear_driven im x y F om ph T0 B eigs : nondecr x -> (1 <= length x)%nat -> length x = length y -> no_doubled_points x y -> load_within x y F -> T0 <= at_ x 0 -> (forall t, In t x -> In t B) ->
  (forall lam, In lam eigs -> lam <> RtoC 0) -> (forall lam, In lam eigs -> lam <> (0, om) /\ lam <> (0, - om)) ->
  (forall lam, In lam eigs -> driven T0 B lam (duh T0 (fun t => F t * sin (om * t + ph)) lam) (fun t => RtoC (F t * sin (om * t + ph)))) /\
  tabulated (fun tv => CEload_sinlinear im x y om ph eigs tv 1) eigs (duh T0 (fun t => F t * sin (om * t + ph))).
Proof.
  intros Hn Hl HL HD HF HT HB Hz Hr. apply (tables_driven T0 B (fun tv => CEload_sinlinear im x y om ph eigs tv 1) x eigs (fun t => F t * sin (om * t + ph))); auto.
  - intros s Hs. rewrite (proj2 HF s Hs). ring.
  - intros t Ht. apply (continuous_mult (K := R_AbsRing)); [apply (load_continuous x y); auto|]. apply (ex_derive_continuous (V := R_NormedModule)). auto_derive; auto.
  - intros tvals. apply C168_Eload_sinlinear; auto; try apply HF; intros lam Hin; replace (Cmult (RtoC 1) lam) with lam by ring; auto.
Qed.

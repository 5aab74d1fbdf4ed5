(** * Contributions of loads to the mode amplitudes *)
From Coq Require Import Reals List Arith ZArith Lia Lra Bool Sorted.
From Coquelicot Require Import Coquelicot.
From Verif Require Import Base PiecewiseModel LayersModel SpecPiecewise SpecPiecewiseApi PolyLineModel SpecPolyLine SpectralModel SpecSpectral WrapModel SpecWrap
  LoadModel LoadTrigModel SpecLoad TimeProofs TimeProofs2 TimeProofs3 PropsTime SpecSpeccon SpecconModel SpecconProofs SpecconProofs2.
Import ListNotations.
Open Scope R_scope.
Local Notation at_ := SpecPiecewise.at_.
Local Notation entry := SpecSpectral.entry.

Definition Sg (n : nat) (f : nat -> R) : R := fold_right Rplus 0 (map f (seq 0 n)).
Lemma Sg_ext n f g : (forall k, (k < n)%nat -> f k = g k) -> Sg n f = Sg n g.
Proof. intros H. apply fold_ext. intros k Hk. apply in_seq in Hk. apply H. lia. Qed.
Lemma Sg_plus n f g : Sg n (fun k => f k + g k) = Sg n f + Sg n g. Proof. apply fold_plus. Qed.
Lemma Sg_scal n c f : Sg n (fun k => c * f k) = c * Sg n f. Proof. apply fold_scal. Qed.
Lemma Sg_zero n : Sg n (fun _ => 0) = 0. Proof. apply fold_zero. Qed.
Lemma Sg_swap n p (f : nat -> nat -> R) : Sg n (fun i => Sg p (f i)) = Sg p (fun j => Sg n (fun i => f i j)).
Proof. apply (fold_swap f). Qed.
Lemma Sg_RInt n (f : nat -> R -> R) I a b : (forall k, (k < n)%nat -> is_RInt (f k) a b (I k)) -> is_RInt (fun s => Sg n (fun k => f k s)) a b (Sg n I).
Proof. intros H. apply is_RInt_fold. intros k Hk. apply in_seq in Hk. apply H. lia. Qed.
Lemma RInt_mulr (f : R -> R) a b c (I : R) : is_RInt f a b I -> is_RInt (fun s => f s * c) a b (I * c).
Proof.
  intros H. pose proof (is_RInt_scal (V := R_NormedModule) f a b c I H) as X. unfold scal in X; cbn in X; unfold Hierarchy.mult in X; cbn in X.
  rewrite (Rmult_comm I c). eapply is_RInt_ext; [|exact X]. intros s _. cbv beta. match goal with |- ?p = ?q => change (@eq R p q) end. ring.
Qed.
Lemma RInt_mull (f : R -> R) a b c (I : R) : is_RInt f a b I -> is_RInt (fun s => c * f s) a b (c * I).
Proof. intros H. exact (is_RInt_scal (V := R_NormedModule) f a b c I H). Qed.
Lemma RInt_add (f g : R -> R) a b (I J : R) : is_RInt f a b I -> is_RInt g a b J -> is_RInt (fun s => f s + g s) a b (I + J).
Proof. intros H H'. exact (is_RInt_plus (V := R_NormedModule) f g a b I J H H'). Qed.
Lemma RInt_eq (f g : R -> R) a b (I J : R) : is_RInt f a b I -> (forall s, f s = g s) -> I = J -> is_RInt g a b J.
Proof. intros H E <-. eapply is_RInt_ext; [|exact H]. intros; apply E. Qed.
Lemma seq_S_map n (f : nat -> R) : map f (seq 1 n) = map (fun k => f (S k)) (seq 0 n).
Proof. rewrite <- seq_shift, map_map. reflexivity. Qed.
Lemma Sg_S n f : Sg (S n) f = f 0%nat + Sg n (fun k => f (S k)).
Proof. unfold Sg. cbn [seq map fold_right]. rewrite seq_S_map. reflexivity. Qed.
Lemma Sg_pick n j f : (j < n)%nat -> Sg n (fun k => (if Nat.eqb j k then 1 else 0) * f k) = f j.
Proof.
  revert j f. induction n as [|n IH]; intros j f Hj; [lia|]. rewrite Sg_S. destruct j as [|j].
  - cbn [Nat.eqb]. rewrite (Sg_ext n _ (fun _ => 0)) by (intros; cbn [Nat.eqb]; ring). rewrite Sg_zero. ring.
  - cbn [Nat.eqb]. rewrite (IH j (fun k => f (S k))) by lia. ring.
Qed.

Lemma massoc n (A C : nat -> R) (B : nat -> nat -> R) : Sg n (fun q => Sg n (fun p => A p * B p q) * C q) = Sg n (fun p => A p * Sg n (fun q => B p q * C q)).
Proof.
  rewrite (Sg_ext n _ (fun q => Sg n (fun p => A p * B p q * C q))).
  - rewrite Sg_swap. apply Sg_ext. intros p _. rewrite <- Sg_scal. apply Sg_ext. intros; ring.
  - intros q _. rewrite Rmult_comm, <- Sg_scal. apply Sg_ext. intros; ring.
Qed.
(** ** The modal equations give the matrix equation *)
Lemma modal_to_matrix n dT (G N0 Psi V N : nat -> nat -> R) (lam c I src : nat -> R) :
  (forall i j, (i < n)%nat -> (j < n)%nat -> Sg n (fun k => G i k * N0 k j) = if Nat.eqb i j then 1 else 0) ->
  (forall i j, (i < n)%nat -> (j < n)%nat -> Sg n (fun k => Sg n (fun p => N0 i p * Psi p k) * V k j) = V i j * lam j) ->
  (forall i j, (i < n)%nat -> (j < n)%nat -> Sg n (fun k => Sg n (fun p => G i p * V p k) * N k j) = if Nat.eqb i j then 1 else 0) ->
  (forall j, (j < n)%nat -> c j + dT * lam j * I j = Sg n (fun k => N j k * src k)) ->
  forall i, (i < n)%nat -> Sg n (fun j => G i j * Sg n (fun l => V j l * c l)) + dT * Sg n (fun j => Psi i j * Sg n (fun l => V j l * I l)) = src i.
Proof.
  intros HG HE HN Hc i Hi.
  assert (B : forall l, (l < n)%nat -> Sg n (fun j => Psi i j * V j l) = Sg n (fun j => G i j * V j l) * lam l).
  { intros l Hl. rewrite (Sg_ext n (fun j => Psi i j * V j l) (fun j => Sg n (fun p => G i p * Sg n (fun q => N0 p q * Psi q j)) * V j l)).
    - rewrite massoc. rewrite (Sg_ext n _ (fun p => lam l * (G i p * V p l))).
      + rewrite Sg_scal. ring.
      + intros p Hp. rewrite HE by auto. ring.
    - intros j Hj. f_equal. rewrite <- massoc. rewrite (Sg_ext n _ (fun q => (if Nat.eqb i q then 1 else 0) * Psi q j)).
      + rewrite Sg_pick by auto. reflexivity.
      + intros q Hq. rewrite HG by auto. reflexivity. }
  rewrite <- !massoc. rewrite <- Sg_scal, <- Sg_plus.
  rewrite (Sg_ext n _ (fun l => Sg n (fun j => G i j * V j l) * Sg n (fun k => N l k * src k))).
  - rewrite <- massoc. rewrite (Sg_ext n _ (fun k => (if Nat.eqb i k then 1 else 0) * src k)); [apply Sg_pick; auto|].
    intros k Hk. rewrite <- HN by auto. reflexivity.
  - intros l Hl. rewrite B by auto. rewrite <- Hc by auto. ring.
Qed.

(** ** Contributions *)
Section Contributions.
Variables (n : nat) (dT T0 : R) (ok : R -> Prop) (eigs : list R) (Igamv : list (list R)).
Hypothesis HIg : length Igamv = n.
Hypothesis Heig : length eigs = n.
Hypothesis Hnz : forall lam, In lam eigs -> dT * lam <> 0.
Definition lam j := item eigs j.
Definition mild (c src : nat -> R -> R) : Prop := forall j t, (j < n)%nat -> T0 <= t -> ok t ->
  exists I, is_RInt (c j) T0 t I /\ c j t + dT * lam j * I = Sg n (fun k => cell Igamv j k * src k t).
Definition tab (tvals : list R) (A : list (list R)) (c : nat -> R -> R) : Prop :=
  forall j i, (j < n)%nat -> (i < length tvals)%nat -> cell A j i = c j (nth i tvals 0).
Definition contributes (calc : list R -> list (list R) -> result (list (list R))) (src : nat -> R -> R) : Prop :=
  exists c, mild c src /\ forall tvals acc c0, tab tvals acc c0 -> exists A, calc tvals acc = Ok A /\ tab tvals A (fun j t => c0 j t + c j t).

Lemma contributes_ext calc calc' src src' : contributes calc src -> (forall tvals acc, calc' tvals acc = calc tvals acc) ->
  (forall k t, (k < n)%nat -> T0 <= t -> ok t -> src' k t = src k t) -> contributes calc' src'.
Proof using.
  intros (c & M & H) E Es. exists c. split.
  - intros j t Hj Ht Ho. destruct (M j t Hj Ht Ho) as (I & HI & EI). exists I. split; auto. rewrite EI. apply Sg_ext. intros; rewrite Es; auto.
  - intros tvals acc c0 Hc. rewrite E. apply H; auto.
Qed.
Lemma contributes_nothing : contributes (fun _ acc => Ok acc) (fun _ _ => 0).
Proof using.
  exists (fun _ _ => 0). split.
  - intros j t Hj Ht Ho. exists 0. split.
    + eapply (eq_ind _ (fun v => is_RInt (fun _ => 0) T0 t v)); [apply (is_RInt_const (V := R_NormedModule))|].
      unfold scal; cbn; unfold Hierarchy.mult; cbn. match goal with |- ?p = ?q => change (@eq R p q) end. ring.
    + rewrite (Sg_ext n _ (fun _ => 0)) by (intros; ring). rewrite Sg_zero. ring.
  - intros tvals acc c0 H. exists acc. split; auto. intros j i Hj Hi. rewrite H by auto. ring.
Qed.
Lemma contributes_seq f g sf sg : contributes f sf -> contributes g sg ->
  contributes (fun tvals acc => acc <- f tvals acc ;; g tvals acc) (fun k t => sf k t + sg k t).
Proof using.
  intros (c & M & H) (d & M' & H'). exists (fun j t => c j t + d j t). split.
  - intros j t Hj Ht Ho. destruct (M j t Hj Ht Ho) as (I & HI & EI). destruct (M' j t Hj Ht Ho) as (J & HJ & EJ).
    exists (I + J). split; [apply (is_RInt_plus (V := R_NormedModule)); auto|].
    rewrite (Sg_ext n _ (fun k => cell Igamv j k * sf k t + cell Igamv j k * sg k t)) by (intros; ring). rewrite Sg_plus, <- EI, <- EJ. ring.
  - intros tvals acc c0 Hc. destruct (H tvals acc c0 Hc) as (A & EA & TA). destruct (H' tvals A _ TA) as (B & EB & TB).
    exists B. cbv beta. rewrite EA. cbn [bind]. split; auto. intros j i Hj Hi. rewrite TB by auto. ring.
Qed.
Lemma zero_tab tvals : tab tvals (zero_table n (length tvals)) (fun _ _ => 0).
Proof using. intros j i Hj Hi. unfold zero_table. apply cell_table; auto. Qed.
Lemma contributes_part d f s : contributes f s ->
  contributes (fun tvals acc => add_part n (length tvals) d (f tvals (zero_table n (length tvals))) acc) (fun k t => d * s k t).
Proof using.
  intros (c & M & H). exists (fun j t => d * c j t). split.
  - intros j t Hj Ht Ho. destruct (M j t Hj Ht Ho) as (I & HI & EI). exists (d * I). split; [apply (is_RInt_scal (V := R_NormedModule)); auto|].
    rewrite (Sg_ext n _ (fun k => d * (cell Igamv j k * s k t))) by (intros; ring). rewrite Sg_scal, <- EI. ring.
  - intros tvals acc c0 Hc. destruct (H tvals _ _ (zero_tab tvals)) as (A & EA & TA). unfold add_part. rewrite EA. cbn [bind].
    eexists. split; [reflexivity|]. intros j i Hj Hi. rewrite cell_table by auto. rewrite Hc, TA by auto. ring.
Qed.

(** Ef turns the load p, modulated by om, into mode amplitudes driven by tau. *)
Definition drives (Ef : list R -> points -> option (R * R) -> result (list (list R))) (p : points) (om : option (R * R)) (tau : R -> R) : Prop :=
  exists e : R -> R -> R, (forall tvals, exists A, Ef tvals p om = Ok A /\
    forall i j, (i < length tvals)%nat -> (j < n)%nat -> entry A i j = e (lam j) (nth i tvals 0)) /\
  forall j t, (j < n)%nat -> T0 <= t -> ok t -> exists I, is_RInt (e (lam j)) T0 t I /\ e (lam j) t + dT * lam j * I = tau t.
Lemma lam_nz j : (j < n)%nat -> dT * lam j <> 0.
Proof using HIg Heig Hnz. intros Hj. apply Hnz. apply nth_In. lia. Qed.
Lemma drives_E im p om F : is_load T0 p om F -> (forall t, ok t -> before_end p t) ->
  drives (fun tvals => load_E im eigs tvals dT) p om (fun t => RInt F T0 t).
Proof using HIg Heig Hnz.
  intros (HP & _ & HS & HF) Hok. destruct (C98_Eload im dT p om F T0 HP HF HS) as (e & H1 & H2). exists e. split.
  - intros tvals. destruct (H1 eigs tvals Hnz) as (A & E & _ & H). exists A. split; auto. intros i j Hi Hj. apply H; lia.
  - intros j t Hj Ht Ho. destruct (H2 (lam j) t (lam_nz j Hj) Ht (Hok t Ho)) as (L & I & HL & HI & E). exists I. split; auto.
    rewrite E. symmetry. apply is_RInt_unique. exact HL.
Qed.
Lemma drives_ED im p om F : is_load T0 p om F -> (forall t, ok t -> before_end p t) ->
  drives (fun tvals => load_ED im eigs tvals dT) p om (fun t => F t - initial p om).
Proof using HIg Heig Hnz.
  intros (HP & _ & HS & HF) Hok. destruct (C98_EDload im dT p om F T0 HP HF HS) as (e & H1 & H2). exists e. split.
  - intros tvals. destruct (H1 eigs tvals Hnz) as (A & E & _ & H). exists A. split; auto. intros i j Hi Hj. apply H; lia.
  - intros j t Hj Ht Ho. destruct (H2 (lam j) t (lam_nz j Hj) Ht (Hok t Ho)) as (I & HI & E). exists I. split; auto.
Qed.
Lemma load_ex_RInt p om F t : is_load T0 p om F -> T0 <= t -> before_end p t -> ex_RInt F T0 t.
Proof using.
  intros (HP & _ & HS & HF) Ht Hb. destruct (C98_Eload vectorized 1 p om F T0 HP HF HS) as (e & _ & H2).
  destruct (H2 1 t ltac:(lra) Ht Hb) as (L & I & HL & _). exists L. exact HL.
Qed.

Section Loops.
Variable Ef : list R -> points -> option (R * R) -> result (list (list R)).
Lemma term_contributes p om tau th : drives Ef p om tau -> length th = n ->
  contributes (fun tvals acc => E <- Ef tvals p om ;; Ok (add_term n (length tvals) acc E (dot_mv Igamv th))) (fun k t => item th k * tau t).
Proof using HIg. try clear Hnz Heig.
  intros (e & H1 & H2) Lt. exists (fun j t => e (lam j) t * item (dot_mv Igamv th) j). split.
  - intros j t Hj Ht Ho. destruct (H2 j t Hj Ht Ho) as (I & HI & EI). exists (I * item (dot_mv Igamv th) j). split.
    + apply RInt_mulr. exact HI.
    + replace (e (lam j) t * item (dot_mv Igamv th) j + dT * lam j * (I * item (dot_mv Igamv th) j)) with (tau t * item (dot_mv Igamv th) j) by (rewrite <- EI; ring).
      rewrite item_dot_mv by lia. rewrite Lt. fold (Sg n (fun k => cell Igamv j k * item th k)). rewrite <- Sg_scal. apply Sg_ext. intros; ring.
  - intros tvals acc c0 Hc. destruct (H1 tvals) as (A & EA & HA). cbv beta. rewrite EA. cbn [bind]. eexists. split; [reflexivity|].
    intros j i Hj Hi. unfold add_term. rewrite cell_table by auto. rewrite Hc by auto. change (cell A i j) with (entry A i j). rewrite HA by auto. ring.
Qed.
Lemma total_cons f l t : total (f :: l) t = f t + total l t. Proof using. reflexivity. Qed.
Lemma add_loads_contributes th l taus : length th = n -> List.Forall2 (fun q tau => drives Ef (fst q) (snd q) tau) l taus ->
  contributes (fun tvals acc => add_loads n (length tvals) (Ef tvals) Igamv th l acc) (fun k t => item th k * total taus t).
Proof using HIg. try clear Hnz Heig.
  intros Lt F. induction F as [|[p om] tau l taus H F IH].
  - eapply contributes_ext; [apply contributes_nothing|reflexivity|]. intros. unfold total; cbn. ring.
  - eapply contributes_ext; [apply (contributes_seq _ _ _ _ (term_contributes p om tau th H Lt) IH)| |].
    + intros tvals acc. cbn [add_loads]. destruct (Ef tvals p om); reflexivity.
    + intros k t _ _ _. rewrite total_cons. ring.
Qed.
(** loads grouped with thetas (fixed pore pressure points) *)
Lemma add_thetas_contributes p om tau ths : drives Ef p om tau -> (forall th, In th ths -> length th = n) ->
  contributes (fun tvals acc => E <- Ef tvals p om ;; Ok (add_thetas n (length tvals) Igamv E ths acc)) (fun k t => fold_right Rplus 0 (map (fun th => item th k) ths) * tau t).
Proof using HIg. try clear Hnz Heig.
  intros Hd. pose proof Hd as (e & H1 & _). induction ths as [|th ths IH]; intros Hl.
  - eapply contributes_ext; [apply contributes_nothing| |].
    + intros tvals acc. destruct (H1 tvals) as (A & EA & _). rewrite EA. reflexivity.
    + intros. cbn. ring.
  - eapply contributes_ext; [apply (contributes_seq _ _ _ _ (term_contributes p om tau th Hd (Hl th (or_introl eq_refl))) (IH (fun x Hx => Hl x (or_intror Hx))))| |].
    + intros tvals acc. destruct (H1 tvals) as (A & EA & _). rewrite EA. reflexivity.
    + intros. cbn. ring.
Qed.
Lemma add_delta_contributes ths l taus : (forall th, In th ths -> length th = n) -> List.Forall2 (fun q tau => drives Ef (fst q) (snd q) tau) l taus ->
  contributes (fun tvals acc => add_delta_loads n (length tvals) (Ef tvals) Igamv ths l acc) (fun k t => fold_right Rplus 0 (map (fun th => item th k) ths) * total taus t).
Proof using HIg. try clear Hnz Heig.
  intros Lt F. induction F as [|[p om] tau l taus H F IH].
  - eapply contributes_ext; [apply contributes_nothing|reflexivity|]. intros. unfold total; cbn. ring.
  - eapply contributes_ext; [apply (contributes_seq _ _ _ _ (add_thetas_contributes p om tau ths H Lt) IH)| |].
    + intros tvals acc. cbn [add_delta_loads]. destruct (Ef tvals p om); reflexivity.
    + intros k t _ _ _. rewrite total_cons. ring.
Qed.
(** Boundary conditions: the loads may be absent. *)
Definition drive_all (o : option (list points)) (om : om_arg) (taus : list (R -> R)) : Prop :=
  List.Forall2 (fun q tau => drives Ef (fst q) (snd q) tau) (combine (listed o) (om_list (length (listed o)) om)) taus.
Lemma bc_contributes d tht thb top bot tom bom taut taub xt xb : drive_all top tom taut -> drive_all bot bom taub ->
  tht tt = Ok xt -> thb tt = Ok xb -> length xt = n -> length xb = n ->
  contributes (fun tvals acc => add_part n (length tvals) d (bc_terms n (length tvals) (Ef tvals) Igamv tht thb top bot tom bom) acc)
    (fun k t => d * (item xt k * total taut t + item xb k * total taub t)).
Proof using HIg. try clear Hnz Heig.
  intros Ft Fb Et Eb Lt Lb.
  assert (X : contributes (fun tvals acc => acc <- match top with None => Ok acc | Some l => add_loads n (length tvals) (Ef tvals) Igamv xt (combine l (om_list (length l) tom)) acc end ;;
     match bot with None => Ok acc | Some l => add_loads n (length tvals) (Ef tvals) Igamv xb (combine l (om_list (length l) bom)) acc end)
     (fun k t => item xt k * total taut t + item xb k * total taub t)).
  { apply contributes_seq.
    - destruct top as [l|]; cbn [listed] in Ft.
      + apply add_loads_contributes; auto.
      + cbn in Ft. inversion Ft; subst. eapply contributes_ext; [apply contributes_nothing|reflexivity|]. intros; unfold total; cbn; ring.
    - destruct bot as [l|]; cbn [listed] in Fb.
      + apply add_loads_contributes; auto.
      + cbn in Fb. inversion Fb; subst. eapply contributes_ext; [apply contributes_nothing|reflexivity|]. intros; unfold total; cbn; ring. }
  eapply contributes_ext; [apply (contributes_part d _ _ X)| |reflexivity].
  intros tvals acc. f_equal. unfold bc_terms. destruct top as [l|], bot as [l'|]; rewrite ?Et, ?Eb; cbn [bind]; rewrite ?Eb; reflexivity.
Qed.
(** Points in the depth with a load each (perhaps none). *)
Lemma deltamag_contributes m l taus : length m = n ->
  List.Forall2 (fun q tau => match snd (fst q) with None => tau = (fun _ => 0) | Some p => drives Ef p (snd q) tau end) l taus ->
  contributes (fun tvals acc => deltamag_loop n (length tvals) (Ef tvals) m Igamv l acc)
    (fun k t => fold_right Rplus 0 (map (fun qt => snd (fst (fst (fst qt))) * sin (fst (fst (fst (fst qt))) * nth k m 0) * snd qt t) (combine l taus))).
Proof using HIg. try clear Hnz Heig.
  intros Lm F. induction F as [|[[[z k] [p|]] om] tau l taus H F IH].
  - eapply contributes_ext; [apply contributes_nothing|reflexivity|]. reflexivity.
  - cbn [fst snd] in H. eapply contributes_ext; [apply (contributes_seq _ _ _ _ (term_contributes p om tau (map (fun mi => k * sin (z * mi)) m) H ltac:(rewrite map_length; auto)) IH)| |].
    + intros tvals acc. cbn [deltamag_loop]. destruct (Ef tvals p om); reflexivity.
    + intros j t Hj _ _. cbn [combine map fold_right fst snd]. f_equal. unfold item. rewrite (nth_map_in _ _ _ _ 0) by lia. reflexivity.
  - cbn [fst snd] in H. subst tau. eapply contributes_ext; [apply IH|reflexivity|].
    intros j t Hj _ _. cbn [combine map fold_right fst snd]. ring.
Qed.
End Loops.
End Contributions.

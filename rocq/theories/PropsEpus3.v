(** * EPUS: running an object again *)
From Coq Require Import Reals List ZArith Bool Lia Lra.
From Coquelicot Require Import Rcomplements.
From Verif Require Import Base ConstitutiveModel ConstitutiveProofs SwccModel EpusModel EpusSpec EpusProofs1 EpusProofs2 EpusProofs3 PropsEpus.
Import ListNotations.
Local Open Scope R_scope.

Definition agree (P : nat -> Prop) (l1 l2 : list R) : Prop := length l1 = length l2 /\ forall k, P k -> nth_error l1 k = nth_error l2 k.
Lemma set_nth_length l i v : length (set_nth l i v) = length l.
Proof. revert i. induction l as [|a l IH]; intros [|i]; cbn; auto. Qed.
Lemma set_nth_same l i v : (i < length l)%nat -> nth_error (set_nth l i v) i = Some v.
Proof. revert i. induction l as [|a l IH]; intros [|i] H; cbn in *; auto; try lia. apply IH. lia. Qed.
Lemma set_nth_other l i k v : k <> i -> nth_error (set_nth l i v) k = nth_error l k.
Proof. revert i k. induction l as [|a l IH]; intros [|i] [|k] H; cbn; auto; congruence. Qed.
Lemma agree_set (P Q : nat -> Prop) l1 l2 i v : agree P l1 l2 -> (i < length l1)%nat -> (forall k, Q k -> P k \/ k = i) -> agree Q (set_nth l1 i v) (set_nth l2 i v).
Proof.
  intros (L & A) I H. split; [rewrite !set_nth_length; auto|]. intros k HQ. destruct (Nat.eq_dec k i) as [->|N]; [rewrite !set_nth_same by lia; auto|].
  rewrite !set_nth_other by auto. apply A. destruct (H k HQ); [auto|contradiction].
Qed.
Lemma nth_error_ext' {A} (l1 l2 : list A) : (forall k, nth_error l1 k = nth_error l2 k) -> l1 = l2.
Proof. revert l2. induction l1 as [|a l1 IH]; intros [|b l2] H; auto; [specialize (H 0%nat); discriminate|specialize (H 0%nat); discriminate|]. f_equal; [specialize (H 0%nat); cbn in H; congruence|]. apply IH. intros k. apply (H (S k)). Qed.
Lemma agree_eq P l1 l2 : agree P l1 l2 -> (forall k, (k < length l1)%nat -> P k) -> l1 = l2.
Proof. intros (L & A) H. apply nth_error_ext'. intros k. destruct (lt_dec k (length l1)) as [K|K]; [auto|]. transitivity (@None R); [|symmetry]; apply nth_error_None; lia. Qed.
Lemma np_index_length l1 l2 i v : length l1 = length l2 -> np_index l1 i = Ok v -> exists v', np_index l2 i = Ok v'.
Proof.
  intros L. unfold np_index. rewrite L. destruct (Z.ltb _ 0) eqn:E; [discriminate|]. destruct (nth_error l1 _) eqn:N; [|discriminate]. intros _.
  destruct (nth_error l2 (Z.to_nat (if (i <? 0)%Z then (i + Z.of_nat (length l2))%Z else i))) eqn:N2; [eauto|]. exfalso. apply nth_error_None in N2. rewrite <- L in N2. apply nth_error_None in N2. rewrite L in N2. congruence.
Qed.
Definition on_curve (o : state) : Prop := Curveon o = 1%Z \/ Curveon o = 2%Z \/ Curveon o = 3%Z.
(** Two objects that differ at most in the reference curve position and in entries of Srdry and Srwet not yet rewritten. *)
Definition alike (p : par) (P Q : nat -> Prop) (o1 o2 : state) : Prop :=
  pores o1 = pores o2 /\ Suction o1 = Suction o2 /\ Stress o1 = Stress o2 /\ on_curve o1 /\ on_curve o2 /\ agree P (Srdry o1) (Srdry o2) /\ agree Q (Srwet o1) (Srwet o2) /\
  length (Srdry o1) = NumSr p /\ length (Srwet o1) = NumSr p /\ List.Forall (fun q => Stress o1 <= pow10 (AEV q)) (pores o1).
Lemma dry_reference_ok p o1 o2 x cr : length (Srdry o1) = length (Srdry o2) -> on_curve o1 -> on_curve o2 -> dry_reference p o1 x = Ok cr ->
  (fst cr = 1%Z \/ fst cr = 2%Z \/ fst cr = 3%Z) /\ exists cr', dry_reference p o2 x = Ok cr' /\ (fst cr' = 1%Z \/ fst cr' = 2%Z \/ fst cr' = 3%Z).
Proof.
  intros L C1 C2 H. assert (X : exists r r', RfSr_dry p o1 x = Ok r /\ RfSr_dry p o2 x = Ok r').
  { unfold dry_reference in H. assert (Y : exists r, RfSr_dry p o1 x = Ok r) by (destruct C1 as [E|[E|E]]; rewrite E in H; cbn in H; unbind H; eauto).
    destruct Y as (r & Y). exists r. unfold RfSr_dry in *. unbind Y. cbn [bind]. destruct (np_index_length _ _ _ _ L Y) as (r' & Z). eauto. }
  destruct X as (r & r' & X1 & X2). split.
  - unfold dry_reference in H. destruct C1 as [E|[E|E]]; rewrite E, X1 in H; cbn in H; injection H as <-; auto; destruct (Rleb _ _); cbn; auto.
  - unfold dry_reference. destruct C2 as [E|[E|E]]; rewrite E, X2; cbn; eexists; (split; [reflexivity|]); auto; destruct (Rleb _ _); cbn; auto.
Qed.
Lemma wet_reference_ok p o1 o2 x cr : length (Srwet o1) = length (Srwet o2) -> on_curve o1 -> on_curve o2 -> wet_reference p o1 x = Ok cr ->
  (fst cr = 1%Z \/ fst cr = 2%Z \/ fst cr = 3%Z) /\ exists cr', wet_reference p o2 x = Ok cr' /\ (fst cr' = 1%Z \/ fst cr' = 2%Z \/ fst cr' = 3%Z).
Proof.
  intros L C1 C2 H. assert (X : exists r r', RfSr_wet p o1 x = Ok r /\ RfSr_wet p o2 x = Ok r').
  { unfold wet_reference in H. assert (Y : exists r, RfSr_wet p o1 x = Ok r) by (destruct C1 as [E|[E|E]]; rewrite E in H; cbn in H; unbind H; eauto).
    destruct Y as (r & Y). exists r. unfold RfSr_wet in *. unbind Y. cbn [bind]. destruct (np_index_length _ _ _ _ L Y) as (r' & Z). eauto. }
  destruct X as (r & r' & X1 & X2). split.
  - unfold wet_reference in H. destruct C1 as [E|[E|E]]; rewrite E, X1 in H; cbn in H; injection H as <-; auto; destruct (Rleb _ _); cbn; auto.
  - unfold wet_reference. destruct C2 as [E|[E|E]]; rewrite E, X2; cbn; eexists; (split; [reflexivity|]); auto; destruct (Rleb _ _); cbn; auto.
Qed.
Lemma aev_kept (S0 : R) l r : Forall2 stepped l r -> List.Forall (fun q => S0 <= pow10 (AEV q)) l -> List.Forall (fun q => S0 <= pow10 (AEV q)) r.
Proof. induction 1 as [|q q' l r ((E & _) & _) F IH]; intros H; constructor; inversion H; subst; auto. rewrite E. auto. Qed.
Lemma drying_alike p P Q o1 o2 x o1' : alike p P Q o1 o2 -> Drying p x o1 = Ok o1' -> exists o2', Drying p x o2 = Ok o2' /\ alike p P Q o1' o2'.
Proof.
  intros (A1 & A2 & A3 & A4 & A5 & A6 & A7 & A8 & A9 & A10) H. assert (G := method_groups p (Dry x) o1 o1' H). unfold Drying in *. unbind H. injection H as <-.
  destruct (dry_reference_ok _ _ o2 _ _ (proj1 A6) A4 A5 Q0) as (C1 & cr' & E & C2). rewrite E. cbn [bind]. rewrite <- A1, <- A3, Q1. cbn [bind]. eexists. split; [reflexivity|].
  unfold alike, on_curve. cbn [pores Suction Stress Curveon Srdry Srwet] in *. repeat (match goal with |- _ /\ _ => split end); auto. eapply aev_kept; eauto.
Qed.
Lemma wet_pore_ref p Str r1 r2 ss q : Str <= pow10 (AEV q) -> wet_pore p Str r1 ss q = wet_pore p Str r2 ss q.
Proof.
  intros H. unfold wet_pore, dry_yield. rewrite (proj2 (Rltb_false (pow10 (AEV q)) Str) H) || (assert (X : Rltb (pow10 (AEV q)) Str = false) by (unfold Rltb; destruct (Rlt_dec _ _); auto; lra); rewrite X). reflexivity.
Qed.
Lemma mapM_ext_in {A B} (f g : A -> result B) l : (forall a, In a l -> f a = g a) -> mapM f l = mapM g l.
Proof. induction l as [|a l IH]; intros H; [reflexivity|]. cbn [mapM]. rewrite H by (cbn; auto). rewrite IH; [reflexivity|intros; apply H; cbn; auto]. Qed.
Lemma wetting_alike p P Q o1 o2 x o1' : alike p P Q o1 o2 -> Wetting p x o1 = Ok o1' -> exists o2', Wetting p x o2 = Ok o2' /\ alike p P Q o1' o2'.
Proof.
  intros (A1 & A2 & A3 & A4 & A5 & A6 & A7 & A8 & A9 & A10) H. assert (G := method_groups p (Wet x) o1 o1' H). unfold Wetting in *. unbind H. injection H as <-.
  destruct (wet_reference_ok _ _ o2 _ _ (proj1 A7) A4 A5 Q0) as (C1 & cr' & E & C2). rewrite E. cbn [bind]. rewrite <- A1, <- A3.
  rewrite (mapM_ext_in _ (wet_pore p (Stress o1) (RefSr o1) x)) by (intros q I; apply wet_pore_ref; rewrite Forall_forall in A10; auto). rewrite Q1. cbn [bind]. eexists. split; [reflexivity|].
  unfold alike, on_curve. cbn [pores Suction Stress Curveon Srdry Srwet] in *. repeat (match goal with |- _ /\ _ => split end); auto. eapply aev_kept; eauto.
Qed.
Lemma dry_loop p intv n : forall i o1 o2 o1' Q, (i + n <= NumSr p)%nat -> alike p (fun k => (k < i)%nat) Q o1 o2 -> loop (sr_dry_step p intv) (seq i n) o1 = Ok o1' ->
  exists o2', loop (sr_dry_step p intv) (seq i n) o2 = Ok o2' /\ alike p (fun k => (k < i + n)%nat) Q o1' o2'.
Proof.
  induction n as [|n IH]; intros i o1 o2 o1' Q N A H; cbn [seq loop] in *.
  - injection H as <-. exists o2. split; auto. rewrite Nat.add_0_r. auto.
  - unbind H. unfold sr_dry_step in Q0 |- * at 1. unbind Q0. injection Q0 as <-. destruct (drying_alike _ _ _ _ _ _ _ A Q1) as (o2' & E & A'). rewrite E. cbn [bind]. destruct A' as (B1 & B2 & B3 & B4 & B5 & B6 & B7 & B8 & B9 & B10).
    rewrite <- B1, Q2. cbn [bind]. edestruct (IH (S i) (put_dry a0 i a1) (put_dry o2' i a1) o1' Q) as (o2'' & H1 & H2); [lia| |exact H|].
    2:{ exists o2''. split; [exact H1|]. replace (i + S n)%nat with (S i + n)%nat by lia. auto. }
    unfold alike, put_dry, on_curve in *. cbn [pores Suction Stress Curveon Srdry Srwet]. rewrite set_nth_length. repeat (match goal with |- _ /\ _ => split end); auto.
      eapply agree_set; [exact B6|rewrite B8; lia|]. cbn beta. intros k K. lia.
Qed.
Lemma wet_loop p intv n : forall i o1 o2 o1' P, (i + n <= NumSr p)%nat -> alike p P (fun k => (NumSr p - i <= k)%nat) o1 o2 -> loop (sr_wet_step p intv) (seq i n) o1 = Ok o1' ->
  exists o2', loop (sr_wet_step p intv) (seq i n) o2 = Ok o2' /\ alike p P (fun k => (NumSr p - (i + n) <= k)%nat) o1' o2'.
Proof.
  induction n as [|n IH]; intros i o1 o2 o1' P N A H; cbn [seq loop] in *.
  - injection H as <-. exists o2. split; auto. rewrite Nat.add_0_r. auto.
  - unbind H. unfold sr_wet_step in Q |- * at 1. unbind Q. injection Q as <-. destruct (wetting_alike _ _ _ _ _ _ _ A Q0) as (o2' & E & A'). rewrite E. cbn [bind]. destruct A' as (B1 & B2 & B3 & B4 & B5 & B6 & B7 & B8 & B9 & B10).
    rewrite <- B1, Q1. cbn [bind]. edestruct (IH (S i) (put_wet a0 (NumSr p - 1 - i) a1) (put_wet o2' (NumSr p - 1 - i) a1) o1' P) as (o2'' & H1 & H2); [lia| |exact H|].
    2:{ exists o2''. split; [exact H1|]. replace (i + S n)%nat with (S i + n)%nat by lia. auto. }
    unfold alike, put_wet, on_curve in *. cbn [pores Suction Stress Curveon Srdry Srwet]. rewrite set_nth_length. repeat (match goal with |- _ /\ _ => split end); auto.
      eapply agree_set; [exact B7|rewrite B9; lia|]. cbn beta. intros k K. lia.
Qed.
Lemma reference_curves_same p o1 o2 r1 : MinSuction p <= MaxSuction p -> length (Srdry o1) = NumSr p -> length (Srwet o1) = NumSr p -> length (Srdry o2) = NumSr p -> length (Srwet o2) = NumSr p ->
  DegreeofsaturationSWCC p o1 = Ok r1 -> exists r2, DegreeofsaturationSWCC p o2 = Ok r2 /\ Srdry r1 = Srdry r2 /\ Srwet r1 = Srwet r2 /\ length (Srdry r1) = NumSr p /\ length (Srwet r1) = NumSr p.
Proof.
  intros M L1 L2 L3 L4 H. unfold DegreeofsaturationSWCC in *. unbind H.
  assert (E : exists b, SlurryPoreSize p o2 = Ok b /\ alike p (fun k => (k < 0)%nat) (fun k => (NumSr p - 0 <= k)%nat) a b).
  { pose proof Q as Q'. apply slurry_all in Q' as (F & _ & S1 & S2 & S3 & S4 & S5 & S6). unfold SlurryPoreSize in Q |- *. unbind Q. injection Q as <-. cbn [bind]. eexists. split; [reflexivity|].
    unfold alike, on_curve, agree. cbn [pores Suction Stress Curveon Srdry Srwet] in *. repeat (match goal with |- _ /\ _ => split end); auto; try congruence.
    - intros k K. lia.
    - intros k K. transitivity (@None R); [|symmetry]; apply nth_error_None; lia.
    - eapply Forall_impl; [|exact F]. intros q (_ & _ & _ & _ & _ & X). specialize (X M). assert (Y := pow10_mono _ _ X). assert (0 < pow10 (MinSuction p)) by apply pow10_pos. lra. }
  destruct E as (b & E & A). rewrite E. cbn [bind]. destruct (dry_loop p _ (NumSr p) 0 _ _ _ _ (Nat.le_refl _) A Q1) as (b1 & E1 & A1). rewrite E1. cbn [bind].
  destruct (wet_loop p _ (NumSr p) 0 _ _ _ _ (Nat.le_refl _) A1 H) as (b2 & E2 & A2). exists b2. split; auto. destruct A2 as (_ & _ & _ & _ & _ & B6 & B7 & B8 & B9 & _).
  repeat split; auto; eapply agree_eq; eauto; cbn beta; intros k K; lia.
Qed.

(** Objects a user can hold: a new one, or one on which methods and Calresults have been run. *)
Inductive used (p : par) : state -> Prop :=
| used_new : used p (new_object p)
| used_method m o o' : used p o -> call p m o = Ok o' -> used p o'
| used_run l o o' ds : used p o -> Calresults p l o = Ok (o', ds) -> used p o'.
Lemma call_Sr p m o o' : call p m o = Ok o' -> Srdry o' = Srdry o /\ Srwet o' = Srwet o.
Proof. destruct m; cbn [call]; unfold Drying, Wetting, Loading, Unloading; intros H; unbind H; injection H as <-; auto. Qed.
Lemma path_Sr p l cs ct o o' ds : path_run p l cs ct o o' ds -> Srdry o' = Srdry o /\ Srwet o' = Srwet o.
Proof.
  assert (X : forall pts o o' d, points_run p pts o o' d -> Srdry o' = Srdry o /\ Srwet o' = Srwet o). { induction 1; auto. apply call_Sr in H as (A & B). destruct IHpoints_run as (C & D). split; congruence. }
  induction 1; auto. apply X in H0 as (A & B). destruct IHpath_run as (C & D). split; congruence.
Qed.
Lemma loop_lengths {A} (f : nat -> state -> result state) (g : state -> A) is_ : (forall i o o', f i o = Ok o' -> g o' = g o) -> forall o o', loop f is_ o = Ok o' -> g o' = g o.
Proof. intros F. induction is_ as [|i t IH]; intros o o' H; cbn in H; [congruence|]. unbind H. apply IH in H. rewrite H. eauto. Qed.
Lemma used_lengths p o : used p o -> length (Srdry o) = NumSr p /\ length (Srwet o) = NumSr p /\ (Assumption p <> 1%Z -> Srdry o = repeat 0 (NumSr p) /\ Srwet o = repeat 0 (NumSr p)).
Proof.
  induction 1 as [|m o o' U IH C|l o o' ds U IH C].
  - cbn. rewrite !repeat_length. auto.
  - apply call_Sr in C as (-> & ->). auto.
  - unfold Calresults in C. unbind C. apply slurry_all in Q0 as (_ & _ & _ & _ & _ & _ & S1 & S2). apply run_steps_path, path_Sr in C as (E1 & E2). cbn [fst] in E1, E2. rewrite E1, E2, S1, S2.
    destruct (Z.eqb_spec (Assumption p) 1) as [Z|Z]; [|injection Q as <-; auto]. destruct IH as (I1 & I2 & I3). unfold DegreeofsaturationSWCC in Q. unbind Q.
    apply slurry_all in Q0 as (_ & _ & _ & _ & _ & _ & T1 & T2).
    assert (LD : forall i o o', sr_dry_step p a2 i o = Ok o' -> (length (Srdry o'), length (Srwet o')) = (length (Srdry o), length (Srwet o))).
    { intros i oa ob H. unfold sr_dry_step in H. unbind H. injection H as <-. cbn. rewrite set_nth_length. apply (call_Sr p (Dry _)) in Q0 as (-> & ->). auto. }
    assert (LW : forall i o o', sr_wet_step p a2 i o = Ok o' -> (length (Srdry o'), length (Srwet o')) = (length (Srdry o), length (Srwet o))).
    { intros i oa ob H. unfold sr_wet_step in H. unbind H. injection H as <-. cbn. rewrite set_nth_length. apply (call_Sr p (Wet _)) in Q0 as (-> & ->). auto. }
    apply (loop_lengths _ (fun o => (length (Srdry o), length (Srwet o))) _ LD) in Q2. apply (loop_lengths _ (fun o => (length (Srdry o), length (Srwet o))) _ LW) in Q. cbn beta in *. rewrite Q2, T1, T2 in Q. injection Q as -> ->.
    split; [auto|split; [auto|contradiction]].
Qed.
Lemma same_run p l o1 o2 r : MinSuction p <= MaxSuction p -> used p o1 -> used p o2 -> Calresults p l o1 = Ok r -> Calresults p l o2 = Ok r.
Proof.
  intros M U1 U2 H. destruct (used_lengths _ _ U1) as (A1 & A2 & A3), (used_lengths _ _ U2) as (B1 & B2 & B3). unfold Calresults in *.
  assert (S : forall a b, Srdry a = Srdry b -> Srwet a = Srwet b -> SlurryPoreSize p a = SlurryPoreSize p b) by (intros a b E1 E2; unfold SlurryPoreSize; rewrite E1, E2; reflexivity).
  destruct (Z.eqb_spec (Assumption p) 1) as [Z|Z].
  - unbind H. destruct (reference_curves_same p o1 o2 a M A1 A2 B1 B2 Q) as (r2 & E & E1 & E2 & _). rewrite E. cbn [bind]. rewrite <- (S a r2 E1 E2), Q0. exact H.
  - cbn [bind] in *. destruct (A3 Z) as (C1 & C2), (B3 Z) as (C3 & C4). rewrite (S o2 o1) by congruence. exact H.
Qed.
(** C162: Calresults gives on a used object what it gives on a new one, whatever was run before (the arrays Srdry and Srwet keep the values of earlier runs while they are recalculated). *)
Theorem C162_rerun p l o : MinSuction p <= MaxSuction p -> used p o ->
  match Calresults p l (new_object p), Calresults p l o with
  | Ok r, Ok r' => r' = r
  | Err _, Err _ => True
  | _, _ => False
  end.
Proof.
  intros M U. destruct (Calresults p l (new_object p)) as [r|e] eqn:E.
  - rewrite (same_run p l _ o r M (used_new p) U E). reflexivity.
  - destruct (Calresults p l o) as [r|] eqn:E2; auto. rewrite (same_run p l o _ r M U (used_new p) E2) in E. discriminate.
Qed.

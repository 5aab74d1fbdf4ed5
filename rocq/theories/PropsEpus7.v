(** * C159: when pore groups drain and fill, and the reference degree of saturation *)
From Coq Require Import Reals List ZArith Bool Lia Lra.
From Verif Require Import Base ConstitutiveModel SwccModel EpusModel EpusSpec EpusProofs1 EpusProofs2 PropsEpus.
Import ListNotations.
Local Open Scope R_scope.

Lemma Ok_inj {A} (a b : A) : Ok a = Ok b -> a = b. Proof. congruence. Qed.
Lemma rigid_dry p Str y s c : Pore_shape p = 0 -> ChangeSuction p Str y s = Ok c -> c = 1.
Proof.
  intros Z. unfold ChangeSuction. rewrite Z. destruct (Rleb (1 * y) s); [congruence|]. intros H. unbind H. revert H.
  match goal with |- (if ?b then _ else _) = _ -> _ => destruct b end; [congruence|]. intros H. unbind H. revert H. cbv zeta.
  match goal with |- (if ?b then _ else _) = _ -> _ => destruct b end; [congruence|]. intros H. unbind H. revert H.
  match goal with |- (if ?b then _ else _) = _ -> _ => destruct b end; [congruence|]. intros H. apply Ok_inj in H. rewrite <- H. ring.
Qed.
Lemma rigid_wet p Str y a s c : Pore_shape p = 0 -> ChangeWetSuction p Str y a s = Ok c -> c = 1.
Proof.
  intros Z. unfold ChangeWetSuction. rewrite Z. destruct (Rleb (1 * y) a); [congruence|]. intros H. unbind H. revert H.
  match goal with |- (if ?b then _ else _) = _ -> _ => destruct b end; [congruence|]. intros H. unbind H. revert H. cbv zeta.
  match goal with |- (if ?b then _ else _) = _ -> _ => destruct b end; [congruence|]. intros H. unbind H. revert H.
  match goal with |- (if ?b then _ else _) = _ -> _ => destruct b end; [congruence|]. intros H. apply Ok_inj in H. rewrite <- H. ring.
Qed.
Lemma dry_yield_filled p ref st ab q q' : dry_yield p ref st ab q = Ok q' -> Filled q' = Filled q.
Proof.
  unfold dry_yield. destruct (Z.eqb (Assumption p) 1 && Rltb 0 (Ccp q))%bool; [|intros H; injection H as <-; auto].
  intros H. unbind H. destruct (Rltb (YieldSt q) _); [unbind H|]; injection H as <-; reflexivity.
Qed.
(** Rigid pores (pore_shape = 0): a group drains exactly when the suction reaches its air entry value; on wetting it fills exactly when the
    suction comes down to its water entry value; on loading, exactly when the current suction is below that value. *)
Theorem C159_thresholds p m o o' : Pore_shape p = 0 -> call p m o = Ok o' ->
  Forall2 (fun q q' => match m with
    | Dry s => Filled q' = true <-> Filled q = true /\ s < pow10 (AEV q)
    | Wet s => Filled q' = true <-> Filled q = true \/ s <= pow10 (WEV q)
    | Load _ => Filled q' = true <-> Filled q = true \/ Suction o < pow10 (WEV q)
    | Unload _ => Filled q' = Filled q end) (pores o) (pores o').
Proof.
  intros Z. destruct m as [s|s|s|s]; cbn [call]; unfold Drying, Wetting, Loading, Unloading; intros H; unbind H; injection H as <-; cbn [pores].
  - apply mapM_Ok_Forall2 in Q0. eapply Forall2_impl; [|exact Q0]. intros q1 q2 E. unfold dry_pore in E. destruct (Filled q1) eqn:F.
    + unbind E. apply rigid_dry in Q1; auto. subst. unfold Rdiv in E at 1. rewrite Rinv_1, Rmult_1_r in E. destruct (Rleb (pow10 (AEV q1)) s) eqn:L.
      * unbind E. injection E as <-. cbn. apply Rleb_true in L. split; [discriminate|intros (_ & X); lra].
      * unbind E. injection E as <-. cbn. apply Rleb_false in L. rewrite F. split; auto.
    + injection E as <-. rewrite F. split; [discriminate|intros (X & _); discriminate].
  - apply mapM_Ok_Forall2 in Q0. eapply Forall2_impl; [|exact Q0]. intros q1 q2 E. unfold wet_pore in E. destruct (Filled q1) eqn:F; cbn [negb] in E.
    + unbind E. injection E as <-. cbn. rewrite F. tauto.
    + unbind E. apply rigid_wet in Q1; auto. subst. unfold Rdiv in E at 1. rewrite Rinv_1, Rmult_1_r in E. destruct (Rleb s (pow10 (WEV q1))) eqn:L.
      * unbind E. injection E as <-. cbn. apply Rleb_true in L. tauto.
      * apply dry_yield_filled in E. rewrite E, F. apply Rleb_false in L. split; [discriminate|intros [X|X]; [discriminate|lra]].
  - apply mapM_Ok_Forall2 in Q. eapply Forall2_impl; [|exact Q]. intros q1 q2 E. unfold load_pore in E. destruct (Filled q1) eqn:F.
    + unbind E. injection E as <-. cbn. rewrite F. tauto.
    + unbind E. apply rigid_wet in Q0; auto. subst. unfold Rdiv in E at 1. rewrite Rinv_1, Rmult_1_r in E. destruct (Rltb (Suction o) (pow10 (WEV q1))) eqn:L.
      * unbind E. injection E as <-. cbn. apply Rltb_true in L. tauto.
      * apply dry_yield_filled in E. rewrite E, F. apply Rltb_false in L. split; [discriminate|intros [X|X]; [discriminate|lra]].
  - apply mapM_Ok_Forall2 in Q. eapply Forall2_impl; [|exact Q]. intros q1 q2 E. apply unload_stepped in E. tauto.
Qed.
(** The reference degree of saturation follows the drying curve on drying from it, stays on a scanning curve until that meets the drying curve
    (it is never left above it), and the other way round on wetting. *)
Theorem C159_reference p o o' s : (Curveon o = 1 \/ Curveon o = 2 \/ Curveon o = 3)%Z ->
  (Drying p s o = Ok o' -> exists r, RfSr_dry p o s = Ok r /\ RefSr o' = (if Z.eqb (Curveon o) 1 then r else Rmin (RefSr o) r)) /\
  (Wetting p s o = Ok o' -> exists r, RfSr_wet p o s = Ok r /\ RefSr o' = (if Z.eqb (Curveon o) 3 then r else Rmax (RefSr o) r)).
Proof.
  intros Hc. split; intros H; [unfold Drying, dry_reference in H|unfold Wetting, wet_reference in H]; unbind H; injection H as <-; cbn [RefSr]; revert Q; destruct Hc as [-> |[-> | ->]]; cbn [Z.eqb Pos.eqb orb];
    intros Q; unbind Q; injection Q as <-; eexists; (split; [reflexivity|]); cbn [snd]; auto.
  all: match goal with |- context [Rleb ?u ?v] => destruct (Rleb u v) eqn:L; [apply Rleb_true in L|apply Rleb_false in L] end; cbn [snd].
  all: first [rewrite Rmin_left by lra; reflexivity|rewrite Rmin_right by lra; reflexivity|rewrite Rmax_left by lra; reflexivity|rewrite Rmax_right by lra; reflexivity].
Qed.
Print Assumptions C159_thresholds.
Print Assumptions C159_reference.

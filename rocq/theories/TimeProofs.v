(** * The time courses of Eload and EDload satisfy the modal equations *)
From Coq Require Import Reals List Arith Lia Lra Bool.
From Coquelicot Require Import Coquelicot.
From Verif Require Import Base PiecewiseModel SpectralModel SpecSpectral LoadModel SpecPiecewise SpecLoad
  PiecewiseProofs LayersProofs SpectralProofs SpectralProofs4 LoadProofs LoadProofs2 LoadProofs3 PropsLoad
  LoadTrigModel LoadTrigProofs LoadTrigProofs2 LoadTrigProofs3 PropsLoadTrig PolyLineModel SpecPolyLine SpecSpeccon SpecconModel.
Import ListNotations.
Open Scope R_scope.
Local Notation at_ := SpecPiecewise.at_.

(** ** One smooth piece *)
Lemma cont_RInt (c : R -> R) a b : (forall t, continuous c t) -> is_RInt c a b (RInt c a b).
Proof. intros C. apply (RInt_correct (V := R_CompleteNormedModule)). apply (ex_RInt_continuous (V := R_CompleteNormedModule)). auto. Qed.
Section Piece.
Variables (mu a b : R) (c e : R -> R).
Hypothesis Hmu : mu <> 0.
Hypothesis Hab : a <= b.
Hypothesis Hc : forall t, continuous c t.
Hypothesis He : forall s, a <= s <= b -> is_RInt (fun tau => c tau * exp (- (mu * (s - tau)))) a s (e s - exp (- (mu * (s - a))) * e a).

Let w (tau : R) : R := c tau * exp (mu * tau).
Let h (s : R) : R := exp (- (mu * (s - a))) * e a + exp (- (mu * s)) * RInt w a s.
Lemma w_cont : forall t, continuous w t.
Proof.
  intros t. unfold w. apply (continuous_mult (K := R_AbsRing)); auto.
  apply (ex_derive_continuous (fun tau => exp (mu * tau))). auto_derive. auto.
Qed.
Lemma e_h s : a <= s <= b -> e s = h s.
Proof.
  intros Hs. specialize (He s Hs). unfold h.
  assert (K : is_RInt (fun tau => c tau * exp (- (mu * (s - tau)))) a s (exp (- (mu * s)) * RInt w a s)).
  { eapply is_RInt_ext; [|apply (is_RInt_scal (V := R_NormedModule)); apply cont_RInt, w_cont].
    intros z _. unfold w, scal; cbn; unfold mult; cbn. replace (- (mu * (s - z))) with (- (mu * s) + mu * z) by ring. rewrite exp_plus. ring. }
  pose proof (is_RInt_unique _ _ _ _ He) as U1. pose proof (is_RInt_unique _ _ _ _ K) as U2. lra.
Qed.
Lemma h_derive s : is_derive h s (- mu * h s + c s).
Proof.
  unfold h.
  assert (D : is_derive (fun s => RInt w a s) s (w s)).
  { apply (is_derive_RInt (V := R_NormedModule) w (fun s => RInt w a s) a).
    - exists (mkposreal 1 Rlt_0_1). intros y _. apply cont_RInt, w_cont.
    - apply w_cont. }
  assert (D2 : is_derive (fun s => exp (- (mu * s))) s (- mu * exp (- (mu * s)))) by (auto_derive; [exact I|unfold one; cbn; ring]).
  assert (D1 : is_derive (fun s => exp (- (mu * (s - a))) * e a) s (- mu * exp (- (mu * (s - a))) * e a)).
  { set (ea := e a). clearbody ea. auto_derive; [exact I|]. unfold one; cbn. match goal with |- ?u = ?v => change (@eq R u v) end. replace (s + - a) with (s - a) by ring. ring. }
  pose proof (is_derive_mult (fun s => exp (- (mu * s))) (fun s => RInt w a s) s _ _ D2 D ltac:(intros; apply Rmult_comm)) as D3.
  pose proof (is_derive_plus _ _ _ _ _ D1 D3) as D4.
  eapply is_derive_ext; [|eapply (eq_ind _ (fun l => is_derive _ s l)); [exact D4|]].
  - intros t. reflexivity.
  - unfold plus, mult; cbn. unfold w. assert (X : exp (- (mu * s)) * (c s * exp (mu * s)) = c s).
    { replace (exp (- (mu * s)) * (c s * exp (mu * s))) with (c s * (exp (- (mu * s)) * exp (mu * s))) by ring.
      rewrite <- exp_plus. replace (- (mu * s) + mu * s) with 0 by ring. rewrite exp_0. ring. }
    rewrite X. ring.
Qed.
Lemma h_cont s : continuous h s.
Proof. apply (ex_derive_continuous h). exists (- mu * h s + c s). apply h_derive. Qed.
Lemma piece_mild : is_RInt e a b ((RInt c a b - (e b - e a)) / mu).
Proof.
  assert (D : is_RInt (fun s => - mu * h s + c s) a b (minus (h b) (h a))).
  { apply (is_RInt_derive h); intros; [apply h_derive|].
    apply (continuous_plus (V := R_NormedModule)); auto. apply (continuous_mult (K := R_AbsRing)); [apply continuous_const|apply h_cont]. }
  pose proof (cont_RInt c a b Hc) as C.
  pose proof (is_RInt_minus _ _ _ _ _ _ C D) as M.
  pose proof (is_RInt_scal _ _ _ (/ mu) _ M) as SM.
  eapply is_RInt_ext; [|eapply (eq_ind _ (fun l => is_RInt _ a b l)); [exact SM|]].
  - intros s Hs. rewrite Rmin_left, Rmax_right in Hs by auto. rewrite e_h by lra.
    unfold scal, minus, plus, opp, mult; cbn. unfold mult; cbn.
    match goal with |- ?u = ?v => change (@eq R u v) end. field. auto.
  - rewrite (e_h a), (e_h b) by lra. unfold scal, minus, plus, opp, mult; cbn. unfold mult; cbn.
    match goal with |- ?u = ?v => change (@eq R u v) end. field. auto.
Qed.
End Piece.

(** ** All pieces *)
Section Mild.
Variables (mu : R) (x : list R) (c : nat -> R -> R) (F e : R -> R).
Hypothesis Hmu : mu <> 0.
Hypothesis Hn : nondecr x.
Hypothesis Hl : (1 <= length x)%nat.
Hypothesis Hc : forall k t, (S k < length x)%nat -> continuous (c k) t.
Hypothesis HF : forall k t, (S k < length x)%nat -> at_ x k < t < at_ x (S k) -> F t = c k t.
Hypothesis He : forall t, is_RInt (fun tau => F tau * exp (- (mu * (t - tau)))) (at_ x 0) (until x t) (e t).
Local Notation x0 := (at_ x 0).
Lemma nondecr_le' i j : (i <= j < length x)%nat -> at_ x i <= at_ x j.
Proof. intros [Hij Hj]. induction Hij; [lra|]. apply Rle_trans with (at_ x m); [apply IHHij; lia|]. apply Hn. lia. Qed.
Lemma e_before t : t <= x0 -> e t = 0.
Proof.
  intros H. specialize (He t). unfold until in He.
  assert (E : Rmax x0 (Rmin t (at_ x (length x - 1))) = x0) by (apply Rmax_left; pose proof (Rmin_l t (at_ x (length x - 1))); lra).
  rewrite E in He. pose proof (is_RInt_unique _ _ _ _ He) as U. rewrite RInt_point in U. symmetry. exact U.
Qed.
Lemma until_in t : x0 <= t <= at_ x (length x - 1) -> until x t = t.
Proof. intros H. unfold until. rewrite Rmin_left by lra. apply Rmax_right. lra. Qed.
Lemma e_step k a s : (S k < length x)%nat -> at_ x k <= a <= s -> s <= at_ x (S k) ->
  is_RInt (fun tau => c k tau * exp (- (mu * (s - tau)))) a s (e s - exp (- (mu * (s - a))) * e a).
Proof.
  intros Hk Ha Hs.
  assert (B0 : x0 <= at_ x k) by (apply nondecr_le'; lia). assert (B1 : at_ x (S k) <= at_ x (length x - 1)) by (apply nondecr_le'; lia).
  pose proof (He s) as Es. rewrite until_in in Es by lra. pose proof (He a) as Ea. rewrite until_in in Ea by lra.
  assert (Ea' : is_RInt (fun tau => F tau * exp (- (mu * (s - tau)))) x0 a (exp (- (mu * (s - a))) * e a)).
  { eapply is_RInt_ext; [|apply (is_RInt_scal (V := R_NormedModule)); exact Ea].
    intros z _. unfold scal; cbn; unfold mult; cbn. replace (- (mu * (s - z))) with (- (mu * (s - a)) + - (mu * (a - z))) by ring. rewrite exp_plus. ring. }
  apply (is_RInt_swap (V := R_NormedModule)) in Ea'.
  pose proof (is_RInt_Chasles _ _ _ _ _ _ Ea' Es) as Ch.
  eapply is_RInt_ext; [|eapply (eq_ind _ (fun l => is_RInt _ a s l)); [exact Ch|]].
  - intros z. rewrite Rmin_left, Rmax_right by lra. intros Hz. cbn beta. rewrite (HF k z Hk) by lra. reflexivity.
  - unfold plus, opp; cbn. match goal with |- ?u = ?v => change (@eq R u v) end. ring.
Qed.
Definition good (t : R) : Prop := exists L, is_RInt F x0 t L /\ is_RInt e x0 t ((L - e t) / mu).
Lemma good_start : good x0.
Proof.
  exists 0. split; [apply (is_RInt_point (V := R_NormedModule))|]. rewrite e_before by lra.
  replace ((0 - 0) / mu) with 0 by (field; auto). apply (is_RInt_point (V := R_NormedModule)).
Qed.
Lemma good_step k b : (S k < length x)%nat -> at_ x k <= b <= at_ x (S k) -> good (at_ x k) -> good b.
Proof.
  intros Hk Hb (L & HL & HE).
  assert (PM : is_RInt e (at_ x k) b ((RInt (c k) (at_ x k) b - (e b - e (at_ x k))) / mu)).
  { apply piece_mild; auto; [lra|]. intros s Hs. apply e_step; auto; lra. }
  assert (PF : is_RInt F (at_ x k) b (RInt (c k) (at_ x k) b)).
  { eapply is_RInt_ext; [|apply cont_RInt; intros; apply Hc; auto].
    intros z. rewrite Rmin_left, Rmax_right by lra. intros Hz. symmetry. apply HF; auto. lra. }
  exists (L + RInt (c k) (at_ x k) b). split; [apply (is_RInt_Chasles F x0 (at_ x k) b); auto|].
  pose proof (is_RInt_Chasles e x0 (at_ x k) b _ _ HE PM) as Ch.
  eapply (eq_ind _ (fun l => is_RInt _ x0 b l)); [exact Ch|]. unfold plus; cbn.
  match goal with |- ?u = ?v => change (@eq R u v) end. field. auto.
Qed.
Lemma good_knots k : (k < length x)%nat -> good (at_ x k).
Proof. induction k; intros Hk; [apply good_start|]. apply (good_step k); auto. split; [apply Hn; auto|lra]. apply IHk. lia. Qed.
Lemma good_all k t : (S k < length x)%nat -> at_ x k <= t <= at_ x (S k) -> good t.
Proof. intros Hk Ht. apply (good_step k); auto. apply good_knots. lia. Qed.
End Mild.

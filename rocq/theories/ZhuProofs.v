(** * Proofs about the layer with properties varying with depth: the shapes *)
From Coq Require Import Reals List Arith ZArith Bool Lia Lra.
From Coquelicot Require Import Coquelicot.
From Verif Require Import Base RootModel ZhuModel SpecZhu TerzaghiProofs.
Import ListNotations.
Open Scope R_scope.

(** Arguments that make sense: a layer of positive thickness, whose properties vary (alpha <> 0) and stay
    positive (1 + alpha > 0), with p - q <> 2. *)
Definition sensible (A : zhu) : Prop := 0 < a_H A /\ a_alpha A <> 0 /\ 0 < 1 + a_alpha A /\ a_p A - a_q A <> 2 /\
  0 < a_kv0 A /\ 0 < a_mv0 A /\ 0 < a_gamw A.
(** The layer: kv = kv0 (1 + alpha z/H)^p, mv = mv0 (1 + alpha z/H)^q. *)
Definition the_layer (A : zhu) : layer := mkLayer (a_H A)
  (fun z => a_kv0 A * Rpower (1 + a_alpha A * z / a_H A) (a_p A) / a_gamw A)
  (fun z => a_mv0 A * Rpower (1 + a_alpha A * z / a_H A) (a_q A)).

Section Shapes.
Variable A : zhu.
Hypothesis Hg : sensible A.
Notation al := (a_alpha A). Notation p := (a_p A). Notation q := (a_q A). Notation h := (a_H A).
Notation L := (the_layer A).
Definition r : R := 1 - zn A / 2.
Definition s : R := (1 - p) / (2 - zn A).
Definition X (z : R) : R := 1 + al * z / h.
Definition E (c z : R) : R := exp (c * ln (X z)).
Definition k0 : R := a_kv0 A / a_gamw A.
Definition lam (eta : R) : R := k0 / a_mv0 A * (r * al / h)^2 * eta^2.

Lemma r_ne : r <> 0. Proof. unfold r, zn. destruct Hg as (_ & _ & _ & G & _). lra. Qed.
Lemma two_r : 2 - zn A = 2 * r. Proof. unfold r. field. Qed.
Lemma rs : 2 * (r * s) = 1 - p. Proof. unfold s. rewrite two_r. field. apply r_ne. Qed.
Lemma h_ne : h <> 0. Proof. destruct Hg; lra. Qed.
Lemma al_ne : al <> 0. Proof. destruct Hg as (_ & G & _). auto. Qed.
Lemma Xpos z : inside L z -> 0 < X z.
Proof.
  intros [Z1 Z2]. cbn in Z2. destruct Hg as (G1 & _ & G3 & _). unfold X. replace (1 + al * z / h) with ((1 + al) * (z / h) + (1 - z / h)) by (field; lra).
  assert (0 <= z / h <= 1) by (split; [apply Rdiv_le_0_compat; lra|apply Rmult_le_reg_r with h; [lra|]; unfold Rdiv; rewrite Rmult_assoc, Rinv_l; lra]).
  destruct (Req_dec (z / h) 1) as [->|N]; [lra|]. assert (0 <= (1 + al) * (z / h)) by (apply Rmult_le_pos; lra). lra.
Qed.
Lemma E_pos c z : 0 < E c z. Proof. apply exp_pos. Qed.
Lemma E_add a b z : E a z * E b z = E (a + b) z. Proof. unfold E. rewrite <- exp_plus. f_equal. ring. Qed.
Lemma E_0 z : E 0 z = 1. Proof. unfold E. rewrite Rmult_0_l. apply exp_0. Qed.
Lemma E_1 z : inside L z -> E 1 z = X z. Proof. intros Hz. unfold E. rewrite Rmult_1_l. apply exp_ln. apply Xpos; auto. Qed.
Lemma E_inv z : inside L z -> / X z = E (-1) z.
Proof. intros Hz. rewrite <- (E_1 z Hz). unfold E. rewrite <- exp_Ropp. f_equal. ring. Qed.
Lemma E_at0 c : E c 0 = 1. Proof. unfold E, X. replace (1 + al * 0 / h) with 1 by (field; apply h_ne). rewrite ln_1, Rmult_0_r. apply exp_0. Qed.
Lemma pown_E c z : pown (X z) c = E c z. Proof. reflexivity. Qed.
Lemma zy_E z : zy A z = E r z. Proof. reflexivity. Qed.
Lemma zyp_E z c : pown (zy A z) c = E (r * c) z.
Proof. rewrite zy_E. unfold pown, Rpower, E. rewrite ln_exp. f_equal. ring. Qed.
Lemma zb_E : zb A = E r h. Proof. unfold zb, E, pown, Rpower, X. replace (1 + al * h / h) with (1 + al) by (field; apply h_ne). reflexivity. Qed.
Lemma zbp_E c : pown (zb A) c = E (r * c) h. Proof. rewrite zb_E. unfold pown, Rpower, E. rewrite ln_exp. f_equal. ring. Qed.
Lemma E_der c z : inside L z -> is_derive (E c) z (c * (al / h) * E (-1) z * E c z).
Proof.
  intros Hz. pose proof (Xpos z Hz) as P. unfold E at 1. unfold X in P. unfold X. auto_derive; [exact P|].
  rewrite <- (E_inv z Hz). unfold E, X. unfold Rdiv. field. split; [apply h_ne|]. intros Q. replace (h + al * z) with (h * (1 + al * z / h)) in Q by (field; apply h_ne). apply Rmult_integral in Q. destruct Q as [Q|Q]; [exact (h_ne Q)|lra].
Qed.
Lemma top_in : inside L 0. Proof. pose proof (proj1 Hg). split; cbn; lra. Qed.
Lemma bot_in : inside L h. Proof. pose proof (proj1 Hg). split; cbn; lra. Qed.

(** A cylinder function of order nu. *)
Variables (nu eta : R) (Zf Zd : R -> R).
Hypothesis Hnu : nu^2 = s^2.
Hypothesis Heta : 0 < eta.
Hypothesis HZ : forall x, 0 < x -> is_derive Zf x (Zd x) /\ is_derive Zd x (- Zd x / x - (1 - nu^2 / x^2) * Zf x).
Definition cyl : mode := mkMode (lam eta) (fun z => E (r * s) z * Zf (eta * E r z))
  (fun z => k0 * (r * al / h) * E (- (r * s)) z * (s * Zf (eta * E r z) + eta * E r z * Zd (eta * E r z))).

Lemma arg_pos z : 0 < eta * E r z. Proof. apply Rmult_lt_0_compat; [auto|apply E_pos]. Qed.
Lemma Zf_der z : inside L z -> is_derive (fun x => Zf (eta * E r x)) z (r * (al / h) * E (-1) z * (eta * E r z) * Zd (eta * E r z)).
Proof.
  intros Hz. pose proof (E_der r z Hz) as D. destruct (HZ _ (arg_pos z)) as [D1 _].
  assert (D0 : is_derive (fun x => eta * E r x) z (eta * (r * (al / h) * E (-1) z * E r z))) by (apply (is_derive_scal (E r) z eta); exact D).
  pose proof (is_derive_comp (V := R_NormedModule) Zf (fun x => eta * E r x) z _ _ D1 D0) as C. eapply is_derive_ext_loc; [apply filter_forall; intros; reflexivity|].
  cbn in C. eapply (fun e => eq_ind _ (fun v => is_derive _ z v) C _ e). unfold scal. cbn. unfold mult. cbn. ring.
Qed.
Lemma Zd_der z : inside L z -> is_derive (fun x => Zd (eta * E r x)) z
  (r * (al / h) * E (-1) z * (- Zd (eta * E r z) - (eta * E r z - nu^2 / (eta * E r z)) * Zf (eta * E r z))).
Proof.
  intros Hz. pose proof (E_der r z Hz) as D. pose proof (arg_pos z) as P. destruct (HZ _ P) as [_ D1].
  assert (D0 : is_derive (fun x => eta * E r x) z (eta * (r * (al / h) * E (-1) z * E r z))) by (apply (is_derive_scal (E r) z eta); exact D).
  pose proof (is_derive_comp (V := R_NormedModule) Zd (fun x => eta * E r x) z _ _ D1 D0) as C.
  cbn in C. eapply (fun e => eq_ind _ (fun v => is_derive _ z v) C _ e). unfold scal. cbn. unfold mult. cbn.
  pose proof (E_pos r z) as EP. match goal with |- ?u = ?v => change (@eq R u v) end. field. repeat split; try apply h_ne; lra.
Qed.
Lemma cond_E z : cond L z = k0 * E p z.
Proof. cbn. unfold k0, E, X, Rpower. unfold Rdiv. ring. Qed.
Lemma comp_E z : comp L z = a_mv0 A * E q z. Proof. reflexivity. Qed.
Lemma k0_pos : 0 < k0. Proof. unfold k0. destruct Hg as (_ & _ & _ & _ & G1 & G2 & G3). apply Rdiv_lt_0_compat; auto. Qed.
Lemma cond_pos z : 0 < cond L z. Proof. rewrite cond_E. apply Rmult_lt_0_compat; [apply k0_pos|apply E_pos]. Qed.
Lemma comp_pos z : 0 < comp L z. Proof. rewrite comp_E. apply Rmult_lt_0_compat; [apply Hg|apply E_pos]. Qed.
Lemma lam_pos : 0 < lam eta.
Proof.
  unfold lam. apply Rmult_lt_0_compat; [|apply pow_lt; auto]. apply Rmult_lt_0_compat; [apply Rdiv_lt_0_compat; [apply k0_pos|apply Hg]|].
  apply pow2_gt_0. unfold Rdiv. apply Rmult_integral_contrapositive_currified; [apply Rmult_integral_contrapositive_currified; [apply r_ne|apply al_ne]|apply Rinv_neq_0_compat, h_ne].
Qed.
Lemma cyl_equation : mode_equation L cyl.
Proof.
  intros z Hz. cbn [shape flow rate cyl]. split.
  - pose proof (Zf_der z Hz) as D. pose proof (E_der (r * s) z Hz) as D2.
    pose proof (is_derive_mult (K := R_AbsRing) _ _ z _ _ D2 D Rmult_comm) as M. unfold mult in M. cbn in M.
    eapply (fun e => eq_ind _ (fun v => is_derive _ z v) M _ e). rewrite cond_E. set (kk := k0 * E p z). cbn. unfold kk.
    pose proof k0_pos as K. pose proof (E_pos p z) as EP.
    assert (Q : E (-1) z * E (r * s) z = E (- (r * s)) z / E p z).
    { unfold Rdiv. replace (/ E p z) with (E (- p) z) by (unfold E; rewrite <- exp_Ropp; f_equal; ring). rewrite !E_add. f_equal. pose proof rs. lra. }
    transitivity (E (-1) z * E (r * s) z * (r * al / h * (s * Zf (eta * E r z) + eta * E r z * Zd (eta * E r z)))); [match goal with |- ?u = ?v => change (@eq R u v) end; field; apply h_ne|].
    rewrite Q. field. repeat split; try apply h_ne; lra.
  - pose (zf := fun x => Zf (eta * E r x)). pose (zd := fun x => Zd (eta * E r x)). pose proof (Zf_der z Hz : is_derive zf z _) as D1. pose proof (Zd_der z Hz : is_derive zd z _) as D2. pose proof (E_der r z Hz) as D3. pose proof (E_der (- (r * s)) z Hz) as D4.
    set (Er := E r) in *. set (Es := E (- (r * s))) in *.
    assert (X1 : ex_derive zf z) by (eexists; exact D1). assert (X2 : ex_derive zd z) by (eexists; exact D2). assert (X3 : ex_derive Er z) by (eexists; exact D3). assert (X4 : ex_derive Es z) by (eexists; exact D4).
    apply (is_derive_ext (fun x => k0 * (r * al / h) * Es x * (s * zf x + eta * Er x * zd x))); [intros; reflexivity|].
    auto_derive; [tauto|]. change (fun x0 : R => zf x0) with zf. change (fun x0 : R => zd x0) with zd. change (fun x0 : R => Er x0) with Er. change (fun x0 : R => Es x0) with Es.
    rewrite (is_derive_unique _ _ _ D1), (is_derive_unique _ _ _ D2), (is_derive_unique _ _ _ D3), (is_derive_unique _ _ _ D4).
    change (Zf (eta * Er z)) with (zf z). change (Zd (eta * Er z)) with (zd z). change (Zf (eta * E r z)) with (zf z). change (Zd (eta * E r z)) with (zd z).
    rewrite comp_E. unfold lam. rewrite Hnu.
    assert (Q : E q z * E (r * s) z = E (-1) z * Es z * (Er z * Er z)). { unfold Es, Er. rewrite !E_add. f_equal. pose proof rs. unfold r, zn in *. lra. }
    pose proof (E_pos r z) as EP. fold Er in EP. pose proof (proj1 (proj2 (proj2 (proj2 (proj2 (proj2 Hg)))))) as MP.
    transitivity (- (k0 * (r * al / h)^2 * eta^2) * (E q z * E (r * s) z) * zf z); [rewrite Q|]; field; repeat split; try apply h_ne; lra.
Qed.
(** the norm *)
Definition square_prim (z : R) : R := a_mv0 A * h / (r * al) * / 2 * ((E r z * Zd (eta * E r z))^2 + ((E r z)^2 - nu^2 / eta^2) * (Zf (eta * E r z))^2).
Lemma square_der z : inside L z -> is_derive square_prim z (comp L z * (shape cyl z)^2).
Proof.
  intros Hz. pose (zf := fun x => Zf (eta * E r x)). pose (zd := fun x => Zd (eta * E r x)). pose proof (Zf_der z Hz : is_derive zf z _) as D1. pose proof (Zd_der z Hz : is_derive zd z _) as D2. pose proof (E_der r z Hz) as D3.
  cbn [shape cyl]. unfold square_prim.
  set (Er := E r) in *.
  assert (X1 : ex_derive zf z) by (eexists; exact D1). assert (X2 : ex_derive zd z) by (eexists; exact D2). assert (X3 : ex_derive Er z) by (eexists; exact D3).
  apply (is_derive_ext (fun x => a_mv0 A * h / (r * al) * / 2 * ((Er x * zd x)^2 + ((Er x)^2 - nu^2 / eta^2) * (zf x)^2))); [intros; reflexivity|].
  auto_derive; [tauto|]. change (fun x0 : R => zf x0) with zf. change (fun x0 : R => zd x0) with zd. change (fun x0 : R => Er x0) with Er.
  rewrite (is_derive_unique _ _ _ D1), (is_derive_unique _ _ _ D2), (is_derive_unique _ _ _ D3).
  change (Zf (eta * Er z)) with (zf z). change (Zd (eta * Er z)) with (zd z). change (Zf (eta * E r z)) with (zf z). change (Zd (eta * E r z)) with (zd z).
  rewrite comp_E.
  assert (Q : E q z * (E (r * s) z * E (r * s) z) = E (-1) z * (Er z * Er z)). { unfold Er. rewrite !E_add. f_equal. pose proof rs. unfold r, zn in *. lra. }
  pose proof (E_pos r z) as EP. fold Er in EP.
  transitivity (a_mv0 A * (E q z * (E (r * s) z * E (r * s) z)) * (zf z)^2); [rewrite Q|]; field; repeat split; try apply h_ne; try apply r_ne; try apply al_ne; lra.
Qed.
End Shapes.

(** * How far the np.isclose shortcuts are from the exact value; overlapping zones. *)
From Coq Require Import Reals List Lra Lia Bool.
From Coquelicot Require Import Coquelicot.
From Verif Require Import Base SmearModel SpecSmear SmearProofs SmearProofs2 SmearProofs3
  SmearProofs4 SmearProofs5.
Import ListNotations.
Local Open Scope R_scope.

Lemma isclose_le a b : isclose a b = true ->
  Rabs (a - b) <= / 100000000 + / 100000 * Rabs b.
Proof. unfold isclose. apply Rleb_true. Qed.
Lemma isclose_gt a b : isclose a b = false ->
  / 100000000 + / 100000 * Rabs b < Rabs (a - b).
Proof. unfold isclose. apply Rleb_false. Qed.
Lemma isclose1 a : isclose a 1 = true -> Rabs (a - 1) <= 1001 / 100000000.
Proof. intros H. apply isclose_le in H. rewrite Rabs_R1 in H. lra. Qed.
Lemma isclose1f a : isclose a 1 = false -> 1001 / 100000000 < Rabs (a - 1).
Proof. intros H. apply isclose_gt in H. rewrite Rabs_R1 in H. lra. Qed.

(** Relative bound on the resistances gives the same relative bound on mu. *)
Lemma is_mu_rel n k1 k2 m1 m2 e :
  1 < n -> (forall x, 1 < x < n -> Rabs (/ k1 x - / k2 x) <= e * / k1 x) ->
  is_mu n k1 m1 -> is_mu n k2 m2 -> Rabs (m1 - m2) <= e * m1.
Proof.
  intros Hn Hk H1 H2. unfold is_mu in *.
  assert (P : 0 < n^2 - 1) by nra.
  pose proof (is_RInt_scal (V := R_NormedModule) _ _ _ (1 - e) _ H1) as L1.
  pose proof (is_RInt_scal (V := R_NormedModule) _ _ _ (1 + e) _ H1) as L2.
  assert (A1 : (1 - e) * (m1 * (n^2 - 1)) <= m2 * (n^2 - 1)).
  { apply (is_RInt_le _ _ 1 n _ _ ltac:(lra) L1 H2). intros x Hx.
    unfold scal; cbn -[pow]; unfold mult; cbn -[pow].
    specialize (Hk x Hx). apply Rabs_le_between in Hk.
    rewrite <- Rmult_assoc. apply Rmult_le_compat_r; [apply ww_pos; lra|lra]. }
  assert (A2 : m2 * (n^2 - 1) <= (1 + e) * (m1 * (n^2 - 1))).
  { apply (is_RInt_le _ _ 1 n _ _ ltac:(lra) H2 L2). intros x Hx.
    unfold scal; cbn -[pow]; unfold mult; cbn -[pow].
    specialize (Hk x Hx). apply Rabs_le_between in Hk.
    rewrite <- Rmult_assoc. apply Rmult_le_compat_r; [apply ww_pos; lra|lra]. }
  apply Rabs_le_between. split; nra.
Qed.

Lemma ww_le1 n x : 1 < n -> 1 <= x <= n -> ww n x <= (n^2 - 1)^2 / n^2.
Proof.
  intros Hn Hx. unfold ww. unfold Rdiv. rewrite Rinv_mult, <- Rmult_assoc.
  assert (0 < / n^2) by (apply Rinv_0_lt_compat; nra).
  assert (0 <= (n^2 - x^2) <= n^2 - 1) by nra.
  assert (0 < / x <= 1).
  { split; [apply Rinv_0_lt_compat; lra|]. rewrite <- Rinv_1. apply Rinv_le_contravar; lra. }
  assert ((n^2 - x^2)^2 <= (n^2 - 1)^2) by nra.
  assert (0 <= (n ^ 2 - x ^ 2) ^ 2 * / n ^ 2) by (apply Rmult_le_pos; nra).
  apply Rle_trans with ((n ^ 2 - x ^ 2) ^ 2 * / n ^ 2); [nra|].
  apply Rmult_le_compat_r; lra.
Qed.

(** A disturbance confined to [1,s] changes mu by at most D * (s-1). *)
Lemma is_mu_near n s k1 k2 m1 m2 D :
  1 < n -> 1 <= s <= n -> 0 <= D ->
  (forall x, 1 < x < s -> Rabs (/ k1 x - / k2 x) <= D) ->
  (forall x, s < x < n -> k1 x = k2 x) ->
  is_mu n k1 m1 -> is_mu n k2 m2 -> Rabs (m1 - m2) <= D * (s - 1).
Proof.
  intros Hn Hs HD H1 H2 I1 I2. unfold is_mu in *.
  assert (P : 0 < n^2 - 1) by nra.
  pose proof (is_RInt_minus (V := R_NormedModule) _ _ _ _ _ _ I1 I2) as Id.
  set (W := (n^2 - 1)^2 / n^2) in *.
  assert (W0 : 0 <= W <= n^2 - 1).
  { unfold W. split; [apply Rle_mult_inv_pos; nra|].
    apply Rmult_le_reg_r with (n^2); [nra|]. unfold Rdiv. rewrite Rmult_assoc, Rinv_l by nra. nra. }
  assert (B : forall c, is_RInt (fun x => if Rlt_dec x s then c else 0) 1 n (c * (s - 1))).
  { intros c. eapply is_RInt_val.
    - apply (is_RInt_Chasles (V := R_NormedModule)) with s.
      + eapply is_RInt_ext; [|apply (is_RInt_const (V := R_NormedModule) 1 s c)].
        intros x Hx. rewrite Rmin_left, Rmax_right in Hx by lra.
        destruct (Rlt_dec x s); [reflexivity|lra].
      + eapply is_RInt_ext; [|apply (is_RInt_const (V := R_NormedModule) s n 0)].
        intros x Hx. rewrite Rmin_left, Rmax_right in Hx by lra.
        destruct (Rlt_dec x s); [lra|reflexivity].
    - unfold plus, scal; cbn; unfold mult; cbn. ring. }
  assert (Q : forall x, 1 < x < n -> x <> s ->
     Rabs (/ k1 x * ((n^2 - x^2)^2 / (n^2 * x)) - / k2 x * ((n^2 - x^2)^2 / (n^2 * x)))
     <= if Rlt_dec x s then D * W else 0).
  { intros x Hx Hne. rewrite <- Rmult_minus_distr_r, Rabs_mult.
    fold (ww n x). rewrite (Rabs_right (ww n x)) by (apply Rle_ge, ww_pos; lra).
    destruct (Rlt_dec x s).
    - apply Rmult_le_compat; [apply Rabs_pos|apply ww_pos; lra|apply H1; lra|apply ww_le1; lra].
    - rewrite H2 by lra. rewrite Rminus_diag_eq, Rabs_R0 by auto. lra. }
  (* the value at the single point x = s is irrelevant *)
  set (f := fun x => if Req_EM_T x s then 0 else
      / k1 x * ((n^2 - x^2)^2 / (n^2 * x)) - / k2 x * ((n^2 - x^2)^2 / (n^2 * x))).
  assert (If : is_RInt f 1 n (m1 * (n^2 - 1) - m2 * (n^2 - 1))).
  { assert (X1 : ex_RInt (fun x => minus (/ k1 x * ((n ^ 2 - x ^ 2) ^ 2 / (n ^ 2 * x)))
         (/ k2 x * ((n ^ 2 - x ^ 2) ^ 2 / (n ^ 2 * x)))) 1 s).
    { apply (ex_RInt_Chasles_1 (V := R_CompleteNormedModule)) with n; [lra|]. eexists; exact Id. }
    assert (X2 : ex_RInt (fun x => minus (/ k1 x * ((n ^ 2 - x ^ 2) ^ 2 / (n ^ 2 * x)))
         (/ k2 x * ((n ^ 2 - x ^ 2) ^ 2 / (n ^ 2 * x)))) s n).
    { apply (ex_RInt_Chasles_2 (V := R_CompleteNormedModule)) with 1; [lra|]. eexists; exact Id. }
    destruct X1 as [v1 V1], X2 as [v2 V2].
    pose proof (is_RInt_Chasles (V := R_NormedModule) _ _ _ _ _ _ V1 V2) as V.
    assert (Ev : plus v1 v2 = minus (m1 * (n^2 - 1)) (m2 * (n^2 - 1))).
    { rewrite <- (is_RInt_unique (V := R_CompleteNormedModule) _ _ _ _ V).
      apply (is_RInt_unique (V := R_CompleteNormedModule) _ _ _ _ Id). }
    eapply is_RInt_val.
    - apply (is_RInt_Chasles (V := R_NormedModule)) with s.
      + eapply is_RInt_ext; [|exact V1]. intros x Hx.
        rewrite Rmin_left, Rmax_right in Hx by lra. unfold f.
        destruct (Req_EM_T x s); [lra|]. reflexivity.
      + eapply is_RInt_ext; [|exact V2]. intros x Hx.
        rewrite Rmin_left, Rmax_right in Hx by lra. unfold f.
        destruct (Req_EM_T x s); [lra|]. reflexivity.
    - exact Ev. }
  assert (Qf : forall x, 1 < x < n -> Rabs (f x) <= if Rlt_dec x s then D * W else 0).
  { intros x Hx. unfold f. destruct (Req_EM_T x s) as [->|Hne]; [|apply Q; auto].
    rewrite Rabs_R0. destruct (Rlt_dec s s); nra. }
  assert (U : m1 * (n^2 - 1) - m2 * (n^2 - 1) <= D * W * (s - 1)).
  { apply (is_RInt_le _ _ 1 n _ _ ltac:(lra) If (B (D * W))). intros x Hx.
    specialize (Qf x Hx). apply Rabs_le_between in Qf. cbv beta; destruct (Rlt_dec x s); lra. }
  assert (Lo : - (D * W) * (s - 1) <= m1 * (n^2 - 1) - m2 * (n^2 - 1)).
  { apply (is_RInt_le _ _ 1 n _ _ ltac:(lra) (B (- (D * W))) If). intros x Hx.
    specialize (Qf x Hx). apply Rabs_le_between in Qf. destruct (Rlt_dec x s); lra. }
  assert (V : D * W * (s - 1) <= D * (s - 1) * (n^2 - 1)).
  { replace (D * W * (s - 1)) with (D * (s - 1) * W) by ring.
    apply Rmult_le_compat_l; [|lra]. apply Rmult_le_pos; lra. }
  apply Rabs_le_between. split; nra.
Qed.

(** ** The linear profile *)
Lemma k_lin_form s kap x : 1 < s -> 0 < kap -> x < s ->
  k_lin s kap x = ((kap - 1) / (s - 1) * x + (s - kap) / (s - 1)) / kap.
Proof.
  intros Hs Hk Hx. unfold k_lin. destruct (Rlt_dec x s); [|lra]. field. lra.
Qed.
Lemma k_lin_out s kap x : s <= x -> k_lin s kap x = 1.
Proof. intros. unfold k_lin. destruct (Rlt_dec x s); [lra|auto]. Qed.

Lemma k_lin_between s kap x : 1 < s -> 0 < kap -> 1 <= x <= s ->
  Rmin 1 kap <= / k_lin s kap x <= Rmax 1 kap.
Proof.
  intros Hs Hk Hx. destruct (Req_dec x s) as [->|Hne].
  { rewrite k_lin_out by lra. rewrite Rinv_1. split; [apply Rmin_l|apply Rmax_l]. }
  rewrite k_lin_form by lra. set (t := (kap - 1) / (s - 1) * x + (s - kap) / (s - 1)).
  assert (Et : t = 1 + (kap - 1) * ((x - 1) / (s - 1))) by (unfold t; field; lra).
  assert (Hr : 0 <= (x - 1) / (s - 1) <= 1).
  { split; [apply Rle_mult_inv_pos; lra|]. apply Rmult_le_reg_r with (s - 1); [lra|].
    unfold Rdiv. rewrite Rmult_assoc, Rinv_l by lra. lra. }
  set (r := (x - 1) / (s - 1)) in *. clearbody t r.
  assert (Pt : 0 < t) by nra.
  replace (/ (t / kap)) with (kap * / t) by (field; lra).
  assert (It : t * / t = 1) by (apply Rinv_r; lra).
  assert (Pi : 0 < / t) by (apply Rinv_0_lt_compat; auto).
  unfold Rmin, Rmax. destruct (Rle_dec 1 kap); split.
  - assert (t <= kap) by nra. nra.
  - assert (1 <= t) by nra. nra.
  - assert (t <= 1) by nra. nra.
  - assert (kap <= t) by nra. nra.
Qed.

Lemma k_lin_pos s kap x : 1 < s -> 0 < kap -> 1 <= x -> 0 < k_lin s kap x.
Proof.
  intros Hs Hk Hx. destruct (Rle_dec s x); [rewrite k_lin_out by auto; lra|].
  pose proof (k_lin_between s kap x Hs Hk ltac:(lra)) as [B _].
  assert (0 < Rmin 1 kap) by (apply Rmin_pos; lra).
  rewrite <- (Rinv_inv (k_lin s kap x)). apply Rinv_0_lt_compat. lra.
Qed.

Lemma mu_lin_exists n s kap : 1 < n -> 1 <= s <= n -> 0 < kap ->
  exists mu, is_mu n (k_lin s kap) mu.
Proof.
  intros Hn Hs Hk.
  destruct (Req_dec s 1) as [->|H1].
  { exists (mu_ideal_elem n). eapply good_mu; [|reflexivity].
    apply (good_ideal n [] (fun x => / k_lin 1 kap x) Hn).
    intros x Hx. rewrite k_lin_out by lra. apply Rinv_1. }
  destruct (Req_dec kap 1) as [->|H2].
  { exists (mu_ideal_elem n). eapply good_mu; [|reflexivity].
    apply (good_ideal n [] (fun x => / k_lin s 1 x) Hn).
    intros x Hx. unfold k_lin. destruct (Rlt_dec x s); rewrite ?Rinv_1; auto.
    rewrite Rminus_diag_eq by auto. rewrite Rmult_0_l, Rplus_0_r. apply Rinv_1. }
  assert (Hs1 : 1 < s) by (apply Rnot_le_lt; intros ?; apply H1; lra).
  assert (Out : good n [s] (fun x => / k_lin s kap x) (fun x => 1 * phi_c n x + 0) s n (1 * L_c n n - 1 * L_c n s)).
  { apply piece_c with 1 0; auto; try lra.
    intros x Hx. rewrite k_lin_out by lra. apply Rinv_1. }
  assert (P1 : n^2 - 1 <> 0) by (apply n2; auto).
  destruct (Req_dec s kap) as [->|H3].
  - assert (In_ : good n [kap] (fun x => / k_lin kap kap x) (fun x => kap * phi_i n x + 0) 1 kap
       (kap * L_i n kap - kap * L_i n 1)).
    { apply piece_i with kap 0; auto; try lra.
      intros x Hx. rewrite k_lin_form by lra.
      replace ((kap - 1) / (kap - 1) * x + (kap - kap) / (kap - 1)) with x by (field; lra).
      field. lra. }
    destruct In_ as [_ _ I1 _], Out as [_ _ I2 _].
    eexists. unfold is_mu. eapply is_RInt_val.
    { apply (is_RInt_Chasles (V := R_NormedModule)) with kap; [exact I1|exact I2]. }
    match goal with |- ?v = _ => instantiate (1 := v / (n^2 - 1)) end.
    unfold Rdiv. rewrite Rmult_assoc, Rinv_l, Rmult_1_r; auto.
  - set (A := (kap - 1) / (s - 1)). set (B := (s - kap) / (s - 1)).
    assert (HA : A <> 0).
    { unfold A, Rdiv. apply Rmult_integral_contrapositive; split; [lra|].
      apply Rinv_neq_0_compat; lra. }
    assert (HB : B <> 0).
    { unfold B, Rdiv. apply Rmult_integral_contrapositive; split; [lra|].
      apply Rinv_neq_0_compat; lra. }
    assert (E1 : A * 1 + B = 1) by (unfold A, B; field; lra).
    assert (Es : A * s + B = kap) by (unfold A, B; field; lra).
    assert (In_ : good n [s] (fun x => / k_lin s kap x) (fun x => kap * phi_l n A B x + 0) 1 s
       (kap * L_l n A B s - kap * L_l n A B 1)).
    { apply piece_l with A B kap 0; auto; try lra.
      intros x Hx. rewrite k_lin_form by lra. fold A B.
      assert (0 < A * x + B) by (destruct (Rle_dec 0 A); nra). field. lra. }
    destruct In_ as [_ _ I1 _], Out as [_ _ I2 _].
    eexists. unfold is_mu. eapply is_RInt_val.
    { apply (is_RInt_Chasles (V := R_NormedModule)) with s; [exact I1|exact I2]. }
    match goal with |- ?v = _ => instantiate (1 := v / (n^2 - 1)) end.
    unfold Rdiv. rewrite Rmult_assoc, Rinv_l, Rmult_1_r; auto.
Qed.

Lemma is_mu_ideal n k : 1 < n -> (forall x, 1 < x < n -> k x = 1) -> is_mu n k (mu_ideal_elem n).
Proof.
  intros Hn Hk. eapply good_mu; [|reflexivity].
  apply (good_ideal n [] (fun x => / k x) Hn). intros x Hx. rewrite Hk by auto. apply Rinv_1.
Qed.

(** Exactness of the three formulas of mu_linear where they are used exactly. *)
Lemma mu_linear_elem_exact n s kap : 1 < n -> 1 <= s <= n -> 0 < kap ->
  (s = 1 \/ isclose s 1 = false) -> (kap = 1 \/ isclose kap 1 = false) ->
  (s = kap \/ isclose s kap = false) ->
  is_mu n (k_lin s kap) (mu_linear_elem n s kap).
Proof.
  intros Hn Hs Hk C1 C2 C3. unfold mu_linear_elem.
  destruct C1 as [->|C1].
  { rewrite isclose_refl by auto. cbn [orb]. apply is_mu_ideal; auto.
    intros x Hx. apply k_lin_out; lra. }
  destruct C2 as [->|C2].
  { rewrite (isclose_refl 1 1), orb_true_r by auto. apply is_mu_ideal; auto.
    intros x Hx. unfold k_lin. destruct (Rlt_dec x s); auto.
    rewrite Rinv_1, Rminus_diag_eq by auto. ring. }
  rewrite C1, C2. cbn [orb].
  assert (s <> 1) by (intros ->; rewrite isclose_refl in C1; auto; discriminate).
  assert (Hs1 : 1 < s) by (apply Rnot_le_lt; intros ?; apply H; lra).
  assert (kap <> 1) by (intros ->; rewrite isclose_refl in C2; auto; discriminate).
  destruct C3 as [E|C3].
  - rewrite isclose_refl by auto. eapply good_mu; [|reflexivity].
    apply (good_linear_eq n s kap); auto; try lra; [| |apply isclose_refl; auto].
    + intros x Hx. rewrite k_lin_form by lra. subst kap.
      replace ((s - 1) / (s - 1) * x + (s - s) / (s - 1)) with x by (field; lra). field. lra.
    + intros x Hx. rewrite k_lin_out by lra. apply Rinv_1.
  - rewrite C3. assert (s <> kap) by (intros E; rewrite isclose_refl in C3; auto; discriminate).
    eapply good_mu; [|reflexivity].
    apply (good_linear_neq n s kap); auto; try lra.
    + intros x Hx. rewrite k_lin_form by lra.
      set (t := (kap - 1) / (s - 1) * x + (s - kap) / (s - 1)).
      assert (0 < t).
      { pose proof (k_lin_pos s kap x ltac:(lra) Hk ltac:(lra)) as P.
        rewrite k_lin_form in P by lra. fold t in P.
        replace t with (t / kap * kap) by (field; lra). apply Rmult_lt_0_compat; auto. }
      field. lra.
    + intros x Hx. rewrite k_lin_out by lra. apply Rinv_1.
Qed.

(** Shortcut errors: ideal formula used although s or kap is only close to 1. *)
Lemma ideal_shortcut n s kap k mu : 1 < n -> 1 <= s <= n -> 0 < kap ->
  (forall x, 1 < x < s -> Rmin 1 kap <= / k x <= Rmax 1 kap) ->
  (forall x, s < x < n -> k x = 1) ->
  isclose s 1 = true \/ isclose kap 1 = true ->
  is_mu n k mu ->
  Rabs (mu_ideal_elem n - mu) <= 2 / 100000 * (mu + Rabs (kap - 1)).
Proof.
  intros Hn Hs Hkp Hk1 Hk2 HC Hmu.
  pose proof (is_mu_ideal n (fun _ => 1) Hn ltac:(auto)) as Hi.
  assert (M0 : 0 <= mu).
  { assert (Hm : forall x, 1 < x < n -> x <> s -> 0 < k x).
    { intros x Hx Hne. destruct (Rlt_dec x s).
      - destruct (Hk1 x ltac:(lra)) as [L _]. assert (0 < Rmin 1 kap) by (apply Rmin_pos; lra).
        rewrite <- (Rinv_inv (k x)). apply Rinv_0_lt_compat; lra.
      - rewrite Hk2 by lra. lra. }
    (* change k at s *)
    set (k' := fun x => if Req_EM_T x s then 1 else k x).
    assert (is_mu n k' mu).
    { unfold is_mu in *.
      assert (X1 : ex_RInt (fun x => / k x * ((n ^ 2 - x ^ 2) ^ 2 / (n ^ 2 * x))) 1 s).
      { apply (ex_RInt_Chasles_1 (V := R_CompleteNormedModule)) with n; [lra|]. eexists; exact Hmu. }
      assert (X2 : ex_RInt (fun x => / k x * ((n ^ 2 - x ^ 2) ^ 2 / (n ^ 2 * x))) s n).
      { apply (ex_RInt_Chasles_2 (V := R_CompleteNormedModule)) with 1; [lra|]. eexists; exact Hmu. }
      destruct X1 as [v1 V1], X2 as [v2 V2].
      pose proof (is_RInt_Chasles (V := R_NormedModule) _ _ _ _ _ _ V1 V2) as V.
      assert (Ev : plus v1 v2 = mu * (n^2 - 1)).
      { rewrite <- (is_RInt_unique (V := R_CompleteNormedModule) _ _ _ _ V).
        apply (is_RInt_unique (V := R_CompleteNormedModule) _ _ _ _ Hmu). }
      eapply is_RInt_val; [|exact Ev].
      apply (is_RInt_Chasles (V := R_NormedModule)) with s.
      - eapply is_RInt_ext; [|exact V1]. intros x Hx.
        rewrite Rmin_left, Rmax_right in Hx by lra. unfold k'.
        destruct (Req_EM_T x s); [lra|]. reflexivity.
      - eapply is_RInt_ext; [|exact V2]. intros x Hx.
        rewrite Rmin_left, Rmax_right in Hx by lra. unfold k'.
        destruct (Req_EM_T x s); [lra|]. reflexivity. }
    apply (is_mu_pos n k'); auto. intros x Hx. unfold k'.
    destruct (Req_EM_T x s); [lra|apply Hm; auto]. }
  assert (Q : forall x, 1 < x < s -> Rabs (/ k x - / 1) <= Rabs (kap - 1)).
  { intros x Hx. specialize (Hk1 x Hx). rewrite Rinv_1.
    unfold Rmin, Rmax in Hk1. destruct (Rle_dec 1 kap).
    - rewrite !Rabs_right by lra. lra.
    - rewrite !Rabs_left1 by lra. lra. }
  destruct HC as [HC|HC]; apply isclose1 in HC.
  - pose proof (is_mu_near n s k (fun _ => 1) mu (mu_ideal_elem n) (Rabs (kap - 1))
      Hn Hs (Rabs_pos _) Q Hk2 Hmu Hi) as E.
    rewrite Rabs_minus_sym in E. rewrite (Rabs_right (s - 1)) in HC by lra.
    pose proof (Rabs_pos (kap - 1)).
    apply Rle_trans with (Rabs (kap - 1) * (s - 1)); auto. nra.
  - (* near kap = 1: compare with the constant extremes *)
    pose proof (Rabs_pos (kap - 1)) as P0.
    set (e := Rabs (kap - 1)) in *.
    pose proof (is_mu_near n n k (fun _ => 1) mu (mu_ideal_elem n) e Hn ltac:(lra) P0) as E.
    assert (Rel : Rabs (mu_ideal_elem n - mu) <= e * mu_ideal_elem n).
    { assert (Q2 : forall x, 1 < x < n -> x <> s -> Rabs (/ 1 - / k x) <= e * / 1).
      { intros x Hx Hne. rewrite Rabs_minus_sym, Rinv_1, Rmult_1_r. rewrite <- Rinv_1 at 1.
        destruct (Rlt_dec x s); [apply Q; lra|]. rewrite Hk2 by lra.
        rewrite Rminus_diag_eq, Rabs_R0; auto. }
      set (k' := fun x => if Req_EM_T x s then 1 else k x).
      assert (Hmu' : is_mu n k' mu).
      { unfold is_mu in *.
      assert (X1 : ex_RInt (fun x => / k x * ((n ^ 2 - x ^ 2) ^ 2 / (n ^ 2 * x))) 1 s).
      { apply (ex_RInt_Chasles_1 (V := R_CompleteNormedModule)) with n; [lra|]. eexists; exact Hmu. }
      assert (X2 : ex_RInt (fun x => / k x * ((n ^ 2 - x ^ 2) ^ 2 / (n ^ 2 * x))) s n).
      { apply (ex_RInt_Chasles_2 (V := R_CompleteNormedModule)) with 1; [lra|]. eexists; exact Hmu. }
      destruct X1 as [v1 V1], X2 as [v2 V2].
      pose proof (is_RInt_Chasles (V := R_NormedModule) _ _ _ _ _ _ V1 V2) as V.
      assert (Ev : plus v1 v2 = mu * (n^2 - 1)).
      { rewrite <- (is_RInt_unique (V := R_CompleteNormedModule) _ _ _ _ V).
        apply (is_RInt_unique (V := R_CompleteNormedModule) _ _ _ _ Hmu). }
      eapply is_RInt_val; [|exact Ev].
      apply (is_RInt_Chasles (V := R_NormedModule)) with s.
      - eapply is_RInt_ext; [|exact V1]. intros x Hx.
        rewrite Rmin_left, Rmax_right in Hx by lra. unfold k'.
        destruct (Req_EM_T x s); [lra|]. reflexivity.
      - eapply is_RInt_ext; [|exact V2]. intros x Hx.
        rewrite Rmin_left, Rmax_right in Hx by lra. unfold k'.
        destruct (Req_EM_T x s); [lra|]. reflexivity. }
      apply (is_mu_rel n (fun _ => 1) k' _ _ e Hn); auto.
      intros x Hx. unfold k'. destruct (Req_EM_T x s); [|apply Q2; auto].
      rewrite Rminus_diag_eq, Rabs_R0 by auto. rewrite Rinv_1. lra. }
    assert (Pi : 0 <= mu_ideal_elem n).
    { apply (is_mu_pos n (fun _ => 1)); auto. intros; lra. }
    assert (Le : mu_ideal_elem n <= mu + e * mu_ideal_elem n).
    { apply Rabs_le_between in Rel. lra. }
    apply Rle_trans with (e * mu_ideal_elem n); auto. nra.
Qed.

Lemma mu_linear_elem_close n s kap mu : 1 < n -> 1 <= s <= n -> 0 < kap ->
  is_mu n (k_lin s kap) mu ->
  Rabs (mu_linear_elem n s kap - mu) <= 2 / 100000 * (mu + Rabs (kap - 1)).
Proof.
  intros Hn Hs Hk Hmu. unfold mu_linear_elem.
  destruct (isclose s 1 || isclose kap 1) eqn:Ei.
  { apply orb_prop in Ei. destruct (Req_dec s 1) as [E|E].
    - assert (mu = mu_ideal_elem n).
      { apply (is_mu_unique n (k_lin s kap)); auto. apply is_mu_ideal; auto.
        intros x Hx. apply k_lin_out; lra. }
      rewrite H, Rminus_diag_eq, Rabs_R0 by auto.
      assert (0 <= mu_ideal_elem n).
      { apply (is_mu_pos n (fun _ => 1)); auto; [intros; lra|apply is_mu_ideal; auto]. }
      pose proof (Rabs_pos (kap - 1)). lra.
    - assert (Hs1 : 1 < s) by (apply Rnot_le_lt; intros ?; apply E; lra).
      apply (ideal_shortcut n s kap (k_lin s kap)); auto.
      + intros x Hx. apply k_lin_between; lra.
      + intros x Hx. apply k_lin_out; lra. }
  apply orb_false_elim in Ei. destruct Ei as [E1 E2].
  pose proof (isclose1f _ E1) as G1. pose proof (isclose1f _ E2) as G2.
  rewrite (Rabs_right (s - 1)) in G1 by lra.
  assert (M0 : 0 <= mu).
  { apply (is_mu_pos n (k_lin s kap)); auto. intros x Hx. apply k_lin_pos; lra. }
  pose proof (Rabs_pos (kap - 1)) as P0.
  destruct (isclose s kap) eqn:E3.
  - (* compare with the profile s/x *)
    pose proof (isclose_le _ _ E3) as G3. rewrite (Rabs_right kap) in G3 by lra.
    assert (Hk1 : 1 < kap).
    { destruct (Rlt_dec 1 kap); auto. exfalso. rewrite Rabs_right in G3 by lra. lra. }
    assert (Hs1 : 1 < s) by lra.
    assert (Hex : is_mu n (k_lin s s) (mu_s_eq_kap n s)).
    { eapply good_mu; [|reflexivity].
      apply (good_linear_eq n s s); auto; try lra; [| |apply isclose_refl; auto].
      + intros x Hx. rewrite k_lin_form by lra.
        replace ((s - 1) / (s - 1) * x + (s - s) / (s - 1)) with x by (field; lra). field. lra.
      + intros x Hx. rewrite k_lin_out by lra. apply Rinv_1. }
    assert (R : Rabs (mu - mu_s_eq_kap n s) <= 1001 / 100000000 * mu).
    { apply (is_mu_rel n (k_lin s kap) (k_lin s s)); auto.
      intros x Hx. destruct (Rle_dec s x).
      { rewrite !k_lin_out, Rminus_diag_eq, Rabs_R0 by auto. rewrite Rinv_1; lra. }
      pose proof (k_lin_pos s kap x Hs1 Hk ltac:(lra)) as Pk.
      rewrite k_lin_form in Pk by lra. rewrite !k_lin_form by lra.
      set (t := (kap - 1) / (s - 1) * x + (s - kap) / (s - 1)) in *.
      assert (Pt : 0 < t).
      { replace t with (t / kap * kap) by (field; lra). apply Rmult_lt_0_compat; auto. }
      replace (/ (t / kap) - / (((s - 1) / (s - 1) * x + (s - s) / (s - 1)) / s))
        with (((s - kap) / kap * ((x - s) / ((s - 1) * x))) * / (t / kap)).
      2:{ replace ((s - 1) / (s - 1) * x + (s - s) / (s - 1)) with x by (field; lra).
          assert (E : kap * x - s * t = (s - kap) * (x - s) / (s - 1)) by (unfold t; field; lra).
          clearbody t.
          replace ((s - kap) / kap * ((x - s) / ((s - 1) * x)) * / (t / kap))
            with (((s - kap) * (x - s) / (s - 1)) * / (x * t)) by (field; lra).
          rewrite <- E. field. lra. }
      rewrite Rabs_mult.
      assert (Pik : 0 < / (t / kap)) by (apply Rinv_0_lt_compat; auto).
      rewrite (Rabs_right (/ (t / kap))) by lra.
      apply Rmult_le_compat_r; [lra|].
      rewrite Rabs_mult.
      assert (B1 : Rabs ((s - kap) / kap) <= 1001 / 100000000).
      { unfold Rdiv at 1. rewrite Rabs_mult, (Rabs_right (/ kap)).
        2:{ apply Rle_ge; left; apply Rinv_0_lt_compat; lra. }
        apply Rmult_le_reg_r with kap; [lra|]. rewrite Rmult_assoc, Rinv_l by lra. lra. }
      assert (B2 : Rabs ((x - s) / ((s - 1) * x)) <= 1).
      { assert (0 < (s - 1) * x) by (apply Rmult_lt_0_compat; lra).
        unfold Rdiv. rewrite Rabs_mult, (Rabs_right (/ ((s - 1) * x))).
        2:{ apply Rle_ge; left; apply Rinv_0_lt_compat; lra. }
        rewrite Rabs_left1 by lra.
        apply Rmult_le_reg_r with ((s - 1) * x); [lra|]. rewrite Rmult_assoc, Rinv_l by lra. nra. }
      pose proof (Rabs_pos ((s - kap) / kap)). pose proof (Rabs_pos ((x - s) / ((s - 1) * x))).
      nra. }
    rewrite Rabs_minus_sym. nra.
  - assert (Ee : mu = mu_s_neq_kap n s kap).
    { apply (is_mu_unique n (k_lin s kap)); auto.
      pose proof (mu_linear_elem_exact n s kap Hn Hs Hk (or_intror E1) (or_intror E2) (or_intror E3)) as X.
      unfold mu_linear_elem in X. rewrite E1, E2, E3 in X. exact X. }
    rewrite <- Ee, Rminus_diag_eq, Rabs_R0 by auto. nra.
Qed.

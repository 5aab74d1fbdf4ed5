(** * Positivity of mu, parabolic and overlapping profiles. *)
From Coq Require Import Reals List Lra Lia Bool.
From Coquelicot Require Import Coquelicot.
From Verif Require Import Base SmearModel SpecSmear SmearProofs SmearProofs2 SmearProofs3
  SmearProofs4 SmearProofs5 SmearProofs6.
Import ListNotations.
Local Open Scope R_scope.

Lemma mu_ideal_pos n : 1 < n -> 0 < mu_ideal_elem n.
Proof.
  intros Hn. pose proof (is_mu_ideal n (fun _ => 1) Hn ltac:(auto)) as H. unfold is_mu in H.
  assert (P : 0 < mu_ideal_elem n * (n^2 - 1)).
  { rewrite <- (is_RInt_unique (V := R_CompleteNormedModule) _ _ _ _ H).
    apply RInt_gt_0; auto.
    - intros x Hx. rewrite Rinv_1, Rmult_1_l. apply Rdiv_lt_0_compat; [|nra].
      assert (0 < n^2 - x^2) by nra. nra.
    - intros x Hx.
      apply (ex_derive_continuous (fun x => / 1 * ((n ^ 2 - x ^ 2) ^ 2 / (n ^ 2 * x)))).
      auto_derive. apply Rmult_integral_contrapositive; split; nra. }
  assert (0 < n^2 - 1) by nra.
  destruct (Rlt_dec 0 (mu_ideal_elem n)); auto. nra.
Qed.

Lemma is_mu_strict n k mu K : 1 < n -> 0 < K ->
  (forall x, 1 < x < n -> 0 < k x <= K) -> is_mu n k mu -> mu_ideal_elem n / K <= mu.
Proof.
  intros Hn HK Hk H.
  apply (is_mu_le n (fun _ => K) k); auto.
  pose proof (is_mu_ideal n (fun _ => 1) Hn ltac:(auto)) as Hi. unfold is_mu in *.
  pose proof (is_RInt_scal (V := R_NormedModule) _ _ _ (/ K) _ Hi) as Hs.
  eapply is_RInt_val.
  - eapply is_RInt_ext; [|exact Hs]. intros x Hx. unfold scal; cbn -[pow]; unfold mult; cbn -[pow].
    rewrite Rinv_1. ring.
  - unfold scal; cbn -[pow]; unfold mult; cbn -[pow]. unfold Rdiv. ring.
Qed.

Lemma is_mu_gt0 n k mu K : 1 < n -> 0 < K ->
  (forall x, 1 < x < n -> 0 < k x <= K) -> is_mu n k mu -> 0 < mu.
Proof.
  intros Hn HK Hk H. pose proof (is_mu_strict n k mu K Hn HK Hk H).
  pose proof (mu_ideal_pos n Hn).
  apply Rlt_le_trans with (mu_ideal_elem n / K); auto. apply Rdiv_lt_0_compat; auto.
Qed.

Lemma le_max_inv kap y : 0 < kap -> 0 < y -> Rmin 1 kap <= / y -> y <= 1 + / kap.
Proof.
  intros Hk Hy H. pose proof (Rinv_0_lt_compat _ Hk).
  assert (Py : 0 < / y) by (apply Rinv_0_lt_compat; auto).
  assert (Iy : y * / y = 1) by (apply Rinv_r; lra).
  assert (Ik : kap * / kap = 1) by (apply Rinv_r; lra).
  unfold Rmin in H. destruct (Rle_dec 1 kap).
  - assert (y <= 1) by nra. lra.
  - assert (y * kap <= 1) by nra. assert (y <= / kap) by nra. lra.
Qed.

Lemma k_lin_bounds s kap x : 1 <= s -> 0 < kap -> 1 < x -> 0 < k_lin s kap x <= 1 + / kap.
Proof.
  intros Hs Hk Hx. pose proof (Rinv_0_lt_compat _ Hk).
  destruct (Rle_dec s x); [rewrite k_lin_out by auto; lra|].
  pose proof (k_lin_pos s kap x ltac:(lra) Hk ltac:(lra)). split; auto.
  apply le_max_inv; auto. apply k_lin_between; lra.
Qed.

Lemma k_const_bounds s kap x : 0 < kap -> 0 < k_const s kap x <= 1 + / kap.
Proof.
  intros Hk. pose proof (Rinv_0_lt_compat _ Hk). unfold k_const. destruct (Rlt_dec x s); lra.
Qed.

(** ** Parabolic *)
Lemma k_par_form s kap x : 1 < s -> 1 < kap -> x < s ->
  let A := sqrt (kap / (kap - 1)) in let B := s / (s - 1) in let C := 1 / (s - 1) in
  k_par s kap x = (kap - 1) * ((A - B + C * x) * (A + B - C * x)) / kap.
Proof.
  intros Hs Hk Hx A B C. unfold k_par. destruct (Rlt_dec x s); [|lra].
  replace ((A - B + C * x) * (A + B - C * x)) with (A^2 - (B - C * x)^2) by ring.
  unfold A. rewrite (parA kap) by lra. unfold B, C. field. lra.
Qed.
Lemma k_par_out s kap x : s <= x -> k_par s kap x = 1.
Proof. intros. unfold k_par. destruct (Rlt_dec x s); [lra|auto]. Qed.

Lemma k_par_range s kap x : 1 < s -> 1 < kap -> 1 <= x <= s -> / kap <= k_par s kap x <= 1.
Proof.
  intros Hs Hk Hx. assert (0 < / kap < 1).
  { split; [apply Rinv_0_lt_compat; lra|]. rewrite <- Rinv_1. apply Rinv_lt_contravar; lra. }
  unfold k_par. destruct (Rlt_dec x s); [|lra].
  assert (Hr : 0 <= (s - x) / (s - 1) <= 1).
  { split; [apply Rle_mult_inv_pos; lra|]. apply Rmult_le_reg_r with (s - 1); [lra|].
    unfold Rdiv. rewrite Rmult_assoc, Rinv_l by lra. lra. }
  set (rr := (s - x) / (s - 1)) in *. assert (0 <= rr^2 <= 1) by nra.
  set (q := rr^2) in *. set (k := / kap) in *. clearbody rr q k. split; nra.
Qed.

Lemma k_par_bounds s kap x : 1 <= s -> 1 < kap -> 1 < x -> 0 < k_par s kap x <= 1.
Proof.
  intros Hs Hk Hx. destruct (Rle_dec s x); [rewrite k_par_out by auto; lra|].
  pose proof (k_par_range s kap x ltac:(lra) Hk ltac:(lra)).
  assert (0 < / kap) by (apply Rinv_0_lt_compat; lra). lra.
Qed.

Lemma mu_par_exists n s kap : 1 < n -> 1 <= s <= n -> 0 < kap ->
  exists mu, is_mu n (k_par s kap) mu.
Proof.
  intros Hn Hs Hk. assert (P : n^2 - 1 <> 0) by (apply n2; auto).
  assert (C : forall x, 1 <= x <= n -> continuous
     (fun x => / (1 - (1 - / kap) * ((s - Rmin x s) / (s - 1))^2) * ((n^2 - x^2)^2 / (n^2 * x))) x \/ s = 1).
  { intros x Hx. destruct (Req_dec s 1) as [|Hs1]; [right; auto|left].
    assert (Hs2 : 1 < s) by (apply Rnot_le_lt; intros ?; apply Hs1; lra).
    apply (continuous_mult (fun x => / (1 - (1 - / kap) * ((s - Rmin x s) / (s - 1))^2))
             (fun x => (n^2 - x^2)^2 / (n^2 * x))).
    - apply (continuous_comp (fun x => Rmin x s)
        (fun y => / (1 - (1 - / kap) * ((s - y) / (s - 1))^2))).
      + apply continuity_pt_filterlim. unfold Rmin at 1.
        assert (E : forall y, Rmin y s = (y + s - Rabs (y - s)) / 2).
        { intros y. unfold Rmin. destruct (Rle_dec y s).
          - rewrite Rabs_left1 by lra. lra.
          - rewrite Rabs_right by lra. lra. }
        apply (continuity_pt_ext (fun y => (y + s - Rabs (y - s)) / 2)); [intros; symmetry; apply E|].
        apply continuity_pt_filterlim.
        apply (continuous_mult (fun y => y + s - Rabs (y - s)) (fun _ => / 2)); [|apply continuous_const].
        apply (continuous_minus (V := R_NormedModule) (fun y => y + s) (fun y => Rabs (y - s))).
        * apply (ex_derive_continuous (fun y => y + s)). auto_derive; auto.
        * apply (continuous_comp (fun y => y - s) Rabs).
          -- apply (ex_derive_continuous (fun y => y - s)). auto_derive; auto.
          -- apply continuous_Rabs.
      + apply (ex_derive_continuous (fun y => / (1 - (1 - / kap) * ((s - y) / (s - 1)) ^ 2))).
        assert (G : 0 < 1 - (1 - / kap) * ((s - Rmin x s) / (s - 1))^2).
        { assert (Hr : 0 <= (s - Rmin x s) / (s - 1) <= 1).
          { pose proof (Rmin_r x s). assert (1 <= Rmin x s) by (apply Rmin_glb; lra).
            split; [apply Rle_mult_inv_pos; lra|]. apply Rmult_le_reg_r with (s - 1); [lra|].
            unfold Rdiv. rewrite Rmult_assoc, Rinv_l by lra. lra. }
          assert (0 < / kap) by (apply Rinv_0_lt_compat; lra).
          set (r := (s - Rmin x s) / (s - 1)) in *. assert (0 <= r^2 <= 1) by nra.
          set (q := r^2) in *. set (k := / kap) in *. clearbody r q k.
          destruct (Req_dec q 1) as [->|]; [lra|]. assert (q < 1) by (apply Rnot_le_lt; intros ?; lra).
          assert (0 <= k * q) by (apply Rmult_le_pos; lra). lra. }
        auto_derive. lra.
    - apply (ex_derive_continuous (fun x => (n ^ 2 - x ^ 2) ^ 2 / (n ^ 2 * x))).
      auto_derive. apply Rmult_integral_contrapositive; split; nra. }
  destruct (Req_dec s 1) as [->|Hs1].
  { exists (mu_ideal_elem n). apply is_mu_ideal; auto. intros x Hx. apply k_par_out; lra. }
  assert (Hs2 : 1 < s) by (apply Rnot_le_lt; intros ?; apply Hs1; lra).
  destruct (ex_RInt_continuous (V := R_CompleteNormedModule) 
    (fun x => / (1 - (1 - / kap) * ((s - Rmin x s) / (s - 1))^2) * ((n^2 - x^2)^2 / (n^2 * x))) 1 n)
    as [v Hv].
  { intros x Hx. rewrite Rmin_left, Rmax_right in Hx by lra.
    destruct (C x Hx); [auto|lra]. }
  exists (v / (n^2 - 1)). unfold is_mu. eapply is_RInt_val.
  - eapply is_RInt_ext; [|exact Hv]. intros x Hx. rewrite Rmin_left, Rmax_right in Hx by lra.
    cbv beta. f_equal. f_equal. unfold k_par. destruct (Rlt_dec x s).
    + rewrite Rmin_left by lra. reflexivity.
    + rewrite Rmin_right by lra. replace (s - s) with 0 by ring. unfold Rdiv. ring.
  - unfold Rdiv. rewrite Rmult_assoc, Rinv_l, Rmult_1_r; auto.
Qed.

Lemma mu_p_some n s kap : 1 < kap -> 1 < s ->
  kap / (kap - 1) <> (s / (s - 1))^2 -> exists mu, mu_p n s kap = Some mu.
Proof.
  intros Hk Hs H. unfold mu_p. rewrite Rltb_f by lra.
  destruct (Reqb _ 0) eqn:E.
  - apply Reqb_true in E. rewrite parA in E by lra. exfalso; apply H; lra.
  - eexists; reflexivity.
Qed.

Lemma good_par n s kap mu : 1 < n -> 1 < s <= n -> 1 < kap ->
  mu_p n s kap = Some mu ->
  good n [s] (fun x => / k_par s kap x) (F_parabolic n s kap) 1 n (mu * (n^2 - 1)) /\
  F_parabolic n s kap 1 = 0.
Proof.
  intros Hn Hs Hk Hm. apply good_parabolic; auto; try lra.
  - unfold mu_p in Hm. rewrite Rltb_f in Hm by lra.
    destruct (Reqb _ 0) eqn:E; [discriminate|]. apply Reqb_false in E. exact E.
  - intros x Hx. pose proof (k_par_bounds s kap x ltac:(lra) Hk ltac:(lra)) as [P _].
    rewrite k_par_form in * by lra.
    set (t := _ * (_ * _)) in *.
    assert (t <> 0) by (intros E; rewrite E in P; unfold Rdiv in P; lra).
    field. lra.
  - intros x Hx. rewrite k_par_out by lra. apply Rinv_1.
Qed.

(** ** Overlapping *)
Lemma kapx_facts n s kap : 1 < n -> n < s -> 1 < 2 * n - s -> 0 < kap ->
  1 < _sx n s < n /\ 0 < _kapx n s kap /\
  Rabs (_kapx n s kap - 1) * (kap / _kapx n s kap) <= Rabs (kap - 1) /\
  (forall x, 1 < x < n ->
     k_over n s kap x = _kapx n s kap / kap * k_lin (_sx n s) (_kapx n s kap) x).
Proof.
  intros Hn Hs Hx Hk. unfold _kapx, _sx. set (sx := 2 * n - s) in *.
  assert (Sx : 1 < sx < n) by (unfold sx in *; lra). split; [auto|].
  assert (Hr : 0 < (sx - 1) / (s - 1) < 1).
  { split; [apply Rdiv_lt_0_compat; lra|]. apply Rmult_lt_reg_r with (s - 1); [lra|].
    unfold Rdiv. rewrite Rmult_assoc, Rinv_l by lra. lra. }
  replace ((kap - 1) / (s - 1) * (sx - 1)) with ((kap - 1) * ((sx - 1) / (s - 1))) by (field; lra).
  set (r := (sx - 1) / (s - 1)) in *.
  assert (Pk : 0 < 1 + (kap - 1) * r) by nra.
  split; [auto|]. split.
  - set (kx := 1 + (kap - 1) * r) in *.
    replace (Rabs (kx - 1)) with (Rabs (kap - 1) * r).
    2:{ unfold kx. replace (1 + (kap - 1) * r - 1) with ((kap - 1) * r) by ring.
        rewrite Rabs_mult, (Rabs_right r) by lra. reflexivity. }
    pose proof (Rabs_pos (kap - 1)).
    assert (r * (kap / kx) <= 1).
    { apply Rmult_le_reg_r with kx; auto. unfold Rdiv. rewrite !Rmult_assoc, Rinv_l by lra.
      unfold kx. nra. }
    rewrite Rmult_assoc. nra.
  - intros x Hx2. unfold k_over. fold sx.
    unfold k_lin. destruct (Rlt_dec x sx).
    + rewrite Rmin_left by lra. unfold r. field. repeat split; try lra.
      intros E. assert (1 + (kap - 1) * r = 0); [|lra]. unfold r.
      replace (1 + (kap - 1) * ((sx - 1) / (s - 1))) with ((s - 1 + (kap - 1) * (sx - 1)) / (s - 1)) by (field; lra).
      rewrite E. unfold Rdiv; ring.
    + rewrite Rmin_right by lra. unfold r. field. lra.
Qed.

Lemma is_mu_scale n k1 k2 c mu : 1 < n -> c <> 0 -> (forall x, 1 < x < n -> k2 x = c * k1 x) ->
  is_mu n k1 mu -> is_mu n k2 (mu / c).
Proof.
  intros Hn Hc E H. unfold is_mu in *.
  pose proof (is_RInt_scal (V := R_NormedModule) _ _ _ (/ c) _ H) as Hs.
  eapply is_RInt_val.
  - eapply is_RInt_ext; [|exact Hs]. intros x Hx. rewrite Rmin_left, Rmax_right in Hx by lra.
    unfold scal; cbn -[pow]; unfold mult; cbn -[pow]. rewrite E by auto.
    rewrite Rinv_mult. ring.
  - unfold scal; cbn -[pow]; unfold mult; cbn -[pow]. unfold Rdiv. ring.
Qed.

(** ** Bounds for the piecewise profiles *)
Definition inv_sum (l : list R) : R := fold_right (fun k a => / k + a) 1 l.
Lemma inv_sum_pos l : List.Forall (fun k => 0 < k) l -> 1 <= inv_sum l.
Proof.
  induction 1; cbn [inv_sum fold_right]; [lra|]. fold (inv_sum l).
  assert (0 < / x) by (apply Rinv_0_lt_compat; auto). lra.
Qed.
Lemma k_pwc_bounds s kap x : List.Forall (fun k => 0 < k) kap -> 0 < k_pwc s kap x <= inv_sum kap.
Proof.
  revert kap. induction s as [|a t IH]; intros kap H.
  - cbn. split; [lra|apply inv_sum_pos; auto].
  - destruct kap as [|b kap]; [cbn; lra|]. inversion H; subst.
    assert (0 < / b) by (apply Rinv_0_lt_compat; auto).
    cbn [k_pwc inv_sum fold_right]. fold (inv_sum kap). pose proof (inv_sum_pos kap H3).
    destruct (Rlt_dec x a); [lra|]. destruct (IH kap H3). lra.
Qed.
Lemma k_pwl_bounds s kap x : List.Forall (fun k => 0 < k) kap ->
  (forall a t, s = a :: t -> a <= x) ->
  0 < k_pwl s kap x <= inv_sum kap.
Proof.
  revert kap. induction s as [|a [|b t] IH]; intros kap H Hx.
  - destruct kap as [|k kap]; cbn; [lra|]. inversion H; subst.
    assert (0 < / k) by (apply Rinv_0_lt_compat; auto). pose proof (inv_sum_pos kap H3).
    fold (inv_sum kap). lra.
  - destruct kap as [|k [|kb kap]]; cbn; [lra| |].
    + inversion H; subst. assert (0 < / k) by (apply Rinv_0_lt_compat; auto). lra.
    + inversion H; subst. inversion H3; subst.
      assert (0 < / k) by (apply Rinv_0_lt_compat; auto).
      assert (0 < / kb) by (apply Rinv_0_lt_compat; auto).
      pose proof (inv_sum_pos kap H5). fold (inv_sum kap). lra.
  - destruct kap as [|ka [|kb kap]].
    + cbn. lra.
    + cbn. inversion H; subst. assert (0 < / ka) by (apply Rinv_0_lt_compat; auto). lra.
    + inversion H; subst. inversion H3; subst.
      assert (0 < / ka) by (apply Rinv_0_lt_compat; auto).
      assert (0 < / kb) by (apply Rinv_0_lt_compat; auto).
      pose proof (inv_sum_pos kap H5) as Ps.
      change (k_pwl (a :: b :: t) (ka :: kb :: kap) x) with
        (if Rlt_dec x b then / ka + (/ kb - / ka) * ((x - a) / (b - a))
         else k_pwl (b :: t) (kb :: kap) x).
      pose proof (Hx a (b :: t) eq_refl).
      cbn [inv_sum fold_right]. fold (inv_sum kap).
      destruct (Rlt_dec x b).
      * assert (Hr : 0 <= (x - a) / (b - a) <= 1).
        { split; [apply Rle_mult_inv_pos; lra|]. apply Rmult_le_reg_r with (b - a); [lra|].
          unfold Rdiv. rewrite Rmult_assoc, Rinv_l by lra. lra. }
        split; nra.
      * destruct (IH (kb :: kap) H3) as [I1 I2].
        { intros a0 t0 E. inversion E; subst. lra. }
        cbn [inv_sum fold_right] in I2. fold (inv_sum kap) in I2. lra.
Qed.

Lemma Forall_ix (P : R -> Prop) l : (forall i, (i < length l)%nat -> P (ix l i)) <-> List.Forall P l.
Proof.
  split.
  - intros H. apply List.Forall_forall. intros x Hx. apply (In_nth _ _ 0) in Hx.
    destruct Hx as [i [Hi <-]]. apply H; auto.
  - intros H i Hi. rewrite List.Forall_forall in H. apply H, nth_In; auto.
Qed.

(** ** What the validations accept *)
Lemma check_pwc_ok s kap n0 : check_pwc s kap = Ok tt -> get_last s = Ok n0 ->
  pwc_ok s kap /\ n0 = ix s (length s - 1).
Proof.
  unfold check_pwc. intros H G.
  destruct (Nat.eqb (length s) (length kap)) eqn:E1; cbn [negb] in H; [|discriminate].
  destruct (any _ s) eqn:E2; [discriminate|].
  destruct (any _ kap) eqn:E3; [discriminate|].
  destruct (any_diff_nonpos s) eqn:E4; [discriminate|].
  apply Nat.eqb_eq in E1.
  assert (s <> []) by (intros ->; cbn in G; discriminate).
  rewrite (get_last_nth s 0) in G by auto. injection G as <-.
  split; [|reflexivity]. split; auto.
  - destruct s; [contradiction|cbn; lia].
  - intros i Hi. pose proof (any_false _ _ E2 i Hi) as Q. apply Rleb_false in Q. auto.
  - intros i Hi. rewrite E1 in Hi. pose proof (any_false _ _ E3 i Hi) as Q. apply Rleb_false in Q. auto.
  - apply diff_lt; auto.
Qed.
Lemma pwc_ok_check s kap : pwc_ok s kap ->
  check_pwc s kap = Ok tt /\ get_last s = Ok (ix s (length s - 1)).
Proof.
  intros [L Ne Hs Hk Hi]. split.
  - unfold check_pwc. rewrite <- L, Nat.eqb_refl. cbn [negb].
    rewrite any_false_of; [|intros i H; apply Rleb_false; auto].
    rewrite any_false_of; [|intros i H; apply Rleb_false; apply Hk; rewrite L; auto].
    rewrite diff_lt_of; auto.
  - apply (get_last_nth s 0). intros ->. cbn in Ne. lia.
Qed.
Lemma check_pwl_iff s kap :
  length s = length kap -> (0 < length s)%nat ->
  (forall i, (i < length s)%nat -> 1 <= ix s i) ->
  (forall i, (i < length s)%nat -> 0 < ix kap i) ->
  (forall i, (S i < length s)%nat -> ix s i <= ix s (S i)) ->
  isclose (ix s 0) 1 = true ->
  check_pwl s kap = Ok tt.
Proof.
  intros L Ne Hs Hk Hi Hc. unfold check_pwl. rewrite <- L, Nat.eqb_refl. cbn [negb].
  rewrite any_false_of; [|intros i H; apply Rltb_false; auto].
  rewrite any_false_of; [|intros i H; apply Rleb_false; apply Hk; rewrite L; auto].
  rewrite diff_le_of by auto. rewrite (get_lt s 0 0) by auto. cbn [bind].
  fold (ix s 0). rewrite Hc. reflexivity.
Qed.

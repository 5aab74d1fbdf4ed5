(** * Pieces in the forms the code uses; ideal, constant and linear smear zones. *)
From Coq Require Import Reals List Lra Lia Bool.
From Coquelicot Require Import Coquelicot.
From Verif Require Import Base SmearModel SpecSmear SmearProofs.
Import ListNotations.
Local Open Scope R_scope.

Lemma is_derive_offset (f : R -> R) x d c0 :
  is_derive f x d -> is_derive (fun x => f x + c0) x d.
Proof.
  intros H. evar_last.
  - apply (is_derive_plus (V := R_NormedModule) f (fun _ => c0)); [exact H|].
    apply (is_derive_const (V := R_NormedModule)).
  - unfold plus, zero; cbn. ring.
Qed.

Lemma piece_gen n bs kp F (kp0 phi L : R -> R) a b c0 m :
  1 < n -> 0 < a -> a <= b ->
  (forall x, a <= x <= b -> F x = phi x + c0) ->
  (forall x, a < x < b -> kp x = kp0 x) ->
  (forall x, a <= x <= b -> continuous kp0 x) ->
  (forall x, a <= x <= b -> is_derive phi x (kp0 x * (1 / x - x / n^2))) ->
  (forall x, a <= x <= b -> is_derive L x (kp0 x * ww n x)) ->
  m = L b - L a ->
  good n bs kp F a b m.
Proof.
  intros Hn Ha Hab HF Hk Ck Hp HL ->. destruct (Rle_lt_or_eq_dec _ _ Hab) as [H|<-].
  - apply good_piece with kp0 (fun x => phi x + c0); auto; try lra.
    intros; apply is_derive_offset; auto.
  - unfold Rminus; rewrite Rplus_opp_r. apply good_point.
Qed.

Lemma piece_c n bs kp F K c0 a b m :
  1 < n -> 0 < a -> a <= b ->
  (forall x, a <= x <= b -> F x = K * phi_c n x + c0) ->
  (forall x, a < x < b -> kp x = K) ->
  m = K * L_c n b - K * L_c n a ->
  good n bs kp F a b m.
Proof.
  intros Hn Ha Hab HF Hk Hm.
  apply (piece_gen n bs kp F (fun _ => K) (fun x => K * phi_c n x) (fun x => K * L_c n x) a b c0);
    auto; intros x Hx.
  - apply continuous_const.
  - apply phi_c_der; lra.
  - apply L_c_der; lra.
Qed.

Lemma piece_i n bs kp F K c0 a b m :
  1 < n -> 0 < a -> a <= b ->
  (forall x, a <= x <= b -> F x = K * phi_i n x + c0) ->
  (forall x, a < x < b -> kp x = K / x) ->
  m = K * L_i n b - K * L_i n a ->
  good n bs kp F a b m.
Proof.
  intros Hn Ha Hab HF Hk Hm.
  apply (piece_gen n bs kp F (fun x => K / x) (fun x => K * phi_i n x) (fun x => K * L_i n x) a b c0);
    auto; intros x Hx.
  - apply (ex_derive_continuous (fun x => K / x)). auto_derive. lra.
  - apply phi_i_der; lra.
  - apply L_i_der; lra.
Qed.

Lemma piece_l n bs kp F al be K c0 a b m :
  1 < n -> 0 < a -> a <= b -> al <> 0 -> be <> 0 ->
  0 < al * a + be -> 0 < al * b + be ->
  (forall x, a <= x <= b -> F x = K * phi_l n al be x + c0) ->
  (forall x, a < x < b -> kp x = K / (al * x + be)) ->
  m = K * L_l n al be b - K * L_l n al be a ->
  good n bs kp F a b m.
Proof.
  intros Hn Ha Hab Hal Hbe Pa Pb HF Hk Hm.
  assert (P : forall x, a <= x <= b -> 0 < al * x + be).
  { intros x Hx. destruct (Rle_dec 0 al); nra. }
  apply (piece_gen n bs kp F (fun x => K / (al * x + be)) (fun x => K * phi_l n al be x)
           (fun x => K * L_l n al be x) a b c0);
    auto; intros x Hx; specialize (P x Hx).
  - apply (ex_derive_continuous (fun x => K / (al * x + be))). auto_derive. lra.
  - apply phi_l_der; auto; lra.
  - apply L_l_der; auto; lra.
Qed.

Lemma piece_ll n bs kp F al be K al2 be2 K2 c0 a b m :
  1 < n -> 0 < a -> a <= b -> al <> 0 -> be <> 0 -> al2 <> 0 -> be2 <> 0 ->
  0 < al * a + be -> 0 < al * b + be -> 0 < al2 * a + be2 -> 0 < al2 * b + be2 ->
  (forall x, a <= x <= b -> F x = K * phi_l n al be x + K2 * phi_l n al2 be2 x + c0) ->
  (forall x, a < x < b -> kp x = K / (al * x + be) + K2 / (al2 * x + be2)) ->
  m = (K * L_l n al be b + K2 * L_l n al2 be2 b) - (K * L_l n al be a + K2 * L_l n al2 be2 a) ->
  good n bs kp F a b m.
Proof.
  intros Hn Ha Hab Hal Hbe Hal2 Hbe2 Pa Pb Pa2 Pb2 HF Hk Hm.
  assert (P : forall x, a <= x <= b -> 0 < al * x + be).
  { intros x Hx. destruct (Rle_dec 0 al); nra. }
  assert (P2 : forall x, a <= x <= b -> 0 < al2 * x + be2).
  { intros x Hx. destruct (Rle_dec 0 al2); nra. }
  apply (piece_gen n bs kp F (fun x => K / (al * x + be) + K2 / (al2 * x + be2))
           (fun x => K * phi_l n al be x + K2 * phi_l n al2 be2 x)
           (fun x => K * L_l n al be x + K2 * L_l n al2 be2 x) a b c0);
    auto; intros x Hx; specialize (P x Hx); specialize (P2 x Hx).
  - apply (ex_derive_continuous (fun x => K / (al * x + be) + K2 / (al2 * x + be2))).
    auto_derive. lra.
  - rewrite Rmult_plus_distr_r.
    apply (is_derive_plus (V := R_NormedModule) (fun x => K * phi_l n al be x)
             (fun x => K2 * phi_l n al2 be2 x));
      apply phi_l_der; auto; lra.
  - rewrite Rmult_plus_distr_r.
    apply (is_derive_plus (V := R_NormedModule) (fun x => K * L_l n al be x)
             (fun x => K2 * L_l n al2 be2 x));
      apply L_l_der; auto; lra.
Qed.

(** ** Ideal drain *)
Definition F_ideal (n x : R) : R := ln x - 1 / (2 * n^2) * (x^2 - 1).

Lemma n2 n : 1 < n -> n^2 - 1 <> 0. Proof. nra. Qed.

Lemma good_ideal n bs kp : 1 < n -> (forall x, 1 < x < n -> kp x = 1) ->
  good n bs kp (F_ideal n) 1 n (mu_ideal_elem n * (n^2 - 1)).
Proof.
  intros Hn Hk. apply piece_c with 1 (1 / (2 * n^2)); auto; try lra.
  - intros x Hx. unfold F_ideal, phi_c. field. lra.
  - unfold mu_ideal_elem, L_c. rewrite ln_1. field. split; [lra|]. apply n2 in Hn; lra.
Qed.

(** ** Constant smear zone *)
Definition F_constant (n s kap x : R) : R :=
  if Rltb x s then u_constant_part n kap x else u_constant_undisturbed n s kap x.

Lemma Rltb_t x y : x < y -> Rltb x y = true. Proof. apply Rltb_true. Qed.
Lemma Rltb_f x y : y <= x -> Rltb x y = false. Proof. apply Rltb_false. Qed.

Lemma good_constant n s kap kp : 1 < n -> 1 <= s <= n ->
  (forall x, 1 < x < s -> kp x = kap) -> (forall x, s < x < n -> kp x = 1) ->
  good n [s] kp (F_constant n s kap) 1 n (mu_constant_elem n s kap * (n^2 - 1)).
Proof.
  intros Hn Hs K1 K2. unfold F_constant.
  assert (E : mu_constant_elem n s kap * (n^2 - 1) =
      (kap * L_c n s - kap * L_c n 1) + (1 * L_c n n - 1 * L_c n s)).
  { unfold mu_constant_elem, L_c. rewrite ln_1, ln_div by lra.
    field. split; [lra|]. apply n2 in Hn; lra. }
  rewrite E. apply good_glue with s; [lra|left; left; reflexivity| |].
  - apply piece_c with kap (kap / (2 * n^2)); auto; try lra.
    intros x Hx. destruct (Req_dec x s) as [->|Hne].
    + rewrite Rltb_f by lra. unfold u_constant_undisturbed, phi_c.
      rewrite ln_div by lra. field. lra.
    + rewrite Rltb_t by lra. unfold u_constant_part, phi_c. field. lra.
  - apply piece_c with 1 (- ln s + s^2 / (2 * n^2) + kap * (ln s - 1 / (2 * n^2) * (s^2 - 1)));
      auto; try lra.
    intros x Hx. rewrite Rltb_f by lra. unfold u_constant_undisturbed, phi_c.
    rewrite ln_div by lra. field. lra.
Qed.

(** ** Linear smear zone *)
Definition F_linear (n s kap x : R) : R :=
  if Rltb x s then u_linear_part n s kap x else u_linear_undisturbed n s kap x.

Lemma good_linear_eq n s kap kp : 1 < n -> 1 < s <= n -> s = kap ->
  (forall x, 1 < x < s -> kp x = kap / x) -> (forall x, s < x < n -> kp x = 1) ->
  isclose s kap = true ->
  good n [s] kp (F_linear n s kap) 1 n (mu_s_eq_kap n s * (n^2 - 1)).
Proof.
  intros Hn Hs <- K1 K2 Hc. unfold F_linear.
  assert (E : mu_s_eq_kap n s * (n^2 - 1) =
      (s * L_i n s - s * L_i n 1) + (1 * L_c n n - 1 * L_c n s)).
  { unfold mu_s_eq_kap, L_c, L_i. rewrite ln_div by lra.
    field. split; [lra|]. split; [lra|]. apply n2 in Hn; lra. }
  rewrite E. apply good_glue with s; [lra|left; left; reflexivity| |].
  - apply piece_i with s (s * (1 / n^2 + 1)); auto; try lra.
    intros x Hx. destruct (Req_dec x s) as [->|Hne].
    + rewrite Rltb_f by lra. unfold u_linear_undisturbed, phi_i. rewrite Hc.
      unfold Rdiv at 1. rewrite Rinv_r, ln_1 by lra. field. lra.
    + rewrite Rltb_t by lra. unfold u_linear_part, phi_i. rewrite Hc. field. lra.
  - apply piece_c with 1 (- ln s + s^2 / (2 * n^2) + s * (- 1 / s - 1 / n^2 * (s - 1) + 1));
      auto; try lra.
    intros x Hx. rewrite Rltb_f by lra. unfold u_linear_undisturbed, phi_c. rewrite Hc.
    rewrite ln_div by lra. field. lra.
Qed.

Lemma good_linear_neq n s kap kp : 1 < n -> 1 < s <= n -> 0 < kap -> kap <> 1 -> s <> kap ->
  (forall x, 1 < x < s -> kp x = kap / ((kap - 1) / (s - 1) * x + (s - kap) / (s - 1))) ->
  (forall x, s < x < n -> kp x = 1) ->
  isclose s kap = false ->
  good n [s] kp (F_linear n s kap) 1 n (mu_s_neq_kap n s kap * (n^2 - 1)).
Proof.
  intros Hn Hs Hkap H1 H2 K1 K2 Hc. unfold F_linear.
  set (A := (kap - 1) / (s - 1)) in *. set (B := (s - kap) / (s - 1)) in *.
  assert (HA : A <> 0).
  { unfold A, Rdiv. apply Rmult_integral_contrapositive; split; [lra|].
    apply Rinv_neq_0_compat; lra. }
  assert (HB : B <> 0).
  { unfold B, Rdiv. apply Rmult_integral_contrapositive; split; [lra|].
    apply Rinv_neq_0_compat; lra. }
  assert (E1 : A * 1 + B = 1) by (unfold A, B; field; lra).
  assert (Es : A * s + B = kap) by (unfold A, B; field; lra).
  assert (Bs : B = 1 - A) by lra. assert (Ks : kap = 1 + A * (s - 1)) by lra.
  assert (E : mu_s_neq_kap n s kap * (n^2 - 1) =
      (kap * L_l n A B s - kap * L_l n A B 1) + (1 * L_c n n - 1 * L_c n s)).
  { unfold mu_s_neq_kap. fold A B. unfold L_c, L_l.
    rewrite E1, Es, ln_1. rewrite (ln_div n s), (ln_div s kap) by lra.
    generalize (ln n) (ln s) (ln kap). intros ln_n ln_s ln_k.
    clear - HA HB Bs Ks Hn Hs. clearbody A B. subst B. subst kap.
    field. repeat split; try lra. apply n2 in Hn; lra. }
  rewrite E. apply good_glue with s; [lra|left; left; reflexivity| |].
  - apply piece_l with A B kap (kap * (- 1 / (n^2 * A^2) * (B - 1))); auto; try lra.
    intros x Hx. destruct (Req_dec x s) as [->|Hne].
    + rewrite Rltb_f by lra. unfold u_linear_undisturbed, phi_l. rewrite Hc. fold A B.
      unfold Rdiv at 1. rewrite Rinv_r, ln_1 by lra.
      rewrite Es, ln_div by lra.
      generalize (ln s) (ln kap). intros ln_s ln_k.
      clear - HA HB Bs Ks Hn Hs. clearbody A B. subst B. subst kap.
      field. repeat split; lra.
    + rewrite Rltb_t by lra. unfold u_linear_part, phi_l. rewrite Hc. fold A B.
      field. repeat split; lra.
  - apply piece_c with 1 (- ln s + s^2 / (2 * n^2) + 
       kap * (1 / B * ln (s / kap) - 1 / (n^2 * A^2) * (kap - 1 - B * ln kap)));
      auto; try lra.
    intros x Hx. rewrite Rltb_f by lra. unfold u_linear_undisturbed, phi_c. rewrite Hc.
    fold A B. rewrite (ln_div x s) by lra. field. lra.
Qed.

From Coq Require Import Reals List Arith Lia Lra.
From Coquelicot Require Import Coquelicot.
From Verif Require Import Base TerzaghiModel SpecTerzaghi TerzaghiProofs TerzaghiProofs2 PropsTerzaghi XieModel SpecXie.
Import ListNotations.
Local Open Scope R_scope.

(** ** Sine sums with decreasing coefficients are not negative *)
Definition sn (x : R) (k : nat) : R := sin ((2 * INR k + 1) * x).
Lemma sn_sum x n : ssum (sn x) n * sin x = sin (INR n * x) ^ 2.
Proof.
  induction n as [|n IH]; cbn [ssum].
  - change (INR 0) with 0. rewrite !Rmult_0_l, sin_0. ring.
  - rewrite Rmult_plus_distr_r, IH. unfold sn. rewrite S_INR.
    replace ((2 * INR n + 1) * x) with (INR n * x + (INR n + 1) * x) by ring. replace x with ((INR n + 1) * x - INR n * x) at 4 by ring.
    set (p := INR n * x). set (q := (INR n + 1) * x). rewrite sin_plus, sin_minus.
    pose proof (sin2_cos2 p) as P. pose proof (sin2_cos2 q) as Q. unfold Rsqr in P, Q.
    replace (sin p ^ 2 + (sin p * cos q + cos p * sin q) * (sin q * cos p - cos q * sin p)) with (sin p * sin p + (sin q * sin q * (cos p * cos p) - sin p * sin p * (cos q * cos q))) by ring.
    replace (cos p * cos p) with (1 - sin p * sin p) by lra. replace (cos q * cos q) with (1 - sin q * sin q) by lra. ring.
Qed.
Lemma sn_sum_nonneg x n : 0 <= x <= PI -> 0 <= ssum (sn x) n.
Proof.
  intros Hx. destruct (Req_dec (sin x) 0) as [E|E].
  - rewrite ssum_0'; [lra|]. intros k _. unfold sn. pose proof (sin2_cos2 x) as P. unfold Rsqr in P.
    assert (Ek : forall k, sin (INR k * (2 * x)) = 0).
    { intros j. induction j as [|j IH]; [cbn; rewrite Rmult_0_l; apply sin_0|]. rewrite S_INR. replace ((INR j + 1) * (2 * x)) with (INR j * (2 * x) + 2 * x) by ring.
      rewrite sin_plus, IH, sin_2a, E. ring. }
    replace ((2 * INR k + 1) * x) with (INR k * (2 * x) + x) by ring. rewrite sin_plus, Ek, E. ring.
  - assert (0 < sin x) by (pose proof (sin_ge_0 x ltac:(lra) ltac:(lra)); lra).
    pose proof (sn_sum x n) as Hs. pose proof (pow2_ge_0 (sin (INR n * x))).
    destruct (Rle_lt_dec 0 (ssum (sn x) n)) as [|L]; auto. exfalso.
    assert (ssum (sn x) n * sin x < 0) by nra. lra.
Qed.
Lemma abel_nonneg c x n : 0 <= x <= PI -> (forall k, 0 <= c (S k) <= c k) -> 0 <= ssum (fun k => c k * sn x k) n.
Proof.
  intros Hx Hc. assert (c n * ssum (sn x) n <= ssum (fun k => c k * sn x k) n).
  { induction n as [|n IH]; cbn [ssum]; [lra|]. pose proof (sn_sum_nonneg x (S n) Hx) as P. cbn [ssum] in P. pose proof (Hc n) as [H1 H2]. nra. }
  pose proof (sn_sum_nonneg x n Hx). assert (0 <= c n) by (destruct n; [pose proof (Hc 0%nat); lra|apply Hc]). nra.
Qed.
Lemma Mk_le k : 0 < Mk k < Mk (S k).
Proof. split; [apply Mk_pos|]. unfold Mk. rewrite S_INR. pose proof PI_RGT_0. nra. Qed.
(** The series of the pressure is not negative. *)
Lemma tz_u_nonneg H kv mv gamw n z t : 0 < H -> 0 <= tz_dTv H kv mv gamw -> 0 <= t -> 0 <= z <= 2 * H -> 0 <= tz_u H kv mv gamw 1 n z t.
Proof.
  intros HH Hd Ht Hz. unfold tz_u. rewrite Rmult_1_l.
  set (x := PI / 2 * (z / H)). set (c := fun k => 2 / Mk k * exp (- Mk k ^ 2 * (tz_dTv H kv mv gamw * t))).
  rewrite (ssum_ext _ (fun k => c k * sn x k)).
  - assert (Hq : 0 <= z / H <= 2).
    { split; [apply Rdiv_le_0_compat; lra|]. apply (Rmult_le_reg_r H); auto. replace (z / H * H) with z by (field; lra). lra. }
    apply abel_nonneg; [unfold x; pose proof PI_RGT_0; split; nra|].
    intros k. unfold c. pose proof (Mk_le k) as [P1 P2]. pose proof (exp_pos (- Mk (S k) ^ 2 * (tz_dTv H kv mv gamw * t))) as E1.
    assert (E2 : exp (- Mk (S k) ^ 2 * (tz_dTv H kv mv gamw * t)) <= exp (- Mk k ^ 2 * (tz_dTv H kv mv gamw * t))).
    { assert (Q : - Mk (S k) ^ 2 * (tz_dTv H kv mv gamw * t) <= - Mk k ^ 2 * (tz_dTv H kv mv gamw * t)).
      { assert (0 <= tz_dTv H kv mv gamw * t) by (apply Rmult_le_pos; auto). assert (Mk k ^ 2 <= Mk (S k) ^ 2) by (apply pow_incr; lra). nra. }
      destruct Q as [Q|Q]; [left; apply exp_increasing; auto|right; rewrite Q; auto]. }
    assert (D : 0 < 2 / Mk (S k) <= 2 / Mk k).
    { split; [apply Rdiv_lt_0_compat; lra|]. unfold Rdiv. apply Rmult_le_compat_l; [lra|]. apply Rinv_le_contravar; lra. }
    split; [apply Rmult_le_pos; lra|]. apply Rmult_le_compat; lra.
  - intros k _. unfold c, sn, x. replace ((2 * INR k + 1) * (PI / 2 * (z / H))) with (Mk k * (z / H)) by (unfold Mk; field; lra). ring.
Qed.

(** ** From the linear problem to the large strain problem *)
Section Generic.
Variables (H kv0 mvl gamw qu : R) (e0 : R -> R) (W Wa Waa : R -> R -> R).
Let E := exp (- mvl * qu).
Let cv := kv0 / (mvl * gamw).
Hypothesis Hm : 0 < mvl.
Hypothesis Hq : 0 <= qu.
Hypothesis Hg : gamw <> 0.
Hypothesis He0 : forall a, 0 <= a <= H -> 1 + e0 a <> 0.
Hypothesis Da : forall a t, is_derive (fun b => W b t) a (Wa a t).
Hypothesis Daa : forall a t, is_derive (fun b => Wa b t) a (Waa a t).
Hypothesis Dt : forall a t, is_derive (fun s => W a s) t (cv * Waa a t).
Hypothesis Wpos : forall a t, 0 <= a <= H -> 0 <= t -> 0 <= W a t.
Hypothesis W0 : forall t, W 0 t = 0.
Definition gu (a t : R) : R := ln (W a t * (exp (mvl * qu) - 1) + 1) / mvl.
Definition gef (a : R) : R := (1 + e0 a) * exp (- mvl * qu) - 1.
Definition ge (a t : R) : R := W a t * (e0 a - gef a) + gef a.
Lemma EE : E * exp (mvl * qu) = 1.
Proof using. unfold E. rewrite <- exp_plus. replace (- mvl * qu + mvl * qu) with 0 by ring. apply exp_0. Qed.
Lemma E_bounds : 0 < E <= 1.
Proof using Hm Hq. unfold E. split; [apply exp_pos|]. rewrite <- exp_0. destruct Hq as [Hq'|<-].
  - left. apply exp_increasing. nra.
  - right. f_equal. ring.
Qed.
Lemma arg_pos a t : 0 <= a <= H -> 0 <= t -> 1 <= W a t * (exp (mvl * qu) - 1) + 1.
Proof using Hm Hq Wpos. intros Ha Ht. pose proof (Wpos a t Ha Ht). pose proof E_bounds. pose proof EE. pose proof (exp_pos (mvl * qu)).
  assert (1 <= exp (mvl * qu)) by nra. nra. Qed.
Lemma exp_gu a t : 0 <= a <= H -> 0 <= t -> exp (mvl * gu a t) = W a t * (exp (mvl * qu) - 1) + 1.
Proof using Hm Hq Wpos. intros Ha Ht. unfold gu. replace (mvl * (ln (W a t * (exp (mvl * qu) - 1) + 1) / mvl)) with (ln (W a t * (exp (mvl * qu) - 1) + 1)) by (field; lra).
  apply exp_ln. pose proof (arg_pos a t Ha Ht). lra. Qed.
Lemma ge_ratio a t : 1 + ge a t = (1 + e0 a) * (E + (1 - E) * W a t).
Proof using. unfold ge, gef. fold E. ring. Qed.
Lemma ratio_pos a t : 0 <= a <= H -> 0 <= t -> 0 < E + (1 - E) * W a t.
Proof using Hm Hq Wpos. intros Ha Ht. pose proof (Wpos a t Ha Ht). pose proof E_bounds. nra. Qed.
Lemma g_compression a t : 0 <= a <= H -> 0 <= t -> 1 + ge a t = (1 + e0 a) * exp (- mvl * (qu - gu a t)).
Proof using Hm Hq Wpos. intros Ha Ht. rewrite ge_ratio. f_equal. replace (- mvl * (qu - gu a t)) with (- mvl * qu + mvl * gu a t) by ring. rewrite exp_plus, exp_gu by auto. fold E.
  replace (E * (W a t * (exp (mvl * qu) - 1) + 1)) with (W a t * (E * exp (mvl * qu)) - E * W a t + E) by ring. rewrite EE. ring. Qed.
Definition gua (a t : R) : R := Wa a t * (exp (mvl * qu) - 1) / (W a t * (exp (mvl * qu) - 1) + 1) / mvl.
Lemma g_ua a t : 0 <= a <= H -> 0 <= t -> is_derive (fun b => gu b t) a (gua a t).
Proof using Hm Hq Wpos Da.
  intros Ha Ht. pose proof (arg_pos a t Ha Ht) as P. unfold gu, gua. pose proof (Da a t) as D.
  auto_derive; [split; [eexists; exact D|split; [lra|exact I]]|].
  replace (Derive (fun x : R => W x t) a) with (Wa a t) by (symmetry; apply is_derive_unique; exact D).
  field. lra.
Qed.
(** Upward flow. *)
Definition gflux (a t : R) : R := cv * (1 - E) * Wa a t.
Lemma g_flux a t : 0 <= a <= H -> 0 <= t ->
  gflux a t = darcy_flux kv0 gamw (e0 a) (ge a t) (gua a t).
Proof using Hm Hq Hg Wpos He0.
  intros Ha Ht. unfold darcy_flux. rewrite ge_ratio. pose proof (ratio_pos a t Ha Ht) as P. pose proof (arg_pos a t Ha Ht) as Q. pose proof (He0 a Ha) as N. unfold gflux, gua, cv.
  assert (X : W a t * (exp (mvl * qu) - 1) + 1 = exp (mvl * qu) * (E + (1 - E) * W a t)) by (replace (exp (mvl * qu) * (E + (1 - E) * W a t)) with (E * exp (mvl * qu) + exp (mvl * qu) * W a t - E * exp (mvl * qu) * W a t) by ring; rewrite EE; ring).
  rewrite X. assert (Y : exp (mvl * qu) - 1 = exp (mvl * qu) * (1 - E)) by (replace (exp (mvl * qu) * (1 - E)) with (exp (mvl * qu) - E * exp (mvl * qu)) by ring; rewrite EE; ring). rewrite Y. pose proof (exp_pos (mvl * qu)). field. repeat split; try lra; auto.
Qed.
Lemma g_flux_a a t : is_derive (fun b => gflux b t) a (cv * (1 - E) * Waa a t).
Proof using Daa. unfold gflux. apply (is_derive_scal (fun b => Wa b t)). apply Daa. Qed.
Lemma g_water a t : 0 <= a <= H -> is_derive (fun s => ge a s / (1 + e0 a)) t (cv * (1 - E) * Waa a t).
Proof using Dt He0. intros Ha. pose proof (He0 a Ha) as N. unfold ge, gef. fold E.
  apply (is_derive_ext (fun s => (1 - E) * W a s + ((1 + e0 a) * E - 1) / (1 + e0 a))).
  - intros s. match goal with |- ?u = ?v => change (@eq R u v) end. field. auto.
  - evar_last; [apply (is_derive_plus (V := R_NormedModule) (fun s => (1 - E) * W a s) (fun _ => ((1 + e0 a) * E - 1) / (1 + e0 a))); [apply (is_derive_scal (fun s => W a s)); apply Dt|apply is_derive_const]|].
    unfold plus, zero; cbn. ring.
Qed.
Lemma g_large sealed : 0 < H -> (sealed = true -> forall t, Wa H t = 0) -> (sealed = false -> forall t, W H t = 0) -> large_strain sealed H kv0 mvl gamw qu e0 gu ge.
Proof using Hm Hq Hg He0 Da Daa Dt Wpos W0.
  intros HH Hs Hd. split.
  - apply g_compression.
  - intros t Ht. exists (fun a => gua a t), (fun a => gflux a t), (fun a => cv * (1 - E) * Waa a t). split; [|split].
    + intros a Ha. split; [apply g_ua; auto|apply g_flux; auto].
    + intros a Ha. split; [apply g_flux_a|apply g_water; lra].
    + intros B. unfold gflux. rewrite Hs by auto. ring.
  - intros t. unfold gu. rewrite W0. replace (0 * (exp (mvl * qu) - 1) + 1) with 1 by ring. rewrite ln_1. unfold Rdiv. ring.
  - intros B t. unfold gu. rewrite Hd by auto. replace (0 * (exp (mvl * qu) - 1) + 1) with 1 by ring. rewrite ln_1. unfold Rdiv. ring.
  - intros a t Ha Ht. unfold gu. apply Rdiv_le_0_compat; auto. rewrite <- ln_1. pose proof (arg_pos a t Ha Ht) as P. destruct P as [P|P]; [left; apply ln_increasing; lra|right; rewrite <- P; auto].
Qed.
End Generic.

(** * Proofs about the inversion of Laplace transforms (laplace.py, mp_laplace.py) *)
From Coq Require Import Reals List Arith ZArith Bool Lia Lra.
From Coquelicot Require Import Coquelicot.
From Verif Require Import Base LaplaceModel SpecLaplace.
Import ListNotations.
Open Scope R_scope.

Lemma csum_total f n : csum (map f (seq 0 n)) = total_C n f.
Proof. unfold csum. induction n as [|n IH]; [reflexivity|]. rewrite seq_S, map_app, fold_left_app, IH. reflexivity. Qed.
Lemma total_C_ext n f g : (forall k, (k < n)%nat -> f k = g k) -> total_C n f = total_C n g.
Proof. intros H. induction n as [|n IH]; [reflexivity|]. cbn [total_C]. rewrite H by lia. f_equal. apply IH. intros; apply H; lia. Qed.
Lemma total_C_scal c n f : total_C n (fun k => (c * f k)%C) = (c * total_C n f)%C.
Proof. induction n as [|n IH]; [cbn [total_C]; ring|]. cbn [total_C]. rewrite IH. ring. Qed.
Lemma total_C_plus n f g : total_C n (fun k => (f k + g k)%C) = (total_C n f + total_C n g)%C.
Proof. induction n as [|n IH]; [cbn [total_C]; ring|]. cbn [total_C]. rewrite IH. ring. Qed.
Lemma total_C_S n f : total_C (S n) f = (total_C n f + f n)%C. Proof. reflexivity. Qed.
Lemma total_C_first n f : total_C (S n) f = (f 0%nat + total_C n (fun k => f (S k)))%C.
Proof. induction n as [|n IH]; [cbn; ring|]. rewrite total_C_S, IH, total_C_S. ring. Qed.
Lemma total_C_rev n f : total_C n (fun k => f (n - 1 - k)%nat) = total_C n f.
Proof.
  revert f. induction n as [|n IH]; intros f; [reflexivity|]. rewrite total_C_first, total_C_S.
  replace (S n - 1 - 0)%nat with n by lia. rewrite Cplus_comm. f_equal. rewrite <- (IH f). apply total_C_ext. intros k Hk. f_equal. lia.
Qed.
Lemma total_C_conj n f : total_C n (fun k => Cconj (f k)) = Cconj (total_C n f).
Proof. induction n as [|n IH]; [apply injective_projections; cbn; lra|]. rewrite !total_C_S, IH. apply injective_projections; cbn; lra. Qed.

Section N.
Variable n : nat.
Hypothesis Hn : (1 <= n)%nat.
Let N := (n + n mod 2)%nat.
Lemma N_even : exists m, N = (2 * m)%nat /\ (1 <= m)%nat /\ (n <= N <= n + 1)%nat.
Proof.
  unfold N. pose proof (Nat.mod_upper_bound n 2 ltac:(lia)). pose proof (Nat.div_mod n 2 ltac:(lia)) as D.
  destruct (n mod 2) as [|[|r]] eqn:E; [exists (n / 2)%nat|exists (n / 2 + 1)%nat|lia]; lia.
Qed.
Lemma N_pos : 0 < INR N.
Proof. apply lt_0_INR. destruct N_even as (m & E & Hm & _). lia. Qed.
Definition odd_num (k : nat) : Z := (2 * Z.of_nat k + 1 - Z.of_nat N)%Z.
Lemma mid_odd k : middle (- PI) PI N k = PI * (IZR (odd_num k) / INR N).
Proof.
  pose proof N_pos. unfold middle, odd_num. rewrite minus_IZR, plus_IZR, mult_IZR, <- !INR_IZR_INZ. field. lra.
Qed.
Lemma odd_is_odd k : Z.odd (odd_num k) = true.
Proof.
  unfold odd_num. destruct N_even as (m & -> & _). replace (2 * Z.of_nat k + 1 - Z.of_nat (2 * m))%Z with (1 + 2 * (Z.of_nat k - Z.of_nat m))%Z by lia. rewrite Z.odd_add_mul_2. reflexivity.
Qed.
Lemma odd_range k : (k < N)%nat -> -1 < IZR (odd_num k) / INR N < 1.
Proof.
  intros Hk. pose proof N_pos as NP. assert (B : (- Z.of_nat N < odd_num k < Z.of_nat N)%Z) by (unfold odd_num; lia). destruct B as [B1 B2]. apply IZR_lt in B1. apply IZR_lt in B2. rewrite opp_IZR in B1. rewrite <- INR_IZR_INZ in B1, B2.
  split; apply (Rmult_lt_reg_r (INR N)); auto; unfold Rdiv; rewrite Rmult_assoc, Rinv_l by lra; lra.
Qed.
(** the points avoid zero and the places where sine or cosine vanish *)
Lemma mid_ok k : (k < N)%nat -> - PI < middle (- PI) PI N k < PI /\ middle (- PI) PI N k <> 0 /\
  sin (6407/10000 * middle (- PI) PI N k) <> 0 /\ cos (6407/10000 * middle (- PI) PI N k) <> 0.
Proof.
  intros Hk. rewrite mid_odd. pose proof (odd_range k Hk) as B. pose proof (odd_is_odd k) as O. pose proof N_pos as NP. pose proof PI_RGT_0 as PP. set (q := IZR (odd_num k) / INR N) in *.
  assert (Q0 : q <> 0). { unfold q. intros E. apply Rmult_integral in E. destruct E as [E|E]; [|pose proof (Rinv_0_lt_compat _ NP); lra]. apply eq_IZR in E. rewrite E in O. discriminate. }
  assert (S0 : PI * q <> 0) by (apply Rmult_integral_contrapositive_currified; lra).
  assert (B' : - PI < PI * q < PI) by (split; nra).
  split; [auto|]. split; [auto|]. split.
  - intros E. destruct (Rtotal_order q 0) as [L|[L|L]]; [|contradiction|].
    + assert (0 < sin (- (6407 / 10000 * (PI * q)))) by (apply sin_gt_0; nra). rewrite sin_neg in H. lra.
    + assert (0 < sin (6407 / 10000 * (PI * q))) by (apply sin_gt_0; nra). lra.
  - intros E.
    assert (K : 6407/10000 * q = 1/2 \/ 6407/10000 * q = - (1/2)).
    { destruct (Rtotal_order (6407/10000 * q) (1/2)) as [L|[L|L]]; [|auto|].
      - destruct (Rtotal_order (6407/10000 * q) (- (1/2))) as [L'|[L'|L']]; [|auto|].
        + assert (cos (- (6407 / 10000 * (PI * q))) < 0) by (apply cos_lt_0; nra). rewrite cos_neg in H. lra.
        + assert (0 < cos (6407 / 10000 * (PI * q))) by (apply cos_gt_0; nra). lra.
      - assert (cos (6407 / 10000 * (PI * q)) < 0) by (apply cos_lt_0; nra). lra. }
    destruct N_even as (m & EN & Hm & _).
    assert (C : (6407 * odd_num k = 10000 * Z.of_nat m \/ 6407 * odd_num k = - (10000 * Z.of_nat m))%Z).
    { assert (QN : q * INR N = IZR (odd_num k)) by (unfold q; field; lra). assert (IN : INR N = 2 * IZR (Z.of_nat m)) by (rewrite EN, mult_INR, <- INR_IZR_INZ; reflexivity).
      destruct K as [K|K]; [left|right]; apply eq_IZR; rewrite ?opp_IZR, !mult_IZR; rewrite <- QN, IN; nra. }
    assert (OO : Z.odd (6407 * odd_num k) = true) by (rewrite Z.odd_mul, O; reflexivity).
    destruct C as [C|C]; rewrite C in OO; rewrite ?Z.odd_opp, Z.odd_mul in OO; discriminate.
Qed.
Lemma mid_neg k : (k < N)%nat -> middle (- PI) PI N (N - 1 - k) = - middle (- PI) PI N k.
Proof.
  intros Hk. rewrite !mid_odd. assert (E : odd_num (N - 1 - k) = (- odd_num k)%Z) by (unfold odd_num; lia). rewrite E, opp_IZR. unfold Rdiv. ring.
Qed.
Lemma theta_mid f sh vec k : theta (Talbot f n sh vec) k = middle (- PI) PI N k.
Proof. unfold theta, h_, nR, middle. cbn [tal_n Talbot]. fold N. pose proof N_pos. field. lra. Qed.
End N.

Definition contour' (m : nat) (t x : R) : C :=
  (INR m / t * (5017/10000 * (cos (6407/10000 * x) / sin (6407/10000 * x)) - 5017/10000 * (6407/10000) * x / (sin (6407/10000 * x))^2), INR m / t * (2645/10000)).
Lemma contour_path sh m t : t <> 0 -> is_path (talbot_contour sh m t) (contour' m t) (- PI) PI.
Proof.
  intros Ht x Hx N0. pose proof PI_RGT_0 as PP.
  assert (S0 : sin (6407/10000 * x) <> 0).
  { intros E. destruct (Rtotal_order x 0) as [L|[L|L]]; [|contradiction|].
    + assert (0 < sin (- (6407 / 10000 * x))) by (apply sin_gt_0; lra). rewrite sin_neg in H. lra.
    + assert (0 < sin (6407 / 10000 * x)) by (apply sin_gt_0; lra). lra. }
  unfold talbot_contour, contour', Re, Im. cbn [fst snd]. split.
  - set (c := INR m / t). clearbody c. set (b := 6407/10000) in *. set (a := 5017/10000) in *. auto_derive; [auto|].
    pose proof (sin2_cos2 (b * x)) as SC. unfold Rsqr in SC. revert SC S0. generalize (sin (b * x)) (cos (b * x)). intros s co SC S0.
    apply (Rmult_eq_reg_r (s^2)); [|apply pow_nonzero; auto]. match goal with |- ?l = _ => match l with context [co] => idtac end end.
    transitivity (c * (a * co * s - a * b * x * (s * s + co * co))); [field; auto|]. rewrite SC. field. auto.
  - auto_derive; [auto|]. ring.
Qed.

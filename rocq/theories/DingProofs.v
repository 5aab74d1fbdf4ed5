(** * Sums of sines: derivatives, integrals *)
From Coq Require Import Reals List Arith ZArith Bool Lia Lra.
From Coquelicot Require Import Coquelicot.
From Verif Require Import Base DingModel.
Import ListNotations.
Local Open Scope R_scope.

Definition total (f : nat -> R) (n : nat) : R := sumR (map f (seq 0 n)).
Lemma sumR_app l1 l2 : sumR (l1 ++ l2) = sumR l1 + sumR l2.
Proof. unfold sumR. induction l1 as [|a l IH]; cbn; [ring|rewrite IH; ring]. Qed.
Lemma total_S f n : total f (S n) = total f n + f n.
Proof. unfold total. rewrite seq_S, map_app, sumR_app. cbn. ring. Qed.
Lemma total_ext f g n : (forall k, (k < n)%nat -> f k = g k) -> total f n = total g n.
Proof. intros H. unfold total. f_equal. apply map_ext_in. intros k Hk. apply in_seq in Hk. apply H. lia. Qed.
Lemma total_scal c f n : total (fun k => c * f k) n = c * total f n.
Proof. induction n as [|n IH]; [cbn; ring|]. rewrite !total_S, IH. ring. Qed.
Lemma total_plus f g n : total (fun k => f k + g k) n = total f n + total g n.
Proof. induction n as [|n IH]; [cbn; ring|]. rewrite !total_S, IH. ring. Qed.
Lemma total_single f n i : (i < n)%nat -> (forall k, (k < n)%nat -> k <> i -> f k = 0) -> total f n = f i.
Proof.
  intros Hi H. induction n as [|n IH]; [lia|]. rewrite total_S. destruct (Nat.eq_dec i n) as [->|Hn].
  - replace (total f n) with 0; [ring|]. symmetry. rewrite (total_ext f (fun _ => 0)) by (intros k Hk; apply H; lia). clear. induction n as [|n IH]; [reflexivity|]. rewrite total_S, IH. ring.
  - rewrite IH by (try lia; intros k Hk Hk'; apply H; lia). rewrite (H n) by lia. ring.
Qed.
Lemma total_derive (f : nat -> R -> R) (df : nat -> R) n x : (forall k, (k < n)%nat -> is_derive (f k) x (df k)) -> is_derive (fun y => total (fun k => f k y) n) x (total df n).
Proof.
  induction n as [|n IH]; intros H.
  - cbn. apply (is_derive_const (V := R_NormedModule)).
  - apply (is_derive_ext (fun y => plus (total (fun k => f k y) n) (f n y))); [intros; rewrite total_S; reflexivity|]. rewrite total_S. apply (is_derive_plus (V := R_NormedModule)); [apply IH; intros; apply H; lia|apply H; lia].
Qed.
Lemma total_RInt (f : nat -> R -> R) (v : nat -> R) n a b : (forall k, (k < n)%nat -> is_RInt (f k) a b (v k)) -> is_RInt (fun y => total (fun k => f k y) n) a b (total v n).
Proof.
  induction n as [|n IH]; intros H.
  - cbn. assert (D := is_RInt_const (V := R_NormedModule) a b 0). apply (eq_ind _ (fun v => is_RInt (fun _ => 0) a b v) D). unfold scal; cbn; unfold mult; cbn. ring.
  - apply (is_RInt_ext (fun y => plus (total (fun k => f k y) n) (f n y))); [intros; rewrite total_S; reflexivity|]. rewrite total_S. apply (is_RInt_plus (V := R_NormedModule)); [apply IH; intros; apply H; lia|apply H; lia].
Qed.
(** sines are orthogonal *)
Lemma sin_npi (k : Z) : sin (IZR k * PI) = 0. Proof. apply sin_eq_0_1. exists k. reflexivity. Qed.
Lemma rint_value (F f : R -> R) a b : (forall x, is_derive F x (f x)) -> (forall x, continuous f x) -> is_RInt f a b (F b - F a).
Proof. intros H1 H2. apply (is_RInt_derive (V := R_CompleteNormedModule) F f); intros; auto. Qed.
Lemma sin_sin L k i : 0 < L -> is_RInt (fun x => sin ((INR k + 1) * PI * x / L) * sin ((INR i + 1) * PI * x / L)) 0 L (if Nat.eqb k i then L / 2 else 0).
Proof.
  intros HL. assert (P := PI_RGT_0). assert (K := pos_INR k). assert (I0 := pos_INR i).
  assert (C : forall x, continuous (fun x => sin ((INR k + 1) * PI * x / L) * sin ((INR i + 1) * PI * x / L)) x).
  { intros x. apply (ex_derive_continuous (K := R_AbsRing) (V := R_NormedModule)). auto_derive. auto. }
  destruct (Nat.eqb_spec k i) as [->|Hn].
  - set (c := (INR i + 1) * PI / L). assert (c0 : c <> 0) by (unfold c; apply Rgt_not_eq; apply Rdiv_lt_0_compat; nra).
    assert (V := rint_value (fun x => x / 2 - sin (2 * (c * x)) / (4 * c)) (fun x => sin ((INR i + 1) * PI * x / L) * sin ((INR i + 1) * PI * x / L)) 0 L).
    assert (Z : L / 2 - sin (2 * (c * L)) / (4 * c) - (0 / 2 - sin (2 * (c * 0)) / (4 * c)) = L / 2).
    { replace (2 * (c * L)) with (IZR (2 * (Z.of_nat i + 1)) * PI) by (rewrite mult_IZR, plus_IZR, <- INR_IZR_INZ; unfold c; field; lra). rewrite sin_npi, !Rmult_0_r, sin_0. field. exact c0. }
    cbv beta in V. rewrite Z in V. apply V; auto. intros x. auto_derive; auto. replace ((INR i + 1) * PI * x / L) with (c * x) by (unfold c; field; lra). replace (2 * (c * x)) with (c * x + c * x) by ring. rewrite cos_plus. assert (S := sin2_cos2 (c * x)). unfold Rsqr in S. match goal with |- ?u = _ => replace u with (1 / 2 - (cos (c * x) * cos (c * x) - sin (c * x) * sin (c * x)) / 2) by (field; exact c0) end. lra.
  - assert (N1 : INR k - INR i <> 0) by (intros X; apply Hn, INR_eq; lra).
    set (u := (INR k - INR i) * PI / L). set (v := (INR k + INR i + 2) * PI / L).
    assert (u0 : u <> 0) by (unfold u; intros X; apply Rmult_integral in X; destruct X as [X|X]; [apply Rmult_integral in X; destruct X; [auto|lra]|revert X; apply Rinv_neq_0_compat; lra]).
    assert (v0 : v <> 0) by (unfold v; apply Rgt_not_eq; apply Rdiv_lt_0_compat; nra).
    assert (V := rint_value (fun x => sin (u * x) / (2 * u) - sin (v * x) / (2 * v)) (fun x => sin ((INR k + 1) * PI * x / L) * sin ((INR i + 1) * PI * x / L)) 0 L).
    assert (Z : sin (u * L) / (2 * u) - sin (v * L) / (2 * v) - (sin (u * 0) / (2 * u) - sin (v * 0) / (2 * v)) = 0).
    { replace (u * L) with (IZR (Z.of_nat k - Z.of_nat i) * PI) by (rewrite minus_IZR, <- !INR_IZR_INZ; unfold u; field; lra). replace (v * L) with (IZR (Z.of_nat k + Z.of_nat i + 2) * PI) by (rewrite !plus_IZR, <- !INR_IZR_INZ; unfold v; field; lra).
      rewrite !sin_npi, !Rmult_0_r, sin_0. field. split; auto. }
    cbv beta in V. rewrite Z in V. apply V; auto. intros x. auto_derive; auto.
    replace (u * x) with ((INR k + 1) * PI * x / L - (INR i + 1) * PI * x / L) by (unfold u; field; lra). replace (v * x) with ((INR k + 1) * PI * x / L + (INR i + 1) * PI * x / L) by (unfold v; field; lra). rewrite cos_minus, cos_plus. field. split; auto.
Qed.

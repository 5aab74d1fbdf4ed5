(** * Proofs about the Terzaghi series *)
From Coq Require Import Reals List Arith Lia Lra.
From Coquelicot Require Import Coquelicot.
From Verif Require Import TerzaghiModel SpecTerzaghi.
Import ListNotations.
Local Open Scope R_scope.

Fixpoint ssum (f : nat -> R) (n : nat) : R :=
  match n with O => 0 | S k => ssum f k + f k end.

Lemma np_sum_M (f : R -> R) n :
  np_sum (map f (tz_M n)) = ssum (fun k => f ((2 * INR k + 1) / 2 * PI)) n.
Proof.
  unfold np_sum, tz_M. induction n as [|n IH]; [reflexivity|].
  rewrite seq_S, !map_app, fold_left_app, IH. reflexivity.
Qed.

Lemma ssum_ext f g n : (forall k, (k < n)%nat -> f k = g k) -> ssum f n = ssum g n.
Proof.
  intros H. induction n as [|n IH]; [reflexivity|]. cbn [ssum].
  rewrite IH, H by (auto; intros; apply H; lia). reflexivity.
Qed.
Lemma ssum_scal c f n : ssum (fun k => c * f k) n = c * ssum f n.
Proof. induction n as [|n IH]; cbn; [ring|rewrite IH; ring]. Qed.
Lemma ssum_plus f g n : ssum (fun k => f k + g k) n = ssum f n + ssum g n.
Proof. induction n as [|n IH]; cbn; [ring|rewrite IH; ring]. Qed.
Lemma ssum_minus f g n : ssum (fun k => f k - g k) n = ssum f n - ssum g n.
Proof. induction n as [|n IH]; cbn; [ring|rewrite IH; ring]. Qed.
Lemma ssum_le f g n : (forall k, (k < n)%nat -> f k <= g k) -> ssum f n <= ssum g n.
Proof.
  intros H. induction n as [|n IH]; cbn; [lra|].
  pose proof (H n ltac:(lia)). assert (ssum f n <= ssum g n) by (apply IH; intros; apply H; lia). lra.
Qed.
Lemma ssum_0 n : ssum (fun _ => 0) n = 0.
Proof. induction n as [|n IH]; cbn; [auto|rewrite IH; ring]. Qed.
Lemma ssum_0' f n : (forall k, (k < n)%nat -> f k = 0) -> ssum f n = 0.
Proof. intros H. rewrite (ssum_ext f (fun _ => 0)) by auto. apply ssum_0. Qed.

Lemma ssum_derive (f f' : nat -> R -> R) x n :
  (forall k, (k < n)%nat -> is_derive (f k) x (f' k x)) ->
  is_derive (fun y => ssum (fun k => f k y) n) x (ssum (fun k => f' k x) n).
Proof.
  intros H. induction n as [|n IH]; cbn [ssum].
  - apply (is_derive_const (V := R_NormedModule)).
  - apply (is_derive_plus (V := R_NormedModule) (fun y => ssum (fun k => f k y) n) (f n)).
    + apply IH. intros; apply H; lia.
    + apply H; lia.
Qed.
Lemma rint_val (f : R -> R) a b (u v : R) : is_RInt f a b u -> u = v -> is_RInt f a b v.
Proof. intros H <-. exact H. Qed.
Lemma ssum_RInt (f : nat -> R -> R) (v : nat -> R) a b n :
  (forall k, (k < n)%nat -> is_RInt (f k) a b (v k)) ->
  is_RInt (fun y => ssum (fun k => f k y) n) a b (ssum v n).
Proof.
  intros H. induction n as [|n IH]; cbn [ssum].
  - pose proof (is_RInt_const (V := R_NormedModule) a b 0) as Q.
    eapply rint_val; [exact Q|]. unfold scal; cbn; unfold mult; cbn; ring.
  - apply (is_RInt_plus (V := R_NormedModule) (fun y => ssum (fun k => f k y) n) (f n)).
    + apply IH. intros; apply H; lia.
    + apply H; lia.
Qed.

(** The eigenvalues. *)
Definition Mk (k : nat) : R := (2 * INR k + 1) / 2 * PI.
Lemma Mk_pos k : 0 < Mk k.
Proof. unfold Mk. pose proof PI_RGT_0. pose proof (pos_INR k). apply Rmult_lt_0_compat; lra. Qed.
Lemma cos_Mk k : cos (Mk k) = 0.
Proof.
  unfold Mk. replace ((2 * INR k + 1) / 2 * PI) with (PI / 2 + INR k * PI) by field.
  induction k as [|k IH].
  - cbn [INR]. rewrite Rmult_0_l, Rplus_0_r. apply cos_PI2.
  - rewrite S_INR. replace (PI / 2 + (INR k + 1) * PI) with ((PI / 2 + INR k * PI) + PI) by ring.
    rewrite neg_cos, IH. ring.
Qed.
Lemma sin2_Mk k : sin (Mk k) ^2 = 1.
Proof. pose proof (sin2_cos2 (Mk k)) as H. unfold Rsqr in H. rewrite cos_Mk in H. nra. Qed.
Lemma Mk_inj j k : Mk j = Mk k -> j = k.
Proof.
  unfold Mk. intros H. apply Rmult_eq_reg_r in H; [|apply PI_neq0]. apply INR_eq. lra.
Qed.

Ltac tz_gen := repeat match goal with
  | |- context [exp ?x] => generalize (exp x); intro
  | |- context [sin ?x] => generalize (sin x); intro
  | |- context [cos ?x] => generalize (cos x); intro
  end.
(** The pore pressure and its derivatives. *)
Section Por.
Variables H kv mv gamw ui : R.
Variable nt : nat.
Let dT := tz_dTv H kv mv gamw.
Definition tz_u (z t : R) : R :=
  ui * ssum (fun k => 2 / Mk k * sin (Mk k * (z / H)) * exp (- Mk k ^2 * (dT * t))) nt.
Definition tz_uz (z t : R) : R :=
  ui * ssum (fun k => 2 / H * cos (Mk k * (z / H)) * exp (- Mk k ^2 * (dT * t))) nt.
Definition tz_uzz (z t : R) : R :=
  ui * ssum (fun k => - 2 * Mk k / H^2 * sin (Mk k * (z / H)) * exp (- Mk k ^2 * (dT * t))) nt.
Definition tz_doc (t : R) : R := 1 - ssum (fun k => 2 / Mk k ^2 * exp (- Mk k ^2 * (dT * t))) nt.

Lemma tz_por_eq zs ts : fst (terzaghi_1d zs ts H kv mv gamw ui nt) =
  map (fun z => map (fun t => tz_u z t) ts) zs.
Proof.
  unfold terzaghi_1d. cbn [fst]. apply map_ext. intros z. apply map_ext. intros t.
  cbv zeta. rewrite np_sum_M. reflexivity.
Qed.
Lemma tz_doc_eq zs ts : snd (terzaghi_1d zs ts H kv mv gamw ui nt) = map tz_doc ts.
Proof.
  unfold terzaghi_1d. cbn [snd]. apply map_ext. intros t. cbv zeta. rewrite np_sum_M. reflexivity.
Qed.
Lemma tz_flow_eq zs ts : H <> 0 -> terzaghi_1d_flowrate zs ts H kv mv gamw ui nt =
  map (fun z => map (fun t => kv / gamw * tz_uz z t) ts) zs.
Proof.
  intros HH. unfold terzaghi_1d_flowrate. apply map_ext. intros z. apply map_ext. intros t.
  cbv zeta. rewrite np_sum_M. unfold tz_uz. fold dT.
  rewrite (ssum_ext (fun k => 2 / H * cos (Mk k * (z / H)) * exp (- Mk k ^2 * (dT * t)))
     (fun k => 2 / H * (cos (Mk k * (z / H)) * exp (- Mk k ^2 * (dT * t))))) by (intros; ring).
  rewrite ssum_scal. unfold Rdiv. unfold Mk, Rdiv. ring.
Qed.

Lemma tz_dz z t : H <> 0 -> is_derive (fun y => tz_u y t) z (tz_uz z t).
Proof.
  intros HH. unfold tz_u, tz_uz. apply (is_derive_scal (fun y => ssum _ nt)).
  apply (ssum_derive (fun k y => 2 / Mk k * sin (Mk k * (y / H)) * exp (- Mk k ^ 2 * (dT * t)))
     (fun k y => 2 / H * cos (Mk k * (y / H)) * exp (- Mk k ^ 2 * (dT * t)))).
  intros k _. pose proof (Mk_pos k). auto_derive; auto. cbn [pow]. unfold Rdiv. field. lra.
Qed.
Lemma tz_dzz z t : H <> 0 -> is_derive (fun y => tz_uz y t) z (tz_uzz z t).
Proof.
  intros HH. unfold tz_uz, tz_uzz. apply (is_derive_scal (fun y => ssum _ nt)).
  apply (ssum_derive (fun k y => 2 / H * cos (Mk k * (y / H)) * exp (- Mk k ^ 2 * (dT * t)))
     (fun k y => - 2 * Mk k / H^2 * sin (Mk k * (y / H)) * exp (- Mk k ^2 * (dT * t)))).
  intros k _. auto_derive; auto. cbn [pow]. unfold Rdiv. field. lra.
Qed.
Lemma tz_dt z t : H <> 0 -> mv <> 0 -> gamw <> 0 ->
  is_derive (fun s => tz_u z s) t (kv / (mv * gamw) * tz_uzz z t).
Proof.
  intros HH Hm Hg. unfold tz_u, tz_uzz.
  replace (kv / (mv * gamw) * (ui * ssum (fun k => - 2 * Mk k / H^2 * sin (Mk k * (z / H)) * exp (- Mk k ^2 * (dT * t))) nt))
   with (ui * (ssum (fun k => kv / (mv * gamw) * (- 2 * Mk k / H^2 * sin (Mk k * (z / H)) * exp (- Mk k ^2 * (dT * t)))) nt))
   by (rewrite ssum_scal; ring).
  apply (is_derive_scal (fun y => ssum _ nt)).
  apply (ssum_derive (fun k s => 2 / Mk k * sin (Mk k * (z / H)) * exp (- Mk k ^ 2 * (dT * s)))
     (fun k s => kv / (mv * gamw) * (- 2 * Mk k / H^2 * sin (Mk k * (z / H)) * exp (- Mk k ^2 * (dT * s))))).
  intros k _. pose proof (Mk_pos k). auto_derive; auto. cbn [pow]. unfold Rdiv. tz_gen. unfold dT, tz_dTv, Rdiv. field. lra.
Qed.

Lemma tz_consolidates : H <> 0 -> mv <> 0 -> gamw <> 0 ->
  consolidates (kv / (mv * gamw)) H tz_u.
Proof.
  intros HH Hm Hg. split.
  - intros z t. exists (fun y => tz_uz y t), (tz_uzz z t).
    split; [intros; apply tz_dz; auto|]. split; [apply tz_dzz; auto|apply tz_dt; auto].
  - intros t. unfold tz_u. rewrite ssum_0'; [ring|]. intros k _.
    replace (Mk k * (0 / H)) with 0 by (unfold Rdiv; ring). rewrite sin_0. ring.
  - intros t. replace 0 with (tz_uz H t); [apply tz_dz; auto|].
    unfold tz_uz. rewrite ssum_0'; [ring|]. intros k _.
    replace (Mk k * (H / H)) with (Mk k) by (field; auto). rewrite cos_Mk. ring.
Qed.

(** Mean pore pressure. *)
Lemma tz_mean t : H <> 0 -> is_RInt (fun z => tz_u z t) 0 H (ui * H * (1 - tz_doc t)).
Proof.
  intros HH. unfold tz_doc.
  replace (ui * H * (1 - (1 - ssum (fun k => 2 / Mk k ^ 2 * exp (- Mk k ^ 2 * (dT * t))) nt)))
    with (scal (V := R_NormedModule) ui (ssum (fun k => H * (2 / Mk k ^ 2 * exp (- Mk k ^ 2 * (dT * t)))) nt)).
  2:{ rewrite ssum_scal. unfold scal; cbn; unfold mult; cbn. ring. }
  apply (is_RInt_scal (V := R_NormedModule) (fun z => ssum _ nt)).
  apply (ssum_RInt (fun k z => 2 / Mk k * sin (Mk k * (z / H)) * exp (- Mk k ^ 2 * (dT * t)))).
  intros k _. pose proof (Mk_pos k) as P.
  set (F := fun z => - 2 * H / Mk k ^2 * cos (Mk k * (z / H)) * exp (- Mk k ^ 2 * (dT * t))).
  replace (H * (2 / Mk k ^ 2 * exp (- Mk k ^ 2 * (dT * t)))) with (minus (F H) (F 0)).
  - apply (is_RInt_derive F (fun z => 2 / Mk k * sin (Mk k * (z / H)) * exp (- Mk k ^ 2 * (dT * t)))).
    + intros z _. unfold F. auto_derive; auto. cbn [pow]. unfold Rdiv. field. lra.
    + intros z _. apply (ex_derive_continuous (fun z => 2 / Mk k * sin (Mk k * (z / H)) * exp (- Mk k ^ 2 * (dT * t)))).
      auto_derive; auto.
  - unfold F, minus, plus, opp; cbn -[pow].
    replace (Mk k * (H / H)) with (Mk k) by (field; auto).
    replace (Mk k * (0 / H)) with 0 by (unfold Rdiv; ring).
    rewrite cos_Mk, cos_0. field. lra.
Qed.
End Por.

(** ** Orthogonality and Bessel's inequality *)
Lemma sin_orth H j k : H <> 0 ->
  is_RInt (fun z => sin (Mk j * (z / H)) * sin (Mk k * (z / H))) 0 H
    (if Nat.eq_dec j k then H / 2 else 0).
Proof.
  intros HH. pose proof (Mk_pos j) as Pj. pose proof (Mk_pos k) as Pk.
  assert (Ex : forall z, continuous (fun z => sin (Mk j * (z / H)) * sin (Mk k * (z / H))) z).
  { intros z. apply (ex_derive_continuous (fun z => sin (Mk j * (z / H)) * sin (Mk k * (z / H)))).
    auto_derive; auto. }
  destruct (Nat.eq_dec j k) as [->|N].
  - set (F := fun z => z / 2 - H / (2 * Mk k) * (sin (Mk k * (z / H)) * cos (Mk k * (z / H)))).
    replace (H / 2) with (minus (F H) (F 0)).
    + apply (is_RInt_derive F (fun z => sin (Mk k * (z / H)) * sin (Mk k * (z / H)))); auto.
      intros z _. unfold F. auto_derive; auto. 
      pose proof (sin2_cos2 (Mk k * (z / H))) as Q. unfold Rsqr in Q.
      cbn [pow]. unfold Rdiv in *. revert Q.
      generalize (sin (Mk k * (z * / H))) (cos (Mk k * (z * / H))). intros s c Q.
      transitivity ((1 - (c * c - s * s)) * / 2); [field; lra|lra].
    + unfold F, minus, plus, opp; cbn -[pow].
      replace (Mk k * (H / H)) with (Mk k) by (field; auto).
      replace (Mk k * (0 / H)) with 0 by (unfold Rdiv; ring).
      rewrite cos_Mk, sin_0. field. lra.
  - assert (D1 : Mk j - Mk k <> 0) by (intros E; apply N, Mk_inj; lra).
    assert (D2 : Mk j + Mk k <> 0) by lra.
    set (F := fun z => H / ((Mk j - Mk k) * (Mk j + Mk k)) *
       (Mk k * (sin (Mk j * (z / H)) * cos (Mk k * (z / H))) - Mk j * (cos (Mk j * (z / H)) * sin (Mk k * (z / H))))).
    replace 0 with (minus (F H) (F 0)) at 2.
    + apply (is_RInt_derive F (fun z => sin (Mk j * (z / H)) * sin (Mk k * (z / H)))); auto.
      intros z _. unfold F. auto_derive; auto. cbn [pow]. unfold Rdiv. field. auto.
    + unfold F, minus, plus, opp; cbn -[pow].
      replace (Mk j * (H / H)) with (Mk j) by (field; auto).
      replace (Mk k * (H / H)) with (Mk k) by (field; auto).
      replace (Mk j * (0 / H)) with 0 by (unfold Rdiv; ring).
      replace (Mk k * (0 / H)) with 0 by (unfold Rdiv; ring).
      rewrite !cos_Mk, sin_0. ring.
Qed.

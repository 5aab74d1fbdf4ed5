(** * The series at the moment of loading (luetal2010.py) *)
From Coq Require Import Reals List Arith ZArith Bool Lia Lra.
From Coquelicot Require Import Coquelicot.
From Verif Require Import Base SpecLu LuModel TerzaghiModel TerzaghiProofs TerzaghiProofs2 LuProofs.
Import ListNotations.
Open Scope R_scope.

Lemma sin_Mk k : sin (Mk k) = minus1 k.
Proof.
  unfold minus1, Mk. replace ((2 * INR k + 1) / 2 * PI) with (PI / 2 + INR k * PI) by field. induction k as [|k IH].
  - cbn [INR Nat.even]. rewrite Rmult_0_l, Rplus_0_r. apply sin_PI2.
  - rewrite S_INR. replace (PI / 2 + (INR k + 1) * PI) with (PI / 2 + INR k * PI + PI) by ring. rewrite neg_sin, IH. rewrite Nat.even_succ, <- Nat.negb_even. destruct (Nat.even k); cbn; ring.
Qed.
Lemma mean_square (h : R -> R) z (I I2 : R) : 0 <= z -> is_RInt h 0 z I -> is_RInt (fun x => (h x)^2) 0 z I2 -> I^2 <= z * I2.
Proof.
  intros Hz H1 H2. destruct (Req_dec z 0) as [->|Nz].
  - assert (I = 0) as ->. { rewrite <- (is_RInt_unique _ _ _ _ H1). exact (RInt_point (V := R_CompleteNormedModule) 0 h). } lra.
  - assert (Pz : 0 < z) by lra. set (c := I / z).
    assert (Q : is_RInt (fun x => (h x - c)^2) 0 z (I2 - 2 * c * I + c^2 * z)).
    { apply (is_RInt_ext (fun x => plus ((h x)^2) (plus (scal (- 2 * c) (h x)) (c^2)))).
      - intros x _. unfold plus, scal; cbn. unfold mult; cbn. match goal with |- ?u = ?v => change (@eq R u v) end. ring.
      - apply (rint_val _ _ _ (plus I2 (plus (scal (- 2 * c) I) (scal (z - 0) (c^2))))).
        + apply (is_RInt_plus (V := R_NormedModule)); [exact H2|]. apply (is_RInt_plus (V := R_NormedModule)); [apply (is_RInt_scal (V := R_NormedModule)); exact H1|apply (is_RInt_const (V := R_NormedModule))].
        + unfold plus, scal; cbn. unfold mult; cbn. ring. }
    assert (0 <= I2 - 2 * c * I + c^2 * z) as G.
    { rewrite <- (is_RInt_unique _ _ _ _ Q). apply RInt_ge_0; [auto|eexists; exact Q|]. intros x _. apply pow2_ge_0. }
    replace (I2 - 2 * c * I + c^2 * z) with (I2 - I^2 / z) in G by (unfold c; field; lra).
    replace (I^2) with (z * (I^2 / z)) by (field; lra). apply Rmult_le_compat_l; lra.
Qed.
Section Start.
Variable H : R.
Hypothesis HH : 0 < H.
Variable n : nat.
Definition ramp (k : nat) : R := 2 * minus1 k / (Mk k)^2.
Definition b0 (k : nat) : R := 0.
Definition gap (z : R) : R := z / H - ser H b0 n ramp z 0.
Definition gap' (z : R) : R := (1 - tz_u H 1 1 1 1 n (H - z) 0) / H.
Lemma gap_d z : is_derive gap z (gap' z).
Proof.
  assert (E : gap' z = minus (/ H) (ser_z H b0 n ramp z 0)).
  { assert (X : tz_u H 1 1 1 1 n (H - z) 0 / H = ser_z H b0 n ramp z 0).
    { unfold tz_u, ser_z, ramp, b0. rewrite Rmult_1_l. unfold Rdiv at 1. rewrite Rmult_comm, <- ssum_scal. apply ssum_ext. intros k _. rewrite !Rmult_0_r, !exp_0. pose proof (Mk_pos k).
      replace (Mk k * ((H - z) / H)) with (Mk k - Mk k * z / H) by (field; lra). rewrite sin_minus, cos_Mk, <- sin_Mk. field. lra. }
    rewrite <- X. unfold gap', minus, plus, opp; cbn. field. lra. }
  rewrite E. apply (is_derive_minus (V := R_NormedModule) (fun z => z / H) (fun z => ser H b0 n ramp z 0)); [auto_derive; auto; field; lra|apply ser_dz; auto].
Qed.
Lemma tz_cont z : continuous (fun z => tz_u H 1 1 1 1 n z 0) z.
Proof. apply (ex_derive_continuous (V := R_NormedModule)). eexists. apply tz_dz. lra. Qed.
Lemma gap'_cont z : continuous gap' z.
Proof.
  unfold gap'. apply (continuous_mult (K := R_AbsRing) (fun z => 1 - tz_u H 1 1 1 1 n (H - z) 0) (fun _ => / H)); [|apply continuous_const].
  apply (continuous_minus (V := R_NormedModule) (fun _ => 1)); [apply continuous_const|]. apply (continuous_comp (fun z => H - z) (fun z => tz_u H 1 1 1 1 n z 0)); [|apply tz_cont].
  apply (continuous_minus (V := R_NormedModule) (fun _ => H)); [apply continuous_const|apply continuous_id].
Qed.
Notation doc := (tz_doc H 1 1 1 n 0).
Lemma gap'_sq : is_RInt (fun z => (gap' z)^2) 0 H (doc / H).
Proof.
  pose proof (tz_misfit H 1 1 1 1 n ltac:(lra)) as I.
  apply (is_RInt_ext (fun y => scal (/ H^2) (opp (scal (-1) ((tz_u H 1 1 1 1 n (-1 * y + H) 0 - 1)^2))))).
  - intros y _. unfold gap', opp, scal; cbn; unfold mult; cbn. replace (-1 * y + H) with (H - y) by ring. match goal with |- ?u = ?v => change (@eq R u v) end. field. lra.
  - apply (rint_val _ _ _ (scal (/ H^2) (opp (opp (1 ^ 2 * H * doc))))); [|unfold scal, opp; cbn; unfold mult; cbn; match goal with |- ?u = ?v => change (@eq R u v) end; field; lra].
    apply (is_RInt_scal (V := R_NormedModule)). apply (is_RInt_opp (V := R_NormedModule)). apply (is_RInt_comp_lin (fun z => (tz_u H 1 1 1 1 n z 0 - 1)^2) (-1) H 0 H).
    replace (-1 * 0 + H) with H by ring. replace (-1 * H + H) with 0 by ring. apply (is_RInt_swap (V := R_NormedModule)). exact I.
Qed.
Lemma gap_small z : 0 <= z <= H -> (gap z)^2 <= doc.
Proof.
  intros Hz. assert (C2 : forall a b, exists v, is_RInt (fun x => (gap' x)^2) a b v).
  { intros a b. apply (ex_RInt_continuous (V := R_CompleteNormedModule)). intros x _. apply (continuous_ext (fun x => gap' x * gap' x)); [intros; cbn; ring|]. apply (continuous_mult (K := R_AbsRing)); apply gap'_cont. }
  destruct (C2 0 z) as (v & Hv). destruct (C2 z H) as (w & Hw).
  assert (E : v + w = doc / H) by (refine (rint_unique _ 0 H _ _ _ gap'_sq); exact (is_RInt_Chasles _ _ _ _ _ _ Hv Hw)).
  assert (W : 0 <= w). { rewrite <- (is_RInt_unique _ _ _ _ Hw). apply RInt_ge_0; [lra|eexists; exact Hw|]. intros x _. apply pow2_ge_0. }
  assert (V : 0 <= v). { rewrite <- (is_RInt_unique _ _ _ _ Hv). apply RInt_ge_0; [lra|eexists; exact Hv|]. intros x _. apply pow2_ge_0. }
  assert (G : is_RInt gap' 0 z (gap z)).
  { apply (rint_val _ _ _ (minus (gap z) (gap 0))); [apply (is_RInt_derive gap gap'); [intros; apply gap_d|intros; apply gap'_cont]|].
    assert (Z : gap 0 = 0). { unfold gap. rewrite (proj1 (ser_ends H HH b0 n ramp)). unfold Rdiv. ring. } rewrite Z. unfold minus, plus, opp; cbn. ring. }
  pose proof (mean_square gap' z _ _ (proj1 Hz) G Hv) as Q. assert (z * v <= H * (doc / H)) by (apply Rmult_le_compat; lra). replace (H * (doc / H)) with doc in H0 by (field; lra). lra.
Qed.
(** the whole linear profile *)
Variables utop ubot : R.
Definition start_coef (k : nat) : R := 2 / Mk k * (utop - minus1 k * (utop - ubot) / Mk k).
Lemma start_misfit (b : nat -> R) : (1 <= n)%nat -> exists e, is_RInt (fun z => (ser H b n start_coef z 0 - linear_with_depth H utop ubot z)^2) 0 H e /\
  e <= H * (4 / (PI^2 * INR n)) * (utop^2 + (ubot - utop)^2).
Proof.
  intros Hn. assert (E : forall z, ser H b n start_coef z 0 - linear_with_depth H utop ubot z = utop * (tz_u H 1 1 1 1 n z 0 - 1) - (ubot - utop) * gap z).
  { intros z. unfold gap, linear_with_depth, ser, tz_u. rewrite Rmult_1_l.
    replace (ssum (fun k => start_coef k * (sin (Mk k * z / H) * exp (- b k * 0))) n) with (ssum (fun k => utop * (2 / Mk k * sin (Mk k * (z / H)) * exp (- Mk k ^ 2 * (tz_dTv H 1 1 1 * 0))) + (ubot - utop) * (ramp k * (sin (Mk k * z / H) * exp (- b0 k * 0)))) n).
    - rewrite ssum_plus, !ssum_scal. ring.
    - apply ssum_ext. intros k _. rewrite !Rmult_0_r, !exp_0. unfold start_coef, ramp. pose proof (Mk_pos k). replace (Mk k * (z / H)) with (Mk k * z / H) by (unfold Rdiv; ring). field. lra. }
  assert (Cg : forall z, continuous gap z) by (intros z; apply (ex_derive_continuous (V := R_NormedModule)); eexists; apply gap_d).
  assert (Cf : forall z, continuous (fun z => (ser H b n start_coef z 0 - linear_with_depth H utop ubot z)^2) z).
  { intros z. assert (Q : continuous (fun z => ser H b n start_coef z 0 - linear_with_depth H utop ubot z) z).
    { apply (continuous_ext (fun z => utop * (tz_u H 1 1 1 1 n z 0 - 1) - (ubot - utop) * gap z)); [intros; rewrite E; reflexivity|].
      apply (continuous_minus (V := R_NormedModule) (fun z => utop * (tz_u H 1 1 1 1 n z 0 - 1))).
      - apply (continuous_mult (K := R_AbsRing) (fun _ => utop)); [apply continuous_const|]. apply (continuous_minus (V := R_NormedModule)); [apply tz_cont|apply continuous_const].
      - apply (continuous_mult (K := R_AbsRing) (fun _ => ubot - utop)); [apply continuous_const|apply Cg]. }
    apply (continuous_ext (fun z => (ser H b n start_coef z 0 - linear_with_depth H utop ubot z) * (ser H b n start_coef z 0 - linear_with_depth H utop ubot z))); [intros; cbn; ring|]. apply (continuous_mult (K := R_AbsRing)); exact Q. }
  destruct (ex_RInt_continuous (V := R_CompleteNormedModule) (fun z => (ser H b n start_coef z 0 - linear_with_depth H utop ubot z)^2) 0 H) as (e & He); [intros; apply Cf|].
  exists e. split; [exact He|].
  assert (Dn : doc <= 2 / (PI^2 * INR n)).
  { eapply Rle_trans; [|apply sum_tail; auto]. right. unfold tz_doc. f_equal. apply ssum_ext. intros k _. rewrite !Rmult_0_r, exp_0. ring. }
  set (B := fun z => 2 * utop^2 * (tz_u H 1 1 1 1 n z 0 - 1)^2 + 2 * (ubot - utop)^2 * doc).
  assert (IB : is_RInt B 0 H (2 * utop^2 * (1^2 * H * doc) + H * (2 * (ubot - utop)^2 * doc))).
  { apply (rint_val _ _ _ (plus (scal (2 * utop^2) (1^2 * H * doc)) (scal (H - 0) (2 * (ubot - utop)^2 * doc)))).
    - apply (is_RInt_plus (V := R_NormedModule) (fun z => 2 * utop^2 * (tz_u H 1 1 1 1 n z 0 - 1)^2) (fun _ => 2 * (ubot - utop)^2 * doc)).
      + apply (is_RInt_scal (V := R_NormedModule) (fun z => (tz_u H 1 1 1 1 n z 0 - 1)^2)). apply tz_misfit. lra.
      + apply (is_RInt_const (V := R_NormedModule)).
    - unfold plus, scal; cbn. unfold mult; cbn. match goal with |- ?u = ?v => change (@eq R u v) end. ring. }
  assert (Le : e <= 2 * utop^2 * (1^2 * H * doc) + H * (2 * (ubot - utop)^2 * doc)).
  { apply (is_RInt_le (fun z => (ser H b n start_coef z 0 - linear_with_depth H utop ubot z)^2) B 0 H); [lra|exact He|exact IB|].
    intros z Hz. rewrite E. unfold B. pose proof (gap_small z ltac:(lra)) as G. assert (0 <= 2 * (ubot - utop)^2) by (pose proof (pow2_ge_0 (ubot - utop)); lra).
    pose proof (Rmult_le_compat_l _ _ _ H0 G). set (a := utop * (tz_u H 1 1 1 1 n z 0 - 1)). set (c := (ubot - utop) * gap z).
    replace (2 * utop ^ 2 * (tz_u H 1 1 1 1 n z 0 - 1) ^ 2) with (2 * a^2) by (unfold a; ring). replace (2 * (ubot - utop)^2 * (gap z)^2) with (2 * c^2) in H1 by (unfold c; ring).
    pose proof (pow2_ge_0 (a + c)). assert (T : (a - c)^2 + (a + c)^2 = 2 * a^2 + 2 * c^2) by ring. lra. }
  replace (2 * utop^2 * (1^2 * H * doc) + H * (2 * (ubot - utop)^2 * doc)) with (2 * H * (utop^2 + (ubot - utop)^2) * doc) in Le by ring.
  assert (0 <= 2 * H * (utop^2 + (ubot - utop)^2)) by (apply Rmult_le_pos; [lra|]; pose proof (pow2_ge_0 utop); pose proof (pow2_ge_0 (ubot - utop)); lra).
  pose proof (Rmult_le_compat_l _ _ _ H0 Dn). replace (H * (4 / (PI^2 * INR n)) * (utop^2 + (ubot - utop)^2)) with (2 * H * (utop^2 + (ubot - utop)^2) * (2 / (PI^2 * INR n))) by (unfold Rdiv; ring). lra.
Qed.
End Start.

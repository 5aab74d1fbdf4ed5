(** * Proofs about the layered soil: modes, integrals, time factor *)
From Coq Require Import Reals List Arith ZArith Bool Lia Lra.
From Coquelicot Require Import Coquelicot.
From Verif Require Import Base PiecewiseModel LoadGen LoadModel SpectralModel RootModel ConstitutiveModel SteinModel SpecPiecewise SpecLoad SpecStein PropsLoad TerzaghiProofs SteinProofs.
Import ListNotations.
Open Scope R_scope.

Lemma chop_err x : Rabs (x - chop x) <= / 10^10.
Proof. unfold chop. destruct (Rltb (Rabs x) (/ 10 ^ 10)) eqn:E; [apply Rltb_true in E; rewrite Rminus_0_r; lra|]. rewrite Rminus_eq_0, Rabs_R0. apply Rlt_le, Rinv_0_lt_compat, pow_lt. lra. Qed.
Lemma chop_not_tiny x : not_tiny x -> chop x = x.
Proof.
  intros [->|E]; unfold chop; destruct (Rltb (Rabs _) (/ 10 ^ 10)) eqn:L; auto. apply Rltb_true in L. lra.
Qed.
Lemma chop_not_tiny_opp x : not_tiny x -> chop (- x) = - x.
Proof. intros H. apply chop_not_tiny. destruct H as [->|E]; [left; ring|right; rewrite Rabs_Ropp; auto]. Qed.
Lemma chop_0 : chop 0 = 0. Proof. apply chop_not_tiny. left. auto. Qed.
Lemma tiny_pos : 0 < / 10^10. Proof. apply Rinv_0_lt_compat, pow_lt. lra. Qed.
Lemma chop_1 : chop 1 = 1.
Proof. apply chop_not_tiny. right. rewrite Rabs_R1. rewrite <- Rinv_1. apply Rinv_le_contravar; [lra|]. apply pow_R1_Rle. lra. Qed.

Lemma resid4 e1 e2 e3 e4 x1 x2 x3 x4 : chop e1 * x1 + chop e2 * x2 + chop e3 * x3 + chop e4 * x4 = 0 ->
  Rabs (e1 * x1 + e2 * x2 + e3 * x3 + e4 * x4) <= / 10^10 * (Rabs x1 + Rabs x2 + (Rabs x3 + Rabs x4)).
Proof.
  intros E. replace (e1 * x1 + e2 * x2 + e3 * x3 + e4 * x4) with ((e1 - chop e1) * x1 + (e2 - chop e2) * x2 + ((e3 - chop e3) * x3 + (e4 - chop e4) * x4)) by lra.
  assert (Q : forall e x, Rabs ((e - chop e) * x) <= / 10^10 * Rabs x) by (intros e x; rewrite Rabs_mult; apply Rmult_le_compat_r; [apply Rabs_pos|apply chop_err]).
  eapply Rle_trans; [apply Rabs_triang|]. rewrite Rmult_plus_distr_l. apply Rplus_le_compat; (eapply Rle_trans; [apply Rabs_triang|]); rewrite Rmult_plus_distr_l; apply Rplus_le_compat; apply Q.
Qed.

(** ** Modes *)
Definition mode_of (lam : R) (T : term) : mode := mkMode (t_A T) lam
  (fun i z => t_B T i * cos (t_beta T i * z) + t_C T i * sin (t_beta T i * z))
  (fun i z => t_beta T i * (- t_B T i * sin (t_beta T i * z) + t_C T i * cos (t_beta T i * z))).

Section S.
Variable P : stein.
Hypothesis Hs : is_soil (soil_of P).
Notation s := (soil_of P).
Notation N := (nlayers P).
Variable solve : list (list R) -> list R -> result (list R).
Hypothesis Hsolve : solves solve.
Variable b : R.
Hypothesis Hb : 0 < b.
Variable tb : (R * R) * (R * R).

(** the matrix rows applied to the coefficients *)
Definition coefs (B C : nat -> R) (c : nat) : R := if Nat.even c then B (c / 2)%nat else C (c / 2)%nat.
Lemma coefs_even B C i : coefs B C (2 * i) = B i.
Proof. unfold coefs. replace (Nat.even (2 * i)) with true by (symmetry; rewrite Nat.even_spec; exists i; lia). rewrite Nat.mul_comm, Nat.div_mul; auto. Qed.
Lemma coefs_odd B C i : coefs B C (2 * i + 1) = C i.
Proof.
  unfold coefs. replace (Nat.even (2 * i + 1)) with false. - f_equal. rewrite Nat.add_comm, Nat.mul_comm, Nat.div_add by lia. reflexivity.
  - symmetry. apply Bool.negb_true_iff. rewrite Nat.negb_even. apply Nat.odd_spec. exists i. lia.
Qed.
Definition rows (B C : nat -> R) : Prop := forall r, (r < 2 * N - 1)%nat ->
  total (2 * N) (fun c => chop (bc_entry P tb b r c) * coefs B C c) = 0.

Lemma term_rows T : calc_term solve P tb b = Ok T ->
  t_beta T = beta P b /\ t_C T (N - 1)%nat = 1 /\ t_A T = am_numer P (t_beta T) (t_B T) (t_C T) / am_denom P (t_beta T) (t_B T) (t_C T) /\
  rows (t_B T) (t_C T) /\ forall B C, C (N - 1)%nat = 1 -> rows B C -> forall i, (i < N)%nat -> B i = t_B T i /\ C i = t_C T i.
Proof.
  pose proof (N_pos P Hs) as NP. unfold calc_term. set (A := grid _ _ _). set (rhs := map _ _). destruct (solve A rhs) as [x|e] eqn:E; [|discriminate]. cbn [bind]. intros [= <-].
  cbn [t_beta t_B t_C t_A]. apply Hsolve in E. assert (Lr : length rhs = (2 * N - 1)%nat) by (unfold rhs; rewrite map_length, seq_length; auto).
  rewrite Lr in E. destruct E as [[Lx Ex] Ux].
  assert (SN : (2 * N)%nat = S (2 * N - 1)) by lia.
  assert (Nr : forall r, (r < 2 * N - 1)%nat -> nth r rhs 0 = - chop (bc_entry P tb b r (2 * N - 1))).
  { intros r Hr. unfold rhs. rewrite nth_indep with (d' := - chop (bc_entry P tb b 0 (2 * N - 1))) by (rewrite map_length, seq_length; auto).
    rewrite (map_nth (fun r => - chop (bc_entry P tb b r (2 * N - 1)))). rewrite seq_nth by auto. reflexivity. }
  assert (Cf : forall y, length y = (2 * N - 1)%nat -> forall c, (c < 2 * N)%nat -> coefs (fun i => nth (2 * i) y 0) (fun i => if Nat.eqb i (N - 1) then 1 else nth (2 * i + 1) y 0) c = if Nat.eqb c (2 * N - 1) then 1 else nth c y 0).
  { intros y Ly c Hc. destruct (Nat.Even_or_Odd c) as [[k ->]|[k ->]].
    - rewrite coefs_even. replace (Nat.eqb (2 * k) (2 * N - 1)) with false by (symmetry; apply Nat.eqb_neq; lia). reflexivity.
    - rewrite coefs_odd. destruct (Nat.eqb_spec k (N - 1)) as [->|n]; [replace (Nat.eqb (2 * (N - 1) + 1) (2 * N - 1)) with true by (symmetry; apply Nat.eqb_eq; lia)|replace (Nat.eqb (2 * k + 1) (2 * N - 1)) with false by (symmetry; apply Nat.eqb_neq; lia)]; reflexivity. }
  split; [reflexivity|]. split; [rewrite Nat.eqb_refl; reflexivity|]. split; [reflexivity|]. split.
  - intros r Hr. rewrite SN, total_S. rewrite Cf by (auto; lia). rewrite Nat.eqb_refl, Rmult_1_r.
    rewrite (total_ext _ _ (fun c => nth c (nth r A []) 0 * nth c x 0)).
    + rewrite Ex, Nr by auto. ring.
    + intros c Hc. rewrite Cf by (auto; lia). replace (Nat.eqb c (2 * N - 1)) with false by (symmetry; apply Nat.eqb_neq; lia).
      unfold A. rewrite nth_grid by auto. reflexivity.
  - intros B C C1 HR. set (y := map (coefs B C) (seq 0 (2 * N - 1))).
    assert (Ny : forall c, (c < 2 * N - 1)%nat -> nth c y 0 = coefs B C c).
    { intros c Hc. unfold y. rewrite nth_indep with (d' := coefs B C 0) by (rewrite map_length, seq_length; auto). rewrite map_nth, seq_nth by auto. reflexivity. }
    assert (Y : y = x).
    { apply Ux. split; [unfold y; rewrite map_length, seq_length; auto|]. intros r Hr. pose proof (HR r Hr) as Q. rewrite SN, total_S in Q.
      rewrite Nr by auto. replace (coefs B C (2 * N - 1)) with 1 in Q by (replace (2 * N - 1)%nat with (2 * (N - 1) + 1)%nat by lia; rewrite coefs_odd; auto).
      rewrite (total_ext _ _ (fun c => chop (bc_entry P tb b r c) * coefs B C c)); [lra|]. intros c Hc. rewrite Ny by auto. unfold A. rewrite nth_grid by auto. reflexivity. }
    intros i Hi. rewrite <- Y. cbv beta. change (fun c => coefs B C c) with (coefs B C). split.
    + transitivity (nth (2 * i) y 0); [|reflexivity]. rewrite (Ny (2 * i)%nat) by lia. symmetry. apply coefs_even.
    + destruct (Nat.eqb_spec i (N - 1)) as [->|n]; auto. transitivity (nth (2 * i + 1) y 0); [|reflexivity]. rewrite (Ny (2 * i + 1)%nat) by lia. symmetry. apply coefs_odd.
Qed.

(** the three kinds of rows *)
Lemma rows_top B C : rows B C -> chop (snd (fst tb) * -1) * B 0%nat + chop (fst (fst tb) * b) * C 0%nat = 0.
Proof.
  intros HR. pose proof (N_pos P Hs) as NP. specialize (HR 0%nat ltac:(lia)). rewrite total_support2 in HR; [|lia|].
  - rewrite !row_top in HR. cbn [Nat.eqb] in HR. change (coefs B C 0) with (coefs B C (2 * 0)) in HR. change (coefs B C 1) with (coefs B C (2 * 0 + 1)) in HR. rewrite coefs_even, coefs_odd in HR. exact HR.
  - intros c Hc Hc2. rewrite row_top. replace (Nat.eqb c 0) with false by (symmetry; apply Nat.eqb_neq; lia). replace (Nat.eqb c 1) with false by (symmetry; apply Nat.eqb_neq; lia). rewrite chop_0. ring.
Qed.
Lemma four_coefs B C i : coefs B C (2 * i + 2) = B (S i) /\ coefs B C (2 * i + 3) = C (S i).
Proof. replace (2 * i + 2)%nat with (2 * S i)%nat by lia. replace (2 * i + 3)%nat with (2 * S i + 1)%nat by lia. rewrite coefs_even, coefs_odd. auto. Qed.
Ltac eqbs := repeat match goal with
  | |- context [Nat.eqb ?x ?y] => first [replace (Nat.eqb x y) with true by (symmetry; apply Nat.eqb_eq; lia) | replace (Nat.eqb x y) with false by (symmetry; apply Nat.eqb_neq; lia)] end.
Lemma rows_join B C i : (S i < N)%nat -> rows B C -> let z := depth s (S i) in let bt := beta P b in
  chop (cos (bt i * z)) * B i + chop (sin (bt i * z)) * C i + chop (- cos (bt (S i) * z)) * B (S i) + chop (- sin (bt (S i) * z)) * C (S i) = 0.
Proof.
  intros Hi HR z bt. specialize (HR (2 * i + 1)%nat ltac:(lia)). rewrite (total_support4 _ (2 * i)) in HR; [|lia|].
  - rewrite !(row_join P Hs) in HR by auto. revert HR. cbv zeta. eqbs. destruct (four_coefs B C i) as [-> ->]. rewrite coefs_even, coefs_odd. auto.
  - intros c Hc Hc2. rewrite (row_join P Hs) by auto. cbv zeta. eqbs. rewrite chop_0. ring.
Qed.
Lemma rows_flow B C i : (S i < N)%nat -> rows B C -> let z := depth s (S i) in let bt := beta P b in
  chop (- alpha P i * bt i * sin (bt i * z)) * B i + chop (alpha P i * bt i * cos (bt i * z)) * C i + chop (bt (S i) * sin (bt (S i) * z)) * B (S i) + chop (- bt (S i) * cos (bt (S i) * z)) * C (S i) = 0.
Proof.
  intros Hi HR z bt. specialize (HR (2 * i + 2)%nat ltac:(lia)). rewrite (total_support4 _ (2 * i)) in HR; [|lia|].
  - rewrite !(row_flow P Hs) in HR by auto. revert HR. cbv zeta. eqbs. destruct (four_coefs B C i) as [-> ->]. rewrite coefs_even, coefs_odd. auto.
  - intros c Hc Hc2. rewrite (row_flow P Hs) by auto. cbv zeta. eqbs. rewrite chop_0. ring.
Qed.
Lemma rows_make B C : chop (snd (fst tb) * -1) * B 0%nat + chop (fst (fst tb) * b) * C 0%nat = 0 ->
  (forall i, (S i < N)%nat -> let z := depth s (S i) in let bt := beta P b in
    chop (cos (bt i * z)) * B i + chop (sin (bt i * z)) * C i + chop (- cos (bt (S i) * z)) * B (S i) + chop (- sin (bt (S i) * z)) * C (S i) = 0) ->
  (forall i, (S i < N)%nat -> let z := depth s (S i) in let bt := beta P b in
    chop (- alpha P i * bt i * sin (bt i * z)) * B i + chop (alpha P i * bt i * cos (bt i * z)) * C i + chop (bt (S i) * sin (bt (S i) * z)) * B (S i) + chop (- bt (S i) * cos (bt (S i) * z)) * C (S i) = 0) ->
  rows B C.
Proof.
  intros H0 H1 H2 r Hr. pose proof (N_pos P Hs) as NP. destruct r as [|r].
  - rewrite total_support2; [|lia|].
    + rewrite !row_top. cbn [Nat.eqb]. change (coefs B C 0) with (coefs B C (2 * 0)). change (coefs B C 1) with (coefs B C (2 * 0 + 1)). rewrite coefs_even, coefs_odd. exact H0.
    + intros c Hc Hc2. rewrite row_top. eqbs. rewrite chop_0. ring.
  - destruct (Nat.Even_or_Odd r) as [[i ->]|[i ->]].
    + replace (S (2 * i)) with (2 * i + 1)%nat in * by lia. assert (Hi : (S i < N)%nat) by lia. rewrite (total_support4 _ (2 * i)); [|lia|].
      * rewrite !(row_join P Hs) by auto. cbv zeta. eqbs. destruct (four_coefs B C i) as [-> ->]. rewrite coefs_even, coefs_odd. apply H1. auto.
      * intros c Hc Hc2. rewrite (row_join P Hs) by auto. cbv zeta. eqbs. rewrite chop_0. ring.
    + replace (S (2 * i + 1)) with (2 * i + 2)%nat in * by lia. assert (Hi : (S i < N)%nat) by lia. rewrite (total_support4 _ (2 * i)); [|lia|].
      * rewrite !(row_flow P Hs) by auto. cbv zeta. eqbs. destruct (four_coefs B C i) as [-> ->]. rewrite coefs_even, coefs_odd. apply H2. auto.
      * intros c Hc Hc2. rewrite (row_flow P Hs) by auto. cbv zeta. eqbs. rewrite chop_0. ring.
Qed.
End S.

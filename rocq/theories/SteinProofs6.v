(** * Proofs about the layered soil: the roots of the characteristic equation are the decays of the soil *)
From Coq Require Import Reals List Arith ZArith Bool Lia Lra.
From Coquelicot Require Import Coquelicot.
From Verif Require Import Base SpecPiecewise SpecStein SteinModel SteinProofs SteinProofs2 SteinProofs3 SteinProofs5.
Import ListNotations.
Open Scope R_scope.

Section S.
Variable P : stein.
Hypothesis Hs : is_soil (soil_of P).
Notation s := (soil_of P).
Notation N := (nlayers P).
Variable b : R.
Hypothesis Hb : 0 < b.
Variable tb : (R * R) * (R * R).
Hypothesis Ht : bc_top P = Ok (fst tb).
Hypothesis Hbot : bc_bot P = Ok (snd tb).
Notation m B C := (mode_of (rate P b) (mkTerm (beta P b) B C 0)).
Definition row (B C : nat -> R) (r : nat) : R := total (2 * N) (fun c => bc_entry P tb b r c * coefs B C c).

Ltac eqbs := repeat match goal with
  | |- context [Nat.eqb ?x ?y] => first [replace (Nat.eqb x y) with true by (symmetry; apply Nat.eqb_eq; lia) | replace (Nat.eqb x y) with false by (symmetry; apply Nat.eqb_neq; lia)] end.
Lemma r_top B C : row B C 0 = snd (fst tb) * -1 * B 0%nat + fst (fst tb) * b * C 0%nat.
Proof.
  pose proof (N_pos P Hs) as NP. unfold row. rewrite total_support2; [|lia|].
  - rewrite !row_top. cbn [Nat.eqb]. change (coefs B C 0) with (coefs B C (2 * 0)). change (coefs B C 1) with (coefs B C (2 * 0 + 1)). rewrite coefs_even, coefs_odd. reflexivity.
  - intros c Hc Hc2. rewrite row_top. eqbs. ring.
Qed.
Lemma r_join B C i : (S i < N)%nat -> row B C (2 * i + 1) = shape (m B C) i (depth s (S i)) - shape (m B C) (S i) (depth s (S i)).
Proof.
  intros Hi. unfold row. rewrite (total_support4 _ (2 * i)); [|lia|].
  - rewrite !(row_join P Hs) by auto. cbv zeta. eqbs. destruct (four_coefs B C i) as [-> ->]. rewrite coefs_even, coefs_odd. cbn [shape mode_of t_B t_C t_beta]. ring.
  - intros c Hc Hc2. rewrite (row_join P Hs) by auto. cbv zeta. eqbs. ring.
Qed.
Lemma r_flow B C i : (S i < N)%nat -> row B C (2 * i + 2) * at_ (perm s) (S i) = at_ (perm s) i * slope (m B C) i (depth s (S i)) - at_ (perm s) (S i) * slope (m B C) (S i) (depth s (S i)).
Proof.
  intros Hi. unfold row. rewrite (total_support4 _ (2 * i)); [|lia|].
  - rewrite !(row_flow P Hs) by auto. cbv zeta. eqbs. destruct (four_coefs B C i) as [-> ->]. rewrite coefs_even, coefs_odd. cbn [slope mode_of t_B t_C t_beta].
    change (at_ (perm s) i) with (kv P i). change (at_ (perm s) (S i)) with (kv P (S i)). pose proof (kvpos P Hs (S i) Hi). unfold alpha. field. lra.
  - intros c Hc Hc2. rewrite (row_flow P Hs) by auto. cbv zeta. eqbs. ring.
Qed.
Lemma r_bot B C : row B C (2 * N - 1) = snd (snd tb) * shape (m B C) (N - 1) (depth s N) + fst (snd tb) * slope (m B C) (N - 1) (depth s N).
Proof.
  pose proof (N_pos P Hs) as NP. unfold row. rewrite total_support_last; [|lia|].
  - rewrite !(row_bottom P Hs). cbv zeta. eqbs. replace (2 * N - 2)%nat with (2 * (N - 1))%nat by lia. replace (2 * N - 1)%nat with (2 * (N - 1) + 1)%nat by lia.
    rewrite coefs_even, coefs_odd. cbn [shape slope mode_of t_B t_C t_beta]. ring.
  - intros c Hc. rewrite (row_bottom P Hs). cbv zeta. eqbs. ring.
Qed.
Lemma bcs : (s_bctop P = 0%Z /\ fst tb = (0, -1) \/ s_bctop P = 1%Z /\ fst tb = (1, 0)) /\ (s_bcbot P = 0%Z /\ snd tb = (0, 1) \/ s_bcbot P = 1%Z /\ snd tb = (1, 0)).
Proof.
  split.
  - pose proof Ht as Q. unfold bc_top in Q. destruct (Z.eqb_spec (s_bctop P) 0); [left; split; auto; congruence|]. destruct (Z.eqb_spec (s_bctop P) 1); [right; split; auto; congruence|].
    destruct (Z.eqb_spec (s_bctop P) 3); discriminate.
  - pose proof Hbot as Q. unfold bc_bot in Q. destruct (Z.eqb_spec (s_bcbot P) 0); [left; split; auto; congruence|]. destruct (Z.eqb_spec (s_bcbot P) 1); [right; split; auto; congruence|].
    destruct (Z.eqb_spec (s_bcbot P) 3); discriminate.
Qed.
Lemma at0 B C i : (i < N)%nat -> shape (m B C) i 0 = B i /\ slope (m B C) i 0 = beta P b i * C i.
Proof. intros _. cbn [shape slope mode_of t_B t_C t_beta]. rewrite Rmult_0_r, cos_0, sin_0. split; ring. Qed.
(** all rows vanish exactly when the combination meets all the conditions *)
Lemma rows_iff B C : (forall r, (r < 2 * N)%nat -> row B C r = 0) <-> at_top (s_bctop P) (m B C) /\ joined s (m B C) /\ at_bottom s (s_bcbot P) (m B C).
Proof.
  pose proof (N_pos P Hs) as NP. pose proof (N_layers P Hs) as NL. destruct bcs as [Ct Cb]. destruct (at0 B C 0 ltac:(lia)) as [S0 S1]. cbn [beta] in S1.
  assert (Q1 : row B C 0 = 0 <-> at_top (s_bctop P) (m B C)).
  { rewrite r_top. unfold at_top. rewrite S0, S1. destruct Ct as [[-> ->]|[-> ->]]; cbn [fst snd]; split.
    - intros E. split; [intros _; lra|discriminate].
    - intros [E _]. rewrite (E eq_refl). ring.
    - intros E. split; [discriminate|intros _]. lra.
    - intros [_ E]. specialize (E eq_refl). lra. }
  assert (Q2 : (forall i, (S i < N)%nat -> row B C (2 * i + 1) = 0 /\ row B C (2 * i + 2) = 0) <-> joined s (m B C)).
  { split.
    - intros E i Hi. rewrite <- NL in Hi. destruct (E i Hi) as [E1 E2]. rewrite r_join in E1 by auto. pose proof (r_flow B C i Hi) as E3. rewrite E2 in E3. split; lra.
    - intros E i Hi. rewrite NL in Hi. destruct (E i Hi) as [E1 E2]. rewrite <- NL in Hi. split; [rewrite r_join by auto; lra|].
      pose proof (r_flow B C i Hi) as E3. pose proof (kvpos P Hs (S i) Hi) as K. change (at_ (perm s) (S i)) with (kv P (S i)) in E3. change (at_ (perm s) (S i)) with (kv P (S i)) in E2.
      assert (E4 : row B C (2 * i + 2) * kv P (S i) = 0) by lra. apply Rmult_integral in E4. destruct E4; [auto|lra]. }
  assert (Q3 : row B C (2 * N - 1) = 0 <-> at_bottom s (s_bcbot P) (m B C)).
  { rewrite r_bot. unfold at_bottom. cbv zeta. rewrite <- NL. destruct Cb as [[-> ->]|[-> ->]]; cbn [fst snd]; split.
    - intros E. split; [intros _; lra|discriminate].
    - intros [E _]. rewrite (E eq_refl). ring.
    - intros E. split; [discriminate|intros _]. lra.
    - intros [_ E]. specialize (E eq_refl). lra. }
  rewrite <- Q1, <- Q2, <- Q3. split.
  - intros E. split; [apply E; lia|]. split; [intros i Hi; split; apply E; lia|apply E; lia].
  - intros (E1 & E2 & E3) r Hr. destruct r as [|r]; [auto|]. destruct (Nat.Even_or_Odd r) as [[i ->]|[i ->]].
    + destruct (le_lt_dec N (S i)) as [L|L]; [replace (S (2 * i)) with (2 * N - 1)%nat by lia; auto|]. replace (S (2 * i)) with (2 * i + 1)%nat by lia. apply E2; auto.
    + replace (S (2 * i + 1)) with (2 * i + 2)%nat by lia. apply E2. lia.
Qed.
Lemma characteristic_iff det : tells_singular (2 * layers s) det -> characteristic det P tb b = 0 <-> eigenvalue s (s_bctop P) (s_bcbot P) (rate P b).
Proof.
  intros Hd. pose proof (N_pos P Hs) as NP. pose proof (N_layers P Hs) as NL. unfold characteristic. set (A := grid _ _ _).
  assert (SA : square (2 * N) A).
  { split; [unfold A, grid; rewrite map_length, seq_length; auto|]. intros r Hr. unfold A, grid. rewrite nth_indep with (d' := map (bc_entry P tb b 0) (seq 0 (2 * N))) by (rewrite map_length, seq_length; auto).
    rewrite (map_nth (fun r => map (bc_entry P tb b r) (seq 0 (2 * N)))). rewrite map_length, seq_length. auto. }
  rewrite <- NL in Hd. rewrite (Hd _ SA). clear Hd. split.
  - intros (x & Lx & (c & Hc & Nz) & E). set (B := fun i => nth (2 * i) x 0). set (C := fun i => nth (2 * i + 1) x 0).
    assert (K : forall c, coefs B C c = nth c x 0).
    { intros k. destruct (Nat.Even_or_Odd k) as [[i ->]|[i ->]]; [rewrite coefs_even|rewrite coefs_odd]; reflexivity. }
    assert (R0 : forall r, (r < 2 * N)%nat -> row B C r = 0).
    { intros r Hr. etransitivity; [|exact (E r Hr)]. unfold row. apply total_ext. intros i Hi. rewrite K. unfold A. rewrite nth_grid by auto. reflexivity. }
    apply rows_iff in R0. destruct R0 as (R1 & R2 & R3). exists (m B C). split; [reflexivity|]. split; [apply (m_equation P Hs b Hb); reflexivity|]. split; [auto|]. split; [auto|]. split; [auto|].
    rewrite <- K in Nz. destruct (Nat.Even_or_Odd c) as [[i ->]|[i ->]].
    + rewrite coefs_even in Nz. exists i, 0. split; [lia|]. rewrite (proj1 (at0 B C i ltac:(lia))). auto.
    + rewrite coefs_odd in Nz. pose proof (beta_pos P Hs b Hb i ltac:(lia)) as Bp. exists i, (PI / 2 / beta P b i). split; [lia|]. cbn [shape mode_of t_B t_C t_beta].
      replace (beta P b i * (PI / 2 / beta P b i)) with (PI / 2) by (field; lra). rewrite cos_PI2, sin_PI2. intros Q. apply Nz. lra.
  - intros (m' & Ed & Eq & T0 & J0 & B0 & (i0 & z0 & Hi0 & Nz)).
    set (B := fun i => shape m' i 0). set (C := fun i => slope m' i 0 / beta P b i).
    assert (F : forall i z, (i < N)%nat -> shape m' i z = shape (m B C) i z /\ slope m' i z = slope (m B C) i z).
    { intros i z Hi. apply (harmonic (shape m' i) (slope m' i) (beta P b i)); [apply (beta_pos P Hs b Hb); auto|]. intros w. destruct (beta_sq P Hs b Hb i Hi) as [_ E]. rewrite E.
      pose proof Hi as Hi'. rewrite NL in Hi'. destruct (Eq i w Hi') as [E1 E2]. split; auto. rewrite Ed in E2. exact E2. }
    assert (R0 : forall r, (r < 2 * N)%nat -> row B C r = 0).
    { apply rows_iff. split; [|split].
      - unfold at_top. destruct (F 0%nat 0 ltac:(lia)) as [<- <-]. exact T0.
      - intros i Hi. pose proof Hi as Hi'. rewrite <- NL in Hi'. destruct (F i (depth s (S i)) ltac:(lia)) as [<- <-]. destruct (F (S i) (depth s (S i)) ltac:(lia)) as [<- <-]. apply J0. auto.
      - unfold at_bottom in *. cbv zeta in *. rewrite <- NL in *. destruct (F (N - 1)%nat (depth s N) ltac:(lia)) as [<- <-]. exact B0. }
    set (x := map (coefs B C) (seq 0 (2 * N))).
    assert (Nx : forall c, (c < 2 * N)%nat -> nth c x 0 = coefs B C c).
    { intros c Hc. unfold x. rewrite nth_indep with (d' := coefs B C 0) by (rewrite map_length, seq_length; auto). rewrite map_nth, seq_nth by auto. reflexivity. }
    exists x. split; [unfold x; rewrite map_length, seq_length; auto|]. rewrite <- NL in Hi0. split.
    + rewrite (proj1 (F i0 z0 Hi0)) in Nz. cbn [shape mode_of t_B t_C t_beta] in Nz. destruct (Req_dec (B i0) 0) as [Z|Z].
      * exists (2 * i0 + 1)%nat. split; [lia|]. rewrite Nx by lia. rewrite coefs_odd. intros Q. apply Nz. rewrite Z, Q. ring.
      * exists (2 * i0)%nat. split; [lia|]. rewrite Nx by lia. rewrite coefs_even. auto.
    + intros r Hr. transitivity (row B C r); [|exact (R0 r Hr)]. unfold row. apply total_ext. intros c Hc. rewrite Nx by auto. unfold A. rewrite nth_grid by auto. reflexivity.
Qed.
End S.

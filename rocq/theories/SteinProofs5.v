(** * Proofs about the layered soil: uniqueness of the shape, orthogonality, best approximation *)
From Coq Require Import Reals List Arith ZArith Bool Lia Lra.
From Coquelicot Require Import Coquelicot.
From Verif Require Import Base SpecPiecewise SpecStein SteinModel TerzaghiProofs SteinProofs SteinProofs2 SteinProofs3 SteinProofs4.
Import ListNotations.
Open Scope R_scope.

Lemma rest p q k z : 0 < k -> (forall x, is_derive p x (q x)) -> (forall x, is_derive q x (- k^2 * p x)) -> p 0 = 0 -> q 0 = 0 -> p z = 0 /\ q z = 0.
Proof.
  intros Hk Dp Dq P0 Q0.
  set (e := fun x => k^2 * (p x)^2 + (q x)^2).
  assert (De : forall x, is_derive e x 0).
  { intros x. unfold e. assert (X1 : ex_derive p x) by (eexists; apply Dp). assert (X2 : ex_derive q x) by (eexists; apply Dq).
    auto_derive; [auto|]. change (fun x0 : R => p x0) with p. change (fun x0 : R => q x0) with q. rewrite (is_derive_unique _ _ _ (Dp x)), (is_derive_unique _ _ _ (Dq x)). ring. }
  assert (E0 : e 0 = 0) by (unfold e; rewrite P0, Q0; ring).
  assert (Ez : e z = 0).
  { destruct (MVT_gen e 0 z (fun _ => 0)) as (x & _ & M); [intros; apply De|intros x _; apply continuity_pt_filterlim; apply (ex_derive_continuous (V := R_NormedModule) e x (ex_intro _ _ (De x)))|lra]. }
  unfold e in Ez. pose proof (pow2_ge_0 (p z)) as P1. pose proof (pow2_ge_0 (q z)) as P2. assert (K2 : 0 < k^2) by (apply pow_lt; auto).
  assert (Q : k^2 * (p z)^2 = 0 /\ (q z)^2 = 0). { assert (0 <= k^2 * (p z)^2) by (apply Rmult_le_pos; lra). lra. }
  destruct Q as [Q1 Q2]. apply Rmult_integral in Q1. destruct Q1 as [Q1|Q1]; [lra|].
  assert (Z1 : p z = 0) by (destruct (Req_dec (p z) 0) as [|X]; auto; apply pow_nonzero with (n := 2%nat) in X; lra).
  assert (Z2 : q z = 0) by (destruct (Req_dec (q z) 0) as [|X]; auto; apply pow_nonzero with (n := 2%nat) in X; lra).
  auto.
Qed.
(** f'' = - k^2 f has only the harmonic solutions *)
Lemma harmonic f g k : 0 < k -> (forall z, is_derive f z (g z) /\ is_derive g z (- k^2 * f z)) ->
  forall z, f z = f 0 * cos (k * z) + g 0 / k * sin (k * z) /\ g z = k * (- f 0 * sin (k * z) + g 0 / k * cos (k * z)).
Proof.
  intros Hk D z. set (B := f 0). set (C := g 0 / k).
  set (p := fun x => f x - (B * cos (k * x) + C * sin (k * x))). set (q := fun x => g x - k * (- B * sin (k * x) + C * cos (k * x))).
  assert (Dp : forall x, is_derive p x (q x)).
  { intros x. unfold p, q. apply (is_derive_minus (V := R_NormedModule) f (fun x => B * cos (k * x) + C * sin (k * x))); [apply D|]. auto_derive; auto. match goal with |- ?u = ?v => change (@eq R u v) end. ring. }
  assert (Dq : forall x, is_derive q x (- k^2 * p x)).
  { intros x. unfold p, q. replace (- k^2 * (f x - (B * cos (k * x) + C * sin (k * x)))) with (- k^2 * f x - (- k^2 * (B * cos (k * x) + C * sin (k * x)))) by ring.
    apply (is_derive_minus (V := R_NormedModule) g (fun x => k * (- B * sin (k * x) + C * cos (k * x)))); [apply D|]. auto_derive; auto. match goal with |- ?u = ?v => change (@eq R u v) end. ring. }
  assert (P0 : p 0 = 0). { unfold p. rewrite Rmult_0_r, cos_0, sin_0. unfold B. match goal with |- ?u = ?v => change (@eq R u v) end. ring. }
  assert (Q0 : q 0 = 0). { unfold q. rewrite Rmult_0_r, cos_0, sin_0. unfold B, C. match goal with |- ?u = ?v => change (@eq R u v) end. field. lra. }
  destruct (rest p q k z Hk Dp Dq P0 Q0) as [Z1 Z2].
  unfold p in Z1. unfold q in Z2. lra.
Qed.

Section Only.
Variable P : stein.
Hypothesis Hs : is_soil (soil_of P).
Notation s := (soil_of P).
Notation N := (nlayers P).
Variable solve : list (list R) -> list R -> result (list R).
Hypothesis Hsolve : solves solve.
Variable b : R.
Hypothesis Hb : 0 < b.
Variable tb : (R * R) * (R * R).
Variable T : term.
Hypothesis HT : calc_term solve P tb b = Ok T.
Notation m := (mode_of (rate P b) T).
Hypothesis Htop : bc_top P = Ok (fst tb).
Hypothesis Hbc : (s_bctop P = 0 \/ s_bctop P = 1)%Z.

Lemma rows_lin B C B' C' c d : rows P b tb B C -> rows P b tb B' C' -> rows P b tb (fun i => c * B i + d * B' i) (fun i => c * C i + d * C' i).
Proof.
  intros H1 H2 r Hr. specialize (H1 r Hr). specialize (H2 r Hr).
  rewrite (total_ext _ _ (fun x => c * (chop (bc_entry P tb b r x) * coefs B C x) + d * (chop (bc_entry P tb b r x) * coefs B' C' x))).
  - rewrite total_plus, !total_scal, H1, H2. ring.
  - intros x _. unfold coefs. destruct (Nat.even x); ring.
Qed.
Lemma only : none_tiny s (rate P b) -> forall m', decay m' = rate P b -> mode_equation s m' -> at_top (s_bctop P) m' -> joined s m' ->
    exists c, forall i z, (i < layers s)%nat -> shape m' i z = c * shape m i z /\ slope m' i z = c * slope m i z.
Proof.
  intros [W0 W] m' Ed Eq Top Jo. pose proof (N_pos P Hs) as NP. destruct (term_rows P Hs solve Hsolve b tb T HT) as (ET & C1 & _ & HR & HU).
  set (B' := fun i => shape m' i 0). set (C' := fun i => slope m' i 0 / beta P b i).
  assert (F : forall i z, (i < N)%nat -> shape m' i z = B' i * cos (beta P b i * z) + C' i * sin (beta P b i * z) /\ slope m' i z = beta P b i * (- B' i * sin (beta P b i * z) + C' i * cos (beta P b i * z))).
  { intros i z Hi. apply (harmonic (shape m' i) (slope m' i) (beta P b i)); [apply (beta_pos P Hs b Hb); auto|]. intros x. destruct (beta_sq P Hs b Hb i Hi) as [_ E]. rewrite E.
    pose proof Hi as Hi'. rewrite (N_layers P Hs) in Hi'. destruct (Eq i x Hi') as [E1 E2]. split; auto. rewrite Ed in E2. exact E2. }
  assert (HR' : rows P b tb B' C').
  { apply (rows_make P Hs).
    - destruct Top as [T0 T1]. pose proof Htop as Ht. unfold bc_top in Ht. destruct Hbc as [Z|Z]; rewrite Z in Ht; cbn in Ht; injection Ht as Ht; rewrite <- Ht; cbn [fst snd].
      + unfold B'. rewrite (T0 Z). rewrite Rmult_0_l, chop_0. ring.
      + unfold C'. rewrite (T1 Z). rewrite Rmult_0_l, chop_0. unfold Rdiv. ring.
    - intros i Hi z bt. pose proof Hi as Hi'. rewrite (N_layers P Hs) in Hi'. specialize (W i Hi'). cbv zeta in W. rewrite <- !(beta_wave P Hs b Hb) in W by lia. fold z in W. fold bt in W.
      destruct W as (W1 & W2 & W3 & W4 & _). rewrite (chop_not_tiny _ W1), (chop_not_tiny _ W2), (chop_not_tiny_opp _ W3), (chop_not_tiny_opp _ W4).
      destruct (Jo i Hi') as [J _]. fold z in J. rewrite (proj1 (F i z ltac:(lia))), (proj1 (F (S i) z Hi)) in J. fold bt in J. lra.
    - intros i Hi z bt. pose proof Hi as Hi'. rewrite (N_layers P Hs) in Hi'. specialize (W i Hi'). cbv zeta in W. rewrite <- !(beta_wave P Hs b Hb) in W by lia. fold z in W. fold bt in W.
      change (at_ (perm s) i / at_ (perm s) (S i)) with (alpha P i) in W. destruct W as (_ & _ & _ & _ & W5 & W6 & W7 & W8).
      replace (- alpha P i * bt i * sin (bt i * z)) with (- (alpha P i * bt i * sin (bt i * z))) by ring. replace (- bt (S i) * cos (bt (S i) * z)) with (- (bt (S i) * cos (bt (S i) * z))) by ring.
      rewrite (chop_not_tiny_opp _ W5), (chop_not_tiny _ W6), (chop_not_tiny _ W7), (chop_not_tiny_opp _ W8).
      destruct (Jo i Hi') as [_ J]. fold z in J. rewrite (proj2 (F i z ltac:(lia))), (proj2 (F (S i) z Hi)) in J. fold bt in J.
      change (at_ (perm s) i) with (kv P i) in J. change (at_ (perm s) (S i)) with (kv P (S i)) in J. pose proof (kvpos P Hs (S i) Hi) as K.
      assert (Q : kv P i = alpha P i * kv P (S i)) by (unfold alpha; field; lra). rewrite Q in J.
      assert (J' : kv P (S i) * (alpha P i * (bt i * (- B' i * sin (bt i * z) + C' i * cos (bt i * z)))) = kv P (S i) * (bt (S i) * (- B' (S i) * sin (bt (S i) * z) + C' (S i) * cos (bt (S i) * z)))) by lra.
      apply Rmult_eq_reg_l in J'; [lra|lra]. }
  set (c := C' (N - 1)%nat). exists c.
  pose proof (HU (fun i => 1 * B' i + (1 - c) * t_B T i) (fun i => 1 * C' i + (1 - c) * t_C T i)) as U. cbv beta in U.
  specialize (U ltac:(rewrite C1; unfold c; ring) (rows_lin B' C' (t_B T) (t_C T) 1 (1 - c) HR' HR)).
  intros i z Hi. rewrite <- (N_layers P Hs) in Hi. destruct (U i Hi) as [U1 U2]. destruct (F i z Hi) as [-> ->]. cbn [shape slope mode_of]. rewrite ET.
  assert (X : B' i = c * t_B T i) by lra. assert (Y : C' i = c * t_C T i) by lra. rewrite X, Y. split; ring.
Qed.
Lemma term_found : found s (s_bctop P) m.
Proof.
  destruct (term_rows P Hs solve Hsolve b tb T HT) as (ET & C1 & EA & HR & HU).
  assert (Htop' : bc_top (mkStein (s_h P) (s_kv P) (s_mv P) (s_bctop P) (s_bcbot P) (s_n P) (s_tim P) (s_mag P)) = Ok (fst tb)) by exact Htop.
  destruct (m_top P Hs b Hb T ET tb HR _ Htop') as [M1 M2]. destruct (m_joined P Hs b Hb T ET tb HR) as [J1 J2].
  split; auto.
  - apply (rate_pos P Hs b Hb).
  - apply (m_equation P Hs b Hb T ET).
  - destruct (am_denom_int P Hs b Hb T ET) as [D1 D2]. exists (am_numer P (t_beta T) (t_B T) (t_C T)), (am_denom P (t_beta T) (t_B T) (t_C T)).
    split; [apply (am_numer_int P Hs b Hb T ET)|]. split; [exact D1|]. split; [apply D2; auto|exact EA].
  - intros NT _. apply only. exact NT.
Qed.
End Only.

(** ** Orthogonality *)
Section Ortho.
Variable s : soil.
Hypothesis Hs : is_soil s.
Notation N := (layers s).
Definition smooth (f : nat -> R -> R) : Prop := forall i z, (i < N)%nat -> continuous (f i) z.
Definition piece (f : nat -> R -> R) (i : nat) : R := RInt (f i) (depth s i) (depth s (S i)).
Definition integral (f : nat -> R -> R) : R := total N (fun i => weight s i * piece f i).
Lemma smooth_int f i : smooth f -> (i < N)%nat -> is_RInt (f i) (depth s i) (depth s (S i)) (piece f i).
Proof. intros Hf Hi. apply (RInt_correct (V := R_CompleteNormedModule)). apply (ex_RInt_continuous (V := R_CompleteNormedModule)). intros z _. apply Hf. auto. Qed.
Lemma over_depth_integral f v : smooth f -> over_depth s (weight s) f v <-> v = integral f.
Proof.
  intros Hf. split.
  - intros (g & Hg & ->). unfold integral. apply total_ext. intros i Hi. f_equal. symmetry. apply (is_RInt_unique (V := R_CompleteNormedModule)). auto.
  - intros ->. exists (piece f). split; auto. intros i Hi. apply smooth_int; auto.
Qed.
Lemma integral_lin f g c d : smooth f -> smooth g -> integral (fun i z => c * f i z + d * g i z) = c * integral f + d * integral g.
Proof.
  intros Hf Hg. unfold integral. rewrite <- !total_scal, <- total_plus. apply total_ext. intros i Hi.
  assert (E : piece (fun i z => c * f i z + d * g i z) i = c * piece f i + d * piece g i).
  { apply (is_RInt_unique (V := R_CompleteNormedModule)). apply (is_RInt_ext (fun z => plus (scal c (f i z)) (scal d (g i z)))); [intros z _; reflexivity|].
    apply (is_RInt_plus (V := R_NormedModule)); apply (is_RInt_scal (V := R_NormedModule)); apply smooth_int; auto. }
  rewrite E. ring.
Qed.
Lemma integral_ext f g : (forall i z, (i < N)%nat -> f i z = g i z) -> integral f = integral g.
Proof. intros E. unfold integral. apply total_ext. intros i Hi. f_equal. apply (RInt_ext (V := R_CompleteNormedModule)). intros z _. apply E; auto. Qed.
Lemma depth_le i : (i < N)%nat -> depth s i <= depth s (S i).
Proof. intros Hi. unfold depth. rewrite total_S. destruct Hs as (_ & _ & _ & H). pose proof (proj1 (H i Hi)). lra. Qed.
Lemma integral_nonneg f : smooth f -> (forall i z, (i < N)%nat -> 0 <= f i z) -> 0 <= integral f.
Proof.
  intros Hf Hp. apply total_nonneg. intros i Hi. apply Rmult_le_pos; [destruct Hs as (_ & _ & _ & H); pose proof (H i Hi); unfold weight; lra|].
  apply RInt_ge_0; [apply depth_le; auto|eexists; apply smooth_int; auto|intros; apply Hp; auto].
Qed.
Lemma mode_smooth m : mode_equation s m -> smooth (shape m).
Proof. intros E i z Hi. destruct (E i z Hi) as [D _]. apply (ex_derive_continuous (V := R_NormedModule) _ _ (ex_intro _ _ D)). Qed.
Lemma smooth_mult f g : smooth f -> smooth g -> smooth (fun i z => f i z * g i z).
Proof. intros Hf Hg i z Hi. apply (continuous_mult (K := R_AbsRing)); [apply Hf|apply Hg]; auto. Qed.
Lemma smooth_lin f g c d : smooth f -> smooth g -> smooth (fun i z => c * f i z + d * g i z).
Proof.
  intros Hf Hg i z Hi. apply (continuous_plus (V := R_NormedModule) (fun z => c * f i z) (fun z => d * g i z)).
  - apply (continuous_scal_r (V := R_NormedModule) c (f i)). apply Hf; auto.
  - apply (continuous_scal_r (V := R_NormedModule) d (g i)). apply Hg; auto.
Qed.
Lemma smooth_const c : smooth (fun _ _ => c).
Proof. intros i z _. apply continuous_const. Qed.

Variables bctop bcbot : Z.
Hypothesis Bt : (bctop = 0 \/ bctop = 1)%Z.
Hypothesis Bb : (bcbot = 0 \/ bcbot = 1)%Z.
Definition full (m : mode) : Prop := mode_equation s m /\ at_top bctop m /\ joined s m /\ at_bottom s bcbot m.
Lemma orthogonal m l : full m -> full l -> decay m <> decay l -> integral (fun i z => shape m i z * shape l i z) = 0.
Proof.
  intros (E1 & T1 & J1 & B1) (E2 & T2 & J2 & B2) Hd.
  set (W := fun i z => at_ (perm s) i * (shape m i z * slope l i z - slope m i z * shape l i z)).
  assert (Q : forall i, (i < N)%nat -> (decay m - decay l) * (weight s i * piece (fun i z => shape m i z * shape l i z) i) = W i (depth s (S i)) - W i (depth s i)).
  { intros i Hi. destruct Hs as (_ & _ & _ & Hp). destruct (Hp i Hi) as (_ & K & M).
    assert (I1 : is_RInt (fun z => (decay m - decay l) * weight s i * (shape m i z * shape l i z)) (depth s i) (depth s (S i)) ((decay m - decay l) * weight s i * piece (fun i z => shape m i z * shape l i z) i)).
    { apply (is_RInt_scal (V := R_NormedModule) (fun z => shape m i z * shape l i z)). apply (smooth_int (fun i z => shape m i z * shape l i z)); auto. apply smooth_mult; apply mode_smooth; auto. }
    assert (I2 : is_RInt (fun z => (decay m - decay l) * weight s i * (shape m i z * shape l i z)) (depth s i) (depth s (S i)) (minus (W i (depth s (S i))) (W i (depth s i)))).
    { apply (is_RInt_derive (W i)).
      - intros z _. destruct (E1 i z Hi) as [D1 D2]. destruct (E2 i z Hi) as [D3 D4].
        assert (X1 : ex_derive (shape m i) z) by (eexists; eauto). assert (X2 : ex_derive (slope m i) z) by (eexists; eauto). assert (X3 : ex_derive (shape l i) z) by (eexists; eauto). assert (X4 : ex_derive (slope l i) z) by (eexists; eauto).
        unfold W. auto_derive; [auto|]. change (fun x : R => shape m i x) with (shape m i). change (fun x : R => slope m i x) with (slope m i). change (fun x : R => shape l i x) with (shape l i). change (fun x : R => slope l i x) with (slope l i). rewrite (is_derive_unique _ _ _ D1), (is_derive_unique _ _ _ D2), (is_derive_unique _ _ _ D3), (is_derive_unique _ _ _ D4). unfold weight. field. lra.
      - intros z _. apply (continuous_scal_r (V := R_NormedModule) ((decay m - decay l) * weight s i) (fun z => shape m i z * shape l i z)). apply (smooth_mult (shape m) (shape l)); auto; apply mode_smooth; auto. }
    pose proof (is_RInt_unique (V := R_CompleteNormedModule) _ _ _ _ I1) as U1. pose proof (is_RInt_unique (V := R_CompleteNormedModule) _ _ _ _ I2) as U2. rewrite U1 in U2.
    rewrite <- Rmult_assoc. exact U2. }
  assert (Tel : forall k, (k < N)%nat -> total (S k) (fun i => W i (depth s (S i)) - W i (depth s i)) = W k (depth s (S k)) - W 0%nat 0).
  { induction k as [|k IH]; intros Hk.
    - rewrite total_S, total_0. unfold depth at 2. rewrite total_0. ring.
    - rewrite total_S, IH by lia. assert (X : W k (depth s (S k)) = W (S k) (depth s (S k))).
      { unfold W. destruct (J1 k Hk) as [A1 A2]. destruct (J2 k Hk) as [A3 A4].
        replace (at_ (perm s) k * (shape m k (depth s (S k)) * slope l k (depth s (S k)) - slope m k (depth s (S k)) * shape l k (depth s (S k)))) with (shape m k (depth s (S k)) * (at_ (perm s) k * slope l k (depth s (S k))) - at_ (perm s) k * slope m k (depth s (S k)) * shape l k (depth s (S k))) by ring.
        rewrite A2, A4, A1, A3. ring. }
      lra. }
  assert (Np : (1 <= N)%nat) by apply Hs.
  assert (Z1 : W 0%nat 0 = 0). { unfold W. destruct Bt as [e|e]; rewrite (proj1 T1 e), (proj1 T2 e) || rewrite (proj2 T1 e), (proj2 T2 e); ring. }
  assert (Z2 : W (N - 1)%nat (depth s N) = 0). { unfold W. unfold at_bottom in B1, B2. cbv zeta in B1, B2. destruct Bb as [e|e]; rewrite (proj1 B1 e), (proj1 B2 e) || rewrite (proj2 B1 e), (proj2 B2 e); ring. }
  assert (F : (decay m - decay l) * integral (fun i z => shape m i z * shape l i z) = 0).
  { unfold integral. rewrite <- total_scal. rewrite (total_ext _ _ _ Q). replace (total N) with (total (S (N - 1))) by (f_equal; lia). rewrite Tel by lia. replace (S (N - 1)) with N by lia. lra. }
  apply Rmult_integral in F. destruct F; [lra|auto].
Qed.

(** ** Best approximation *)
Lemma comb_smooth a ms : (forall m, In m ms -> mode_equation s m) -> smooth (combination a ms).
Proof.
  revert a. induction ms as [|m ms IH]; intros a E; destruct a as [|x a].
  1,2,3: intros i z Hi; apply (continuous_ext (fun _ => 0)); [reflexivity|apply continuous_const].
  unfold combination, total_over in *. cbn [combine map fold_right fst snd].
  intros i z Hi. apply (continuous_plus (V := R_NormedModule) (fun z => x * shape m i z)).
  - apply (continuous_scal_r (V := R_NormedModule) x (shape m i)). apply mode_smooth; auto. apply E. left; auto.
  - apply (IH a); auto. intros; apply E; right; auto.
Qed.
Lemma integral_comb a ms g : (forall m, In m ms -> mode_equation s m) -> smooth g -> integral (fun i z => combination a ms i z * g i z) = total_over (combine a ms) (fun p => fst p * integral (fun i z => shape (snd p) i z * g i z)).
Proof.
  intros E Hg. revert a E. induction ms as [|m ms IH]; intros a E; destruct a as [|x a].
  1,2,3: cbn [combine]; unfold total_over; cbn; rewrite (integral_ext _ (fun i z => 0 * g i z + 0 * g i z)) by (intros; unfold combination, total_over; cbn; ring); rewrite integral_lin by auto; ring.
  unfold total_over in *. cbn [combine map fold_right fst snd]. rewrite <- IH by (intros; apply E; right; auto).
  rewrite (integral_ext _ (fun i z => x * (shape m i z * g i z) + 1 * (combination a ms i z * g i z))) by (intros; unfold combination, total_over; cbn [combine map fold_right fst snd]; ring).
  rewrite integral_lin; [ring| |].
  - apply smooth_mult; auto. apply mode_smooth, E. left; auto.
  - apply smooth_mult; auto. apply comb_smooth. intros; apply E; right; auto.
Qed.
Lemma comb_minus a c ms i z : length a = length ms -> length c = length ms -> combination a ms i z - combination c ms i z = combination (map (fun p => fst p - snd p) (combine a c)) ms i z.
Proof.
  revert a c. induction ms as [|m ms IH]; intros [|x a] [|y c] L1 L2; try discriminate; [unfold combination, total_over; cbn; ring|].
  cbn in L1, L2. unfold combination, total_over in *. cbn [combine map fold_right fst snd]. rewrite <- IH by lia. ring.
Qed.
Definition project (m : mode) : Prop := exists n d, over_depth s (weight s) (shape m) n /\ over_depth s (weight s) (fun i z => (shape m i z)^2) d /\ 0 < d /\ amp m = n / d.
Lemma best ms a : (forall m, In m ms -> full m /\ project m) -> NoDup (map decay ms) -> length a = length ms ->
  integral (fun i z => (1 - combination (map amp ms) ms i z)^2) <= integral (fun i z => (1 - combination a ms i z)^2).
Proof.
  intros Hm Hd La. assert (Em : forall m, In m ms -> mode_equation s m) by (intros m Hi; apply Hm; auto).
  set (A := map amp ms). assert (LA : length A = length ms) by (unfold A; apply map_length).
  set (FA := combination A ms). set (Fa := combination a ms).
  assert (SA : smooth FA) by (apply comb_smooth; auto). assert (Sa : smooth Fa) by (apply comb_smooth; auto).
  (* the misfit is orthogonal to every shape *)
  assert (O : forall m, In m ms -> integral (fun i z => shape m i z * (1 - FA i z)) = 0).
  { intros m Hin. destruct (Hm m Hin) as [Fm (n & d & I1 & I2 & Dp & Am)].
    assert (Sm : smooth (shape m)) by (apply mode_smooth, Em; auto).
    apply over_depth_integral in I1; auto. apply over_depth_integral in I2; [|intros i z Hi; apply (continuous_ext (fun z => shape m i z * shape m i z)); [intros; cbn; ring|apply (smooth_mult (shape m) (shape m)); auto]].
    rewrite (integral_ext _ (fun i z => 1 * shape m i z + (-1) * (FA i z * shape m i z))) by (intros; ring).
    rewrite integral_lin by (auto; apply smooth_mult; auto). rewrite <- I1. unfold FA. rewrite integral_comb by auto.
    assert (X : total_over (combine A ms) (fun p => fst p * integral (fun i z => shape (snd p) i z * shape m i z)) = amp m * d).
    { rewrite I2. rewrite (integral_ext (fun i z => shape m i z ^ 2) (fun i z => shape m i z * shape m i z)) by (intros; ring). unfold A. clear - Hm Hd Hin Fm Bt Bb Hs.
      induction ms as [|l ms IH]; [destruct Hin|]. cbn [map combine]. unfold total_over in *. cbn [map fold_right fst snd]. cbn [map] in Hd. inversion Hd as [|? ? N1 N2]; subst.
      destruct Hin as [->|Hin].
      - assert (Z : fold_right Rplus 0 (map (fun p => fst p * integral (fun i z => shape (snd p) i z * shape m i z)) (combine (map amp ms) ms)) = 0); [|rewrite Z; ring].
        clear IH. assert (Hl : forall l, In l ms -> full l /\ decay l <> decay m) by (intros l Hl; split; [apply Hm; right; auto|intros e; apply N1; rewrite <- e; apply in_map; auto]).
        clear - Hl Fm Bt Bb Hs. induction ms as [|l ms IH]; [reflexivity|]. cbn [map combine fold_right fst snd]. rewrite IH by (intros; apply Hl; right; auto). destruct (Hl l (or_introl eq_refl)) as [F1 F2]. rewrite (orthogonal l m) by auto. ring.
      - rewrite IH; auto; [|intros; apply Hm; right; auto]. rewrite (orthogonal l m); [ring|apply Hm; left; auto|auto|]. intros e. apply N1. rewrite e. apply in_map; auto. }
    rewrite X, Am. field. lra. }
  set (D := fun i z => FA i z - Fa i z). set (dl := map (fun p => fst p - snd p) (combine A a)).
  assert (ED : forall i z, D i z = combination dl ms i z) by (intros i z; apply comb_minus; auto).
  assert (SD : smooth D) by (intros i z Hi; apply (continuous_ext (combination dl ms i)); [intros; symmetry; apply ED|apply comb_smooth; auto]).
  assert (S1 : smooth (fun i z => 1 - FA i z)) by (intros i z Hi; apply (continuous_minus (V := R_NormedModule) (fun _ => 1) (FA i)); [apply continuous_const|apply SA; auto]).
  assert (Cross : integral (fun i z => D i z * (1 - FA i z)) = 0).
  { rewrite (integral_ext _ (fun i z => combination dl ms i z * (1 - FA i z))) by (intros; rewrite ED; auto). rewrite integral_comb by auto.
    unfold total_over. transitivity (fold_right Rplus 0 (map (fun _ : R * mode => 0) (combine dl ms))).
    - f_equal. apply map_ext_in. intros [x m] Hin. cbn [fst snd]. rewrite O; [ring|]. apply in_combine_r in Hin. auto.
    - clear. induction (combine dl ms); cbn; [auto|lra]. }
  rewrite (integral_ext (fun i z => (1 - Fa i z)^2) (fun i z => 1 * ((1 - FA i z) * (1 - FA i z)) + 1 * (2 * (D i z * (1 - FA i z)) + 1 * (D i z * D i z)))) by (intros; unfold D; ring).
  rewrite (integral_ext (fun i z => (1 - FA i z)^2) (fun i z => (1 - FA i z) * (1 - FA i z))) by (intros; ring).
  rewrite integral_lin; [|apply smooth_mult; auto|apply smooth_lin; apply smooth_mult; auto]. rewrite integral_lin by (apply smooth_mult; auto). rewrite Cross.
  assert (0 <= integral (fun i z => D i z * D i z)); [|lra]. apply integral_nonneg; [apply smooth_mult; auto|]. intros i z _. pose proof (Rle_0_sqr (D i z)) as Q. exact Q.
Qed.
End Ortho.

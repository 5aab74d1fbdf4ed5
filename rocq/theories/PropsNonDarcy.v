(** * C176, C177: non-Darcian radial drainage: the g series, the smear parameters beta and the pore pressure profile *)
From Coq Require Import Reals List Bool Arith Lia Lra.
From Coquelicot Require Import Coquelicot.
From Verif Require Import Base NonDarcyModel NonDarcyProofs.
Import ListNotations.
Local Open Scope R_scope.
Local Open Scope list_scope.

(** *** specification *)
(** coefficients of the binomial series of (1 - x)^a *)
Fixpoint coeff (a : R) (j : nat) : R := match j with 0%nat => 1 | S k => coeff a k * (INR k - a) / INR (S k) end.
Fixpoint partial_sum (a x : R) (m : nat) : R := match m with 0%nat => 0 | S k => partial_sum a x k + coeff a k * x ^ k end.
(** the hydraulic gradient that carries the flow from outside radius y through it, ((1 - (y/N)^2) / y)^(1/n), by m terms of its series *)
Definition slope (N n : R) (m : nat) (y : R) : R := Rpower y (- (1 / n)) * partial_sum (1 / n) ((y / N) ^ 2) m.
Lemma coeff_poch a j : poch (- a) j / INR (fact j) = coeff a j.
Proof.
  induction j as [|j IH]; [cbn; lra|]. cbn [coeff]. rewrite <- IH. cbn [poch]. change (fact (S j)) with (S j * fact j)%nat. rewrite mult_INR. assert (F := fact_pos j). assert (P := pos_INR j). rewrite S_INR. field. split; lra.
Qed.
Lemma dg_slope N n m y : dg N n m y = slope N n m y.
Proof.
  unfold dg, slope. f_equal. induction m as [|m IH]; cbn [sum_to partial_sum]; [reflexivity|]. rewrite IH, coeff_poch. reflexivity.
Qed.

Lemma g_incr N n m a b : 1 < N -> 1 < n -> (1 <= m)%nat -> 0 < a < b -> b <= N -> g_array a N n m < g_array b N n m.
Proof.
  intros HN Hn Hm Hab Hb. destruct (MVT_gen (fun y => g_array y N n m) a b (dg N n m)) as (c & C1 & C2).
  - rewrite Rmin_left, Rmax_right by lra. intros x Hx. apply g_array_derive; lra.
  - rewrite Rmin_left, Rmax_right by lra. intros x Hx. apply continuity_pt_filterlim. apply (ex_derive_continuous (K := R_AbsRing) (V := R_NormedModule)). eexists. apply g_array_derive; lra.
  - rewrite Rmin_left, Rmax_right in C1 by lra. assert (P := dg_pos N n HN Hn m c Hm ltac:(lra)). assert (0 < dg N n m c * (b - a)) by (apply Rmult_lt_0_compat; lra). lra.
Qed.
Lemma checks_ok y N n : 1 <= y -> 1 < N -> 1 < n -> checks y N n = Ok tt.
Proof.
  intros. unfold checks. rewrite (proj2 (Rltb_false _ _)) by lra. rewrite !(proj2 (Rleb_false _ _)) by lra. reflexivity.
Qed.
Lemma g_ok arr y N n m : 1 <= y -> 1 < N -> 1 < n -> (1 <= m)%nat -> g arr y N n m = Ok (g_array y N n m).
Proof. intros. unfold g. rewrite checks_ok by assumption. cbn [bind]. destruct arr; auto. destruct m; [lia|]. apply g_paths; assumption. Qed.
Lemma gbar_ok arr y N n m : 1 <= y -> 1 < N -> 1 < n -> (1 <= m)%nat -> gbar arr y N n m = Ok (gbar_array y N n m).
Proof. intros. unfold gbar. rewrite checks_ok by assumption. cbn [bind]. destruct arr; auto. destruct m; [lia|]. apply gbar_paths; assumption. Qed.

(** the array branch and the scalar branch agree; gbar is an antiderivative of y g(y); g has the right slope and increases up to N *)
Theorem C176_g : forall N n m, 1 < N -> 1 < n -> (1 <= m)%nat -> exists G Gbar : R -> R,
  (forall arr y, 1 <= y -> g arr y N n m = Ok (G y) /\ gbar arr y N n m = Ok (Gbar y)) /\
  (forall y, 0 < y -> is_derive G y (slope N n m y) /\ is_derive Gbar y (y * G y)) /\
  (forall y z, 1 <= y < z -> z <= N -> G y < G z).
Proof.
  intros N n m HN Hn Hm. exists (fun y => g_array y N n m), (fun y => gbar_array y N n m). repeat (match goal with |- _ /\ _ => split end).
  - intros arr y Hy. split; [apply g_ok|apply gbar_ok]; assumption.
  - intros y Hy. split; [rewrite <- dg_slope; apply g_array_derive; assumption|apply gbar_array_derive; assumption].
  - intros y z H1 H2. apply g_incr; auto; lra.
Qed.
(** out of range: ValueError; no term: IndexError in the scalar branch, 0 in the other *)
Theorem C176_rejects : forall arr y N n m, (y < 1 \/ N <= 1 \/ n <= 1 -> g arr y N n m = Err ValueError /\ gbar arr y N n m = Err ValueError) /\
  (1 <= y -> 1 < N -> 1 < n -> g false y N n 0 = Err IndexError /\ gbar false y N n 0 = Err IndexError /\ g true y N n 0 = Ok 0 /\ gbar true y N n 0 = Ok 0).
Proof.
  intros arr y N n m. split.
  - intros H. unfold g, gbar. assert (E : checks y N n = Err ValueError). { unfold checks. destruct (Rltb y 1) eqn:E1; auto. destruct (Rleb N 1) eqn:E2; auto. destruct (Rleb n 1) eqn:E3; auto. apply Rltb_false in E1. apply Rleb_false in E2, E3. lra. } rewrite E. split; reflexivity.
  - intros. unfold g, gbar. rewrite checks_ok by assumption. cbn [bind]. unfold g_array, gbar_array. cbn [sum_to]. rewrite !Rmult_0_l. auto.
Qed.

(** *** piecewise constant permeability *)
Definition valid (s kap : list R) (nflow : R) (m : nat) : Prop :=
  s <> [] /\ length s = length kap /\ (forall x, In x s -> 1 < x) /\ (forall k, In k kap -> 0 < k) /\ (forall i, (S i < length s)%nat -> nth i s 0 < nth (S i) s 0) /\ 1 < nflow /\ (1 <= m)%nat.
Lemma existsb_false {A} (f : A -> bool) l : (forall x, In x l -> f x = false) -> existsb f l = false.
Proof. induction l as [|a l IH]; intros H; cbn; [reflexivity|]. rewrite (H a) by (left; reflexivity). apply IH. intros; apply H; right; assumption. Qed.
Lemma valid_checks s kap nflow m : valid s kap nflow m -> pw_checks s kap nflow m = Ok tt.
Proof.
  intros (V1 & V2 & V3 & V4 & V5 & V6 & V7). unfold pw_checks. rewrite (proj2 (Nat.eqb_eq _ _) V2). cbn [negb].
  rewrite existsb_false by (intros x Hx; apply Rleb_false; apply V3; exact Hx). rewrite existsb_false by (intros x Hx; apply Rleb_false; apply V4; exact Hx). rewrite existsb_false.
  - rewrite (proj2 (Rleb_false _ _)) by exact V6. destruct s; [congruence|]. destruct m; [lia|reflexivity].
  - intros [a b] H. apply Rleb_false. cbn [fst snd]. clear - H V5. induction s as [|x t IH]; [destruct H|]. destruct t as [|z t]; [destruct H|]. cbn [tl combine] in H. destruct H as [E|H].
    + injection E as <- <-. specialize (V5 0%nat ltac:(cbn; lia)). cbn in V5. lra.
    + apply IH; [|exact H]. intros i Hi. apply (V5 (S i)). cbn in *. lia.
Qed.
Lemma checks_valid s kap nflow m : pw_checks s kap nflow m = Ok tt -> valid s kap nflow m.
Proof.
  unfold pw_checks. destruct (length s =? length kap)%nat eqn:E1; [|discriminate]. cbn [negb]. apply Nat.eqb_eq in E1.
  destruct (existsb _ s) eqn:E2; [discriminate|]. destruct (existsb _ kap) eqn:E3; [discriminate|]. destruct (existsb _ (combine _ _)) eqn:E4; [discriminate|]. destruct (Rleb nflow 1) eqn:E5; [discriminate|]. destruct s as [|x t]; [discriminate|]. destruct m; [discriminate|]. intros _. apply Rleb_false in E5.
  assert (F : forall A (f : A -> bool) l z, existsb f l = false -> In z l -> f z = false). { intros A f l z H Hz. destruct (f z) eqn:Q; auto. rewrite <- H. symmetry. apply existsb_exists. exists z. auto. }
  unfold valid. repeat (match goal with |- _ /\ _ => split end); auto; try discriminate; try lia.
  - intros z Hz. apply Rleb_false. apply (F _ _ _ z E2 Hz).
  - intros z Hz. apply Rleb_false. apply (F _ _ _ z E3 Hz).
  - intros i Hi. assert (Q : In (nth i (x :: t) 0, nth (S i) (x :: t) 0) (combine (x :: t) (tl (x :: t)))).
    { clear - Hi. revert i x Hi. induction t as [|z t IH]; intros i x Hi; [cbn in Hi; lia|]. destruct i as [|i]; [left; reflexivity|]. right. apply (IH i z). cbn in *. lia. }
    assert (W := F _ _ _ _ E4 Q). apply Rleb_false in W. cbn [fst snd] in W. lra.
Qed.

Section Valid.
Variables (s kap : list R) (nflow : R) (m : nat).
Hypothesis HV : valid s kap nflow m.
Notation outer := (outer s).
Notation hi := (hi s).
Notation lo := (lo s).
Notation kx := (kx kap nflow).
Notation G := (fun y => g_array y outer nflow m).
Notation Gb := (fun y => gbar_array y outer nflow m).
Notation psi := (psi s kap nflow m).
Lemma s_mono i j : (i <= j < length s)%nat -> nth i s 0 <= nth j s 0.
Proof.
  destruct HV as (_ & _ & _ & _ & V & _). intros [H1 H2]. induction H1 as [|j H1 IH]; [lra|]. specialize (V j H2). assert (nth i s 0 <= nth j s 0) by (apply IH; lia). lra.
Qed.
Lemma s_gt i : (i < length s)%nat -> 1 < nth i s 0.
Proof. intros H. destruct HV as (_ & _ & V & _). apply V, nth_In. exact H. Qed.
Lemma outer_last : outer = nth (length s - 1) s 0.
Proof.
  unfold NonDarcyModel.outer. destruct HV as (V & _). clear - V. induction s as [|x t IH]; [congruence|]. destruct t as [|z t]; [reflexivity|]. change (last (x :: z :: t) 0) with (last (z :: t) 0). rewrite IH by discriminate. cbn [length]. replace (S (S (length t)) - 1)%nat with (S (S (length t) - 1)) by lia. reflexivity.
Qed.
Lemma len_pos : (0 < length s)%nat.
Proof. destruct HV as (V & _). destruct s; [congruence|cbn; lia]. Qed.
Lemma outer_gt : 1 < outer.
Proof. rewrite outer_last. apply s_gt. assert (L := len_pos). lia. Qed.
Lemma hi_le i : (i < length s)%nat -> hi i <= outer.
Proof. intros H. rewrite outer_last. apply s_mono. lia. Qed.
Lemma lo_hi i : (i < length s)%nat -> 1 <= lo i < hi i.
Proof.
  intros H. unfold NonDarcyModel.lo, NonDarcyModel.hi. destruct i as [|i]; [assert (Q := s_gt 0 H); lra|]. destruct HV as (_ & _ & _ & _ & V & _). specialize (V i H). assert (Q := s_gt i ltac:(lia)). lra.
Qed.
Lemma gv_array y : gv s nflow m y = G y.
Proof. assert (O := outer_gt). destruct HV as (_ & _ & _ & _ & _ & V6 & V7). unfold gv. clear HV. destruct m as [|k]; [lia|]. rewrite g_paths by assumption. reflexivity. Qed.
Lemma gbarv_array y : gbarv s nflow m y = Gb y.
Proof. assert (O := outer_gt). destruct HV as (_ & _ & _ & _ & _ & V6 & V7). unfold gbarv. clear HV. destruct m as [|k]; [lia|]. rewrite gbar_paths by assumption. reflexivity. Qed.
Lemma kx_pos i : 0 < kx i.
Proof. apply exp_pos. Qed.
Lemma segment_of i y : (i < length s)%nat -> (i = 0%nat \/ lo i < y) -> y <= hi i -> segment s y = i.
Proof.
  unfold segment, NonDarcyModel.lo, NonDarcyModel.hi. destruct HV as (_ & _ & _ & _ & V & _). clear HV. revert i. induction s as [|x t IH]; intros i Hi Hl Hh; [cbn in Hi; lia|].
  assert (V' : forall i, (S i < length t)%nat -> nth i t 0 < nth (S i) t 0) by (intros k Hk; apply (V (S k)); cbn; lia). specialize (IH V'). cbn [filter]. destruct i as [|i].
  - cbn in Hh. rewrite (proj2 (Rltb_false _ _)) by lra. destruct t as [|z t]; [reflexivity|]. apply (IH 0%nat); [cbn; lia|auto|]. specialize (V 0%nat ltac:(cbn; lia)). cbn in V. cbn. lra.
  - destruct Hl as [Hl|Hl]; [discriminate|]. cbn in Hi, Hh. assert (X : x < y).
    { assert (M : forall k, (k <= i)%nat -> x <= nth k (x :: t) 0). { induction k as [|k IHk]; intros Hk; [cbn; lra|]. specialize (V k ltac:(cbn; lia)). specialize (IHk ltac:(lia)). lra. } specialize (M i ltac:(lia)). lra. }
    rewrite (proj2 (Rltb_true _ _)) by exact X. cbn [length]. f_equal. apply IH; [lia| |exact Hh]. destruct i as [|i]; [left; reflexivity|right; exact Hl].
Qed.
(** the profile the code evaluates, and its form on segment i *)
Definition P (y : R) : R := let i := segment s y in kx i * (gv s nflow m y - gv s nflow m (lo i) + psi i).
Definition F (i : nat) (y : R) : R := kx i * (G y - G (lo i) + psi i).
Lemma kpsi i : kx i * psi i = sum_to i (fun j => kx j * (gv s nflow m (hi j) - gv s nflow m (lo j))).
Proof. unfold NonDarcyModel.psi. assert (K := kx_pos i). field. lra. Qed.
Lemma P_on i y : (i < length s)%nat -> lo i <= y <= hi i -> P y = F i y.
Proof.
  intros Hi Hy. unfold P, F. destruct (Req_dec y (lo i)) as [E|E].
  - destruct i as [|i].
    + rewrite (segment_of 0 y) by (auto; lra). rewrite !gv_array. reflexivity.
    + rewrite (segment_of i y); [|lia|right; rewrite E; change (lo (S i)) with (hi i); apply lo_hi; lia|rewrite E; change (lo (S i)) with (hi i); lra].
      rewrite !gv_array. rewrite E. replace (G (lo (S i)) - G (lo (S i)) + psi (S i)) with (psi (S i)) by ring. rewrite kpsi. cbn [sum_to]. rewrite <- kpsi. rewrite !gv_array. change (lo (S i)) with (hi i). ring.
  - rewrite (segment_of i y); [rewrite !gv_array; reflexivity|exact Hi|right; lra|lra].
Qed.
Lemma F_derive i y : 0 < y -> is_derive (F i) y (kx i * slope outer nflow m y).
Proof.
  destruct HV as (_ & _ & _ & _ & _ & V6 & _). intros Hy. unfold F. apply is_derive_scal. rewrite <- dg_slope.
  replace (dg outer nflow m y) with (dg outer nflow m y - 0 + 0) by ring.
  apply (is_derive_plus (K := R_AbsRing) (V := R_NormedModule)); [apply (is_derive_minus (K := R_AbsRing) (V := R_NormedModule))|]; [apply g_array_derive; auto; exact outer_gt|apply (is_derive_const (K := R_AbsRing) (V := R_NormedModule))|apply (is_derive_const (K := R_AbsRing) (V := R_NormedModule))].
Qed.
Definition part (i : nat) : R := kx i * (2 * gbarv s nflow m (hi i) - 2 * gbarv s nflow m (lo i) + (psi i - gv s nflow m (lo i)) * (hi i ^ 2 - lo i ^ 2)).
Definition H (i : nat) (y : R) : R := kx i * (2 * Gb y + (psi i - G (lo i)) * y ^ 2).
Lemma H_derive i y : 0 < y -> is_derive (H i) y (2 * y * F i y).
Proof.
  destruct HV as (_ & _ & _ & _ & _ & V6 & _). intros Hy. unfold H, F. replace (2 * y * (kx i * (G y - G (lo i) + psi i))) with (kx i * (2 * (y * G y) + (psi i - G (lo i)) * (2 * y))) by ring. apply is_derive_scal.
  apply (is_derive_plus (K := R_AbsRing) (V := R_NormedModule)).
  - apply is_derive_scal. apply gbar_array_derive; auto; exact outer_gt.
  - apply is_derive_scal. auto_derive; auto. ring.
Qed.
Lemma part_H i : part i = H i (hi i) - H i (lo i).
Proof. unfold part, H. rewrite !gbarv_array, !gv_array. ring. Qed.
Lemma part_int i : (i < length s)%nat -> is_RInt (fun y => 2 * y * P y) (lo i) (hi i) (part i).
Proof.
  intros Hi. assert (L := lo_hi i Hi). apply (is_RInt_ext (fun y => 2 * y * F i y)).
  - rewrite Rmin_left, Rmax_right by lra. intros y Hy. rewrite (P_on i) by (auto; lra). reflexivity.
  - rewrite part_H. apply (is_RInt_derive (V := R_CompleteNormedModule)).
    + rewrite Rmin_left, Rmax_right by lra. intros y Hy. apply H_derive. lra.
    + rewrite Rmin_left, Rmax_right by lra. intros y Hy. apply (continuous_mult (fun y => 2 * y) (F i)).
      * apply (ex_derive_continuous (K := R_AbsRing) (V := R_NormedModule)). auto_derive. auto.
      * apply (ex_derive_continuous (K := R_AbsRing) (V := R_NormedModule)). eexists. apply F_derive. lra.
Qed.
Lemma whole_int k : (k <= length s)%nat -> is_RInt (fun y => 2 * y * P y) 1 (lo k) (sum_to k part).
Proof.
  induction k as [|k IH]; intros Hk.
  - cbn. apply (is_RInt_point (V := R_NormedModule)).
  - cbn [sum_to]. apply (is_RInt_Chasles (V := R_NormedModule)) with (lo k); [apply IH; lia|]. change (lo (S k)) with (hi k). apply part_int. lia.
Qed.
Lemma beta_int : is_RInt (fun y => 2 * y * P y) 1 outer (pw_beta s kap nflow m * (outer ^ 2 - 1)).
Proof.
  assert (Q := whole_int (length s) ltac:(lia)). assert (E : lo (length s) = outer). { rewrite outer_last. assert (L := len_pos). destruct (length s) as [|k] eqn:E; [lia|]. cbn. rewrite Nat.sub_0_r. reflexivity. } rewrite E in Q.
  replace (pw_beta s kap nflow m * (outer ^ 2 - 1)) with (sum_to (length s) part); [exact Q|]. unfold pw_beta. fold part. assert (O := outer_gt). assert (outer ^ 2 - 1 <> 0) by nra. field. exact H0.
Qed.
Lemma psi_nonneg i : (i <= length s)%nat -> 0 <= psi i.
Proof.
  destruct HV as (_ & _ & _ & _ & _ & V6 & V7). intros Hi. unfold NonDarcyModel.psi. apply Rmult_le_pos; [|apply Rlt_le, Rinv_0_lt_compat, kx_pos].
  induction i as [|i IH]; cbn [sum_to]; [lra|]. specialize (IH ltac:(lia)). assert (L := lo_hi i ltac:(lia)). rewrite !gv_array. assert (I := g_incr outer nflow m (lo i) (hi i) outer_gt V6 V7 ltac:(lra) (hi_le i ltac:(lia))). assert (K := kx_pos i). assert (0 < kx i * (G (hi i) - G (lo i))) by (apply Rmult_lt_0_compat; lra). lra.
Qed.
Lemma part_pos i : (i < length s)%nat -> 0 < part i.
Proof.
  destruct HV as (_ & _ & _ & _ & _ & V6 & V7). intros Hi. assert (L := lo_hi i Hi). assert (O := hi_le i Hi). rewrite part_H.
  destruct (MVT_cor2 (H i) (fun y => 2 * y * F i y) (lo i) (hi i) ltac:(lra)) as (c & C1 & C2).
  - intros y Hy. apply is_derive_Reals. apply H_derive. lra.
  - rewrite C1. apply Rmult_lt_0_compat; [|lra]. apply Rmult_lt_0_compat; [lra|]. unfold F. apply Rmult_lt_0_compat; [apply kx_pos|]. assert (I := g_incr outer nflow m (lo i) c outer_gt V6 V7 ltac:(lra) ltac:(lra)). assert (N := psi_nonneg i ltac:(lia)). lra.
Qed.
Lemma beta_pos : 0 < pw_beta s kap nflow m.
Proof.
  unfold pw_beta. fold part. apply Rdiv_lt_0_compat; [|assert (O := outer_gt); nra]. assert (L := len_pos). assert (Q : forall k, (k <= length s)%nat -> (0 < k)%nat -> 0 < sum_to k part).
  { induction k as [|k IH]; intros H1 H2; [lia|]. cbn [sum_to]. assert (A := part_pos k ltac:(lia)). destruct k as [|k]; [cbn in *; lra|]. specialize (IH ltac:(lia) ltac:(lia)). lra. }
  apply Q; lia.
Qed.
End Valid.

(** the profile: zero at the drain, in one piece over the zones, its slope on zone i the gradient that zone's permeability needs *)
Definition is_profile (s kap : list R) (nflow : R) (m : nat) (f : R -> R) : Prop := f 1 = 0 /\
  forall i, (i < length s)%nat -> exists fi, (forall y, nth i (1 :: s) 0 <= y <= nth i s 0 -> f y = fi y) /\ (forall y, 0 < y -> is_derive fi y (Rpower (nth i kap 0) (1 / nflow) * slope (last s 0) nflow m y)).
(** beta is the mean of the profile over the area of the ring from the drain (1) to the outer radius; u is the profile scaled to the mean uavg *)
Theorem C177_beta_u : forall s kap nflow m, valid s kap nflow m -> exists f beta, let N := last s 0 in
  is_profile s kap nflow m f /\ non_darcy_beta_piecewise_constant s kap None None nflow m = Ok beta /\ 0 < beta /\
  is_RInt (fun y => 2 * y * f y) 1 N (beta * (N ^ 2 - 1)) /\
  forall uavg uw muw, let u := fun y => uw + (uavg - uw) * (f y + muw) / (beta + muw) in
    (forall si, (forall y, In y si -> 1 <= y <= N) -> non_darcy_u_piecewise_constant s kap si uavg uw muw None None nflow m = Ok (map u si)) /\
    (beta + muw <> 0 -> is_RInt (fun y => 2 * y * u y) 1 N (uavg * (N ^ 2 - 1))).
Proof.
  intros s kap nflow m HV. exists (P s kap nflow m), (pw_beta s kap nflow m). cbv zeta. assert (L := len_pos _ _ _ _ HV). assert (BI := beta_int _ _ _ _ HV). assert (LN : forall i, (i < length s)%nat -> nth i (1 :: s) 0 = lo s i) by (intros [|i] _; reflexivity).
  repeat (match goal with |- _ /\ _ => split end).
  - split.
    + assert (LH := lo_hi _ _ _ _ HV 0%nat L). rewrite (P_on _ _ _ _ HV 0%nat 1 L) by (cbn in LH |- *; lra). unfold F, psi. cbn. unfold Rdiv. ring.
    + intros i Hi. exists (F s kap nflow m i). split.
      * intros y Hy. rewrite (LN i Hi) in Hy. apply (P_on _ _ _ _ HV i y Hi). exact Hy.
      * intros y Hy. apply (F_derive _ _ _ _ HV i y Hy).
  - unfold non_darcy_beta_piecewise_constant. cbn [with_outer bind fst snd]. rewrite valid_checks by exact HV. reflexivity.
  - apply beta_pos. exact HV.
  - exact BI.
  - intros uavg uw muw. split.
    + intros si Hsi. unfold non_darcy_u_piecewise_constant. cbn [with_outer bind fst snd]. assert (HV1 : valid s kap nflow 1) by (destruct HV as (V1 & V2 & V3 & V4 & V5 & V6 & V7); unfold valid; tauto || (repeat split; auto)).
      rewrite (valid_checks _ _ _ _ HV1). cbn [bind]. rewrite existsb_false. 2:{ intros v Hv. specialize (Hsi v Hv). rewrite !(proj2 (Rltb_false _ _)) by (unfold outer; lra). reflexivity. }
      cbn [bind]. rewrite (valid_checks _ _ _ _ HV). cbn [bind]. f_equal. apply map_ext. intros v. unfold P. unfold Rdiv. ring.
    + intros HB. set (c := (uavg - uw) / (pw_beta s kap nflow m + muw)). assert (ON := outer_gt _ _ _ _ HV). unfold outer in *.
      apply (is_RInt_ext (fun y => c * (2 * y * P s kap nflow m y) + (uw + c * muw) * (2 * y))).
      * intros y _. unfold c, Rdiv. match goal with |- ?a = ?b => change (@eq R a b) end. unfold scal, plus; cbn. ring.
      * replace (uavg * (last s 0 ^ 2 - 1)) with (c * (pw_beta s kap nflow m * (last s 0 ^ 2 - 1)) + (uw + c * muw) * (last s 0 ^ 2 - 1 ^ 2)) by (unfold c; field; exact HB).
        apply (is_RInt_plus (V := R_NormedModule)); [apply (is_RInt_scal (V := R_NormedModule)); exact BI|]. apply (is_RInt_scal (V := R_NormedModule)). apply (is_RInt_derive (V := R_CompleteNormedModule) (fun y => y ^ 2)).
        -- intros y _. auto_derive; auto. ring.
        -- intros y _. apply (ex_derive_continuous (K := R_AbsRing) (V := R_NormedModule)). auto_derive. auto.
Qed.

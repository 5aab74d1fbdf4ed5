(** * C149: a load that stands still; dynamic amplification factors *)
From Coq Require Import Reals List Arith ZArith Bool Lia Lra.
From Coquelicot Require Import Coquelicot.
From Verif Require Import Base BeamModel PropsBeam PropsBeam3.
Import ListNotations.
Local Open Scope R_scope.

(** the order of np.roots that the code assumes: first the two that die out ahead of the load *)
Definition ordered (g : list C) : Prop := fst (at4 g 0) < 0 /\ fst (at4 g 1) < 0 /\ 0 < fst (at4 g 2) /\ 0 < fst (at4 g 3).
Lemma quartic_0 b g : quartic 0 b g -> (fst g = 1 \/ fst g = -1) /\ (snd g = 1 \/ snd g = -1).
Proof.
  unfold quartic. destruct g as [p q]. cbn [cpow]. intros H. unfold Cmult, Cplus, RtoC in H. cbn [fst snd] in H. injection H as H1 H2. cbn [fst snd].
  assert (E1 : p ^ 4 - 6 * p ^ 2 * q ^ 2 + q ^ 4 = -4) by (ring_simplify in H1; ring_simplify; lra). assert (E2 : p * q * (p ^ 2 - q ^ 2) = 0) by (ring_simplify in H2; ring_simplify; lra).
  assert (PZ : p <> 0) by (intros ->; assert (Z := pow2_ge_0 (q ^ 2)); nra). assert (QZ : q <> 0) by (intros ->; assert (Z := pow2_ge_0 (p ^ 2)); nra).
  assert (PQ : p ^ 2 = q ^ 2) by (apply Rmult_integral in E2; destruct E2 as [E2|E2]; [apply Rmult_integral in E2; tauto|lra]).
  assert (P1 : p ^ 2 = 1). { assert (X : (p ^ 2) ^ 2 = 1) by (replace (q ^ 4) with ((q ^ 2) ^ 2) in E1 by ring; replace (p ^ 4) with ((p ^ 2) ^ 2) in E1 by ring; rewrite <- PQ in E1; nra). assert (Y := pow2_ge_0 p). nra. }
  assert (A : forall u, u ^ 2 = 1 -> u = 1 \/ u = -1) by (intros u Hu; assert (Z : (u - 1) * (u + 1) = 0) by nra; apply Rmult_integral in Z; destruct Z; [left|right]; lra).
  split; apply A; lra.
Qed.
Section S.
Variable roots : list R -> list C.
Variable solve : list (list C) -> list C -> result (list C).
Hypothesis HS : csolves solve.
Lemma distinct_0 bet i j : roots_ok roots 0 bet -> (i < 4)%nat -> (j < 4)%nat -> i <> j -> let g := roots [1; 0; 4 * 0 ^ 2; - 8 * 0 * bet; 4] in fst (at4 g i) = fst (at4 g j) -> snd (at4 g i) = - snd (at4 g j).
Proof.
  intros HR Hi Hj Hij g HF. destruct (HR) as [L4 E]. fold g in L4, E. assert (Q : forall k, (k < 4)%nat -> _) by (intros k Hk; exact (quartic_0 _ _ (root_eq roots 0 bet k HR Hk))). fold g in Q.
  destruct (proj2 (Q i Hi)) as [Si|Si]; destruct (proj2 (Q j Hj)) as [Sj|Sj]; try lra; exfalso.
  (* double root: the derivative would vanish; evaluate near it *)
  all: assert (GG : at4 g i = at4 g j) by (destruct (at4 g i), (at4 g j); cbn [fst snd] in *; congruence).
  all: assert (SUM : forall z, (cpow z 4 + RtoC 4)%C = ((z - at4 g 0) * ((z - at4 g 1) * ((z - at4 g 2) * (z - at4 g 3))))%C) by (intros z; rewrite <- prod4 by auto; rewrite <- E; replace (4 * 0 ^ 2) with 0 by ring; replace (- 8 * 0 * bet) with 0 by ring; ring).
  all: assert (VAL : forall z, (cpow z 4 + RtoC 4)%C = RtoC 0 -> exists k, (k < 4)%nat /\ at4 g k = z).
  1, 3: intros z Hz; rewrite SUM in Hz; assert (MZ : forall u w : C, (u * w)%C = RtoC 0 -> u = RtoC 0 \/ w = RtoC 0) by (intros u w Huw; apply (f_equal Cmod) in Huw; rewrite Cmod_mult, Cmod_R, Rabs_R0 in Huw; apply Rmult_integral in Huw; destruct Huw as [Huw|Huw]; apply Cmod_eq_0 in Huw; auto);
     assert (SZ : forall u, (z - u)%C = RtoC 0 -> u = z) by (intros u Hu; replace u with (z - (z - u))%C by ring; rewrite Hu; ring);
     apply MZ in Hz; destruct Hz as [Hz|Hz]; [exists 0%nat; split; [lia|apply SZ; auto]|]; apply MZ in Hz; destruct Hz as [Hz|Hz]; [exists 1%nat; split; [lia|apply SZ; auto]|]; apply MZ in Hz; destruct Hz as [Hz|Hz]; [exists 2%nat; split; [lia|apply SZ; auto]|exists 3%nat; split; [lia|apply SZ; auto]].
  all: assert (V1 := VAL (1, 1) ltac:(cbn [cpow]; unfold Cmult, Cplus, RtoC; cbn [fst snd]; apply f_equal2; ring)); assert (V2 := VAL (1, -1) ltac:(cbn [cpow]; unfold Cmult, Cplus, RtoC; cbn [fst snd]; apply f_equal2; ring));
       assert (V3 := VAL (-1, 1) ltac:(cbn [cpow]; unfold Cmult, Cplus, RtoC; cbn [fst snd]; apply f_equal2; ring)); assert (V4 := VAL (-1, -1) ltac:(cbn [cpow]; unfold Cmult, Cplus, RtoC; cbn [fst snd]; apply f_equal2; ring)).
  all: destruct V1 as (k1 & B1 & W1); destruct V2 as (k2 & B2 & W2); destruct V3 as (k3 & B3 & W3); destruct V4 as (k4 & B4 & W4).
  all: assert (D : k1 <> k2 /\ k1 <> k3 /\ k1 <> k4 /\ k2 <> k3 /\ k2 <> k4 /\ k3 <> k4) by (repeat split; intros ->; rewrite W1 in * || rewrite W2 in * || rewrite W3 in *; match goal with H : (_, _) = (_, _) |- _ => injection H; intros; lra end).
  all: assert (DJ : forall k, (k < 4)%nat -> k = k1 \/ k = k2 \/ k = k3 \/ k = k4) by (intros; lia).
  all: destruct (DJ i Hi) as [Ei|[Ei|[Ei|Ei]]]; destruct (DJ j Hj) as [Ej|[Ej|[Ej|Ej]]]; subst i j; try tauto; rewrite ?W1, ?W2, ?W3, ?W4 in GG; injection GG; intros; lra.
Qed.

Lemma pm1 s : s = 1 \/ s = -1 -> s * s = 1. Proof. intros [-> | ->]; ring. Qed.
Lemma static_amplitudes s u (A : list C) : (s = 1 \/ s = -1) -> (u = 1 \/ u = -1) ->
  (forall k, (k < 4)%nat -> (at4 A 0 * cpow ((-1)%R, s) k + at4 A 1 * cpow ((-1)%R, (- s)%R) k - (at4 A 2 * cpow (1%R, u) k + at4 A 3 * cpow (1%R, (- u)%R) k))%C = if Nat.eqb k 3 then RtoC 8 else RtoC 0) ->
  at4 A 0 = (/ 2, - s / 2) /\ at4 A 1 = (/ 2, s / 2) /\ at4 A 2 = (/ 2, u / 2) /\ at4 A 3 = (/ 2, - u / 2).
Proof.
  intros Hs Hu H. destruct (at4 A 0) as [a0 b0]. destruct (at4 A 1) as [a1 b1]. destruct (at4 A 2) as [a2 b2]. destruct (at4 A 3) as [a3 b3].
  assert (H0 := H 0%nat ltac:(lia)). assert (H1 := H 1%nat ltac:(lia)). assert (H2 := H 2%nat ltac:(lia)). assert (H3 := H 3%nat ltac:(lia)). clear H. cbn [cpow Nat.eqb] in *. unfold Cminus, Cmult, Cplus, Copp, RtoC in *. cbn [fst snd] in *.
  injection H0 as P0 Q0. injection H1 as P1 Q1. injection H2 as P2 Q2. injection H3 as P3 Q3.
  destruct Hs as [-> | ->]; destruct Hu as [-> | ->]; repeat (match goal with |- _ /\ _ => split end); apply f_equal2; lra.
Qed.
Lemma term_value a b p q s : term (a, b) (p, q) s = (exp (p * s) * (a * cos (q * s) - b * sin (q * s)), exp (p * s) * (a * sin (q * s) + b * cos (q * s))).
Proof. unfold term, cexp, Cmult, RtoC. cbn [fst snd]. replace (s * p - 0 * q) with (p * s) by ring. replace (s * q + 0 * p) with (q * s) by ring. apply f_equal2; ring. Qed.
Lemma static_disp s u A g x : (s = 1 \/ s = -1) -> (u = 1 \/ u = -1) -> at4 g 0 = (-1, s) -> at4 g 1 = (-1, - s) -> at4 g 2 = (1, u) -> at4 g 3 = (1, - u) ->
  at4 A 0 = (/ 2, - s / 2) -> at4 A 1 = (/ 2, s / 2) -> at4 A 2 = (/ 2, u / 2) -> at4 A 3 = (/ 2, - u / 2) -> disp_at g A x = (static_point_load_shape x 1, 0).
Proof.
  intros Hs Hu G0 G1 G2 G3 A0 A1 A2 A3. unfold disp_at. rewrite G0, G1, G2, G3, A0, A1, A2, A3. fold (term (/ 2, - s / 2) (-1, s) x) (term (/ 2, s / 2) (-1, - s) x) (term (/ 2, u / 2) (1, u) x) (term (/ 2, - u / 2) (1, - u) x). rewrite !term_value. unfold static_point_load_shape.
  assert (C1 : cos (1 * x) = cos x /\ sin (1 * x) = sin x /\ cos (-1 * x) = cos x /\ sin (-1 * x) = - sin x /\ cos (- -1 * x) = cos x /\ sin (- -1 * x) = sin x /\ cos (- (1) * x) = cos x /\ sin (- (1) * x) = - sin x).
  { replace (1 * x) with x by ring. replace (- -1 * x) with x by ring. replace (-1 * x) with (- x) by ring. replace (- (1) * x) with (- x) by ring. rewrite cos_neg, sin_neg. repeat split; reflexivity. }
  destruct C1 as (E1 & E2 & E3 & E4 & E5 & E6 & E7 & E8).
  destruct (Rltb x 0) eqn:E; [apply Rltb_true in E|apply Rltb_false in E].
  - rewrite (Rabs_left x) by auto. replace (- - x / 1) with (1 * x) by field. replace (- x / 1) with (- x) by field. rewrite cos_neg, sin_neg. unfold Cplus. cbn [fst snd].
    destruct Hu as [-> | ->]; rewrite ?E1, ?E2, ?E3, ?E4, ?E5, ?E6, ?E7, ?E8; apply f_equal2; field.
  - rewrite (Rabs_right x) by lra. replace (- x / 1) with (-1 * x) by field. replace (x / 1) with x by field. unfold Cplus. cbn [fst snd].
    destruct Hs as [-> | ->]; rewrite ?E1, ?E2, ?E3, ?E4, ?E5, ?E6, ?E7, ?E8; apply f_equal2; field.
Qed.
(** *** a load that does not move: the static shape, real *)
Theorem C149_static bet lo hi n s d : roots_ok roots 0 bet -> ordered (roots [1; 0; 4 * 0 ^ 2; - 8 * 0 * bet; 4]) -> moving_load_on_beam_on_elastic_foundation roots solve 0 bet (lo, hi) n = Ok (s, d) ->
  d = map (fun x => RtoC (static_point_load_shape x 1)) s.
Proof.
  intros HR (O0 & O1 & O2 & O3) H. destruct (returned roots solve _ _ _ _ _ _ _ H) as (A & HA & -> & ->). assert (D01 := distinct_0 bet 0 1 HR ltac:(lia) ltac:(lia) ltac:(lia)). assert (D23 := distinct_0 bet 2 3 HR ltac:(lia) ltac:(lia) ltac:(lia)). cbv zeta in D01, D23.
  assert (Q : forall k, (k < 4)%nat -> _) by (intros k Hk; exact (quartic_0 _ _ (root_eq roots 0 bet k HR Hk))). assert (AM := amplitudes solve HS _ A HA). set (g := roots _) in *.
  destruct (Q 0%nat ltac:(lia)) as [[F0|F0] S0]; [lra|]. destruct (Q 1%nat ltac:(lia)) as [[F1|F1] _]; [lra|]. destruct (Q 2%nat ltac:(lia)) as [[F2|F2] S2]; [|lra]. destruct (Q 3%nat ltac:(lia)) as [[F3|F3] _]; [|lra].
  specialize (D01 ltac:(congruence)). specialize (D23 ltac:(congruence)). set (sg := snd (at4 g 0)) in *. set (u := snd (at4 g 2)) in *.
  assert (G0 : at4 g 0 = (-1, sg)) by (unfold sg; rewrite <- F0; apply surjective_pairing). assert (G1 : at4 g 1 = (-1, - sg)) by (replace (- sg) with (snd (at4 g 1)) by lra; rewrite <- F1; apply surjective_pairing).
  assert (G2 : at4 g 2 = (1, u)) by (unfold u; rewrite <- F2; apply surjective_pairing). assert (G3 : at4 g 3 = (1, - u)) by (replace (- u) with (snd (at4 g 3)) by lra; rewrite <- F3; apply surjective_pairing).
  rewrite G0, G1, G2, G3 in AM. destruct (static_amplitudes sg u A S0 S2 AM) as (A0 & A1 & A2 & A3). apply map_ext. intros x. apply (static_disp sg u); auto.
Qed.
(** *** the amplification factor: the largest deflection among the points, times kratio^(-3/4) *)
Lemma cmax_spec l m : cmax l = Ok m -> In m l /\ forall z, In z l -> fst z <= fst m.
Proof.
  destruct l as [|a l]; [discriminate|]. cbn [cmax]. intros H. injection H as <-. revert a. induction l as [|b l IH]; intros a; cbn [fold_left].
  - split; [left; auto|]. intros z [-> |[]]. apply Rle_refl.
  - assert (X : fst a <= fst (if cle a b then b else a) /\ fst b <= fst (if cle a b then b else a) /\ ((if cle a b then b else a) = a \/ (if cle a b then b else a) = b)).
    { unfold cle. destruct (Rltb (fst a) (fst b)) eqn:E1; cbn [orb]; [apply Rltb_true in E1; repeat split; auto; lra|apply Rltb_false in E1]. destruct (Reqb (fst a) (fst b)) eqn:E2; cbn [andb]; [apply Reqb_true in E2|apply Reqb_false in E2; repeat split; auto; lra]. destruct (Rleb (snd a) (snd b)); repeat split; auto; lra. }
    set (c := if cle a b then b else a) in *. destruct (IH c) as [I1 I2]. destruct X as (X1 & X2 & X3). split.
    + destruct I1 as [I1|I1]; [|right; right; auto]. rewrite <- I1. destruct X3 as [-> | ->]; [left|right; left]; auto.
    + assert (CM := I2 c (or_introl eq_refl)). intros z [<- |[<- |Hz]]; [exact (Rle_trans _ _ _ X1 CM)|exact (Rle_trans _ _ _ X2 CM)|apply I2; right; auto].
Qed.
Theorem C149_factor al be kr f : DAFinfinite roots solve al be kr = Ok f -> exists s d, moving_load_on_beam_on_elastic_foundation roots solve (al / Rpower kr (1 / 4)) (be * Rpower (1 / kr) (1 / 2)) (-6, 6) 1001 = Ok (s, d) /\
  (exists z, In z d /\ f = fst z * Rpower (1 / kr) (3 / 4)) /\ forall z, In z d -> fst z * Rpower (1 / kr) (3 / 4) <= f.
Proof.
  unfold DAFinfinite. destruct (moving_load_on_beam_on_elastic_foundation _ _ _ _ _ _) as [[s d]|]; [|discriminate]. cbn [bind fst snd]. destruct (cmax d) as [m|] eqn:EM; [|discriminate]. cbn [bind]. intros H. injection H as <-. apply cmax_spec in EM. destruct EM as [M1 M2].
  exists s, d. split; auto. split; [eauto|]. intros z Hz. apply Rmult_le_compat_r; [unfold Rpower; apply Rlt_le, exp_pos|auto].
Qed.
Lemma zero_in lo n : (0 < n)%nat -> In 0 (linspace (- lo) lo (2 * n + 1)).
Proof.
  intros Hn. unfold linspace. apply in_map_iff. exists n. split; [|apply in_seq; lia]. destruct (2 * n + 1)%nat as [|[|m]] eqn:E; try lia. rewrite <- E. rewrite plus_INR, mult_INR. cbn [INR]. assert (Q := lt_0_INR n Hn). field. lra.
Qed.
Lemma Rpower_1 x : Rpower 1 x = 1. Proof. unfold Rpower. rewrite ln_1, Rmult_0_r. apply exp_0. Qed.
Lemma static_factor be kr lo : 0 < kr -> let b := be * Rpower (1 / kr) (1 / 2) in roots_ok roots 0 b -> ordered (roots [1; 0; 4 * 0 ^ 2; - 8 * 0 * b; 4]) -> forall r, 
  moving_load_on_beam_on_elastic_foundation roots solve (0 / Rpower kr (1 / 4)) (be * Rpower (1 / kr) (1 / 2)) (- lo, lo) 1001 = Ok r -> exists m, cmax (snd r) = Ok m /\ fst m = 1.
Proof.
  intros Hk b HR HO [s d] HM. unfold b in *. replace (0 / Rpower kr (1 / 4)) with 0 in * by (unfold Rdiv; ring). assert (E := C149_static _ _ _ _ _ _ HR HO HM). destruct (returned roots solve _ _ _ _ _ _ _ HM) as (A & _ & ES & _). cbn [snd].
  assert (I0 : In 0 s) by (rewrite ES; exact (zero_in lo 500 ltac:(lia))). assert (SH : forall x, static_point_load_shape x 1 <= 1) by (intros x; destruct (C148_shape x 1 ltac:(lra)) as (_ & B & _); apply Rabs_le_between in B; lra).
  destruct (cmax d) as [m|] eqn:EM.
  - exists m. split; auto. apply cmax_spec in EM. destruct EM as [M1 M2]. rewrite E in M1, M2. apply in_map_iff in M1. destruct M1 as (x & <- & _). cbn [RtoC fst]. assert (L := M2 (RtoC (static_point_load_shape 0 1)) ltac:(apply (in_map (fun x => RtoC (static_point_load_shape x 1)) s 0 I0))).
    destruct (C148_shape 0 1 ltac:(lra)) as (Z & _ & _). rewrite Z in L. cbn [RtoC fst] in L. specialize (SH x). lra.
  - exfalso. destruct d; [|discriminate]. destruct s; [destruct I0|discriminate].
Qed.
Theorem C149_static_factor be kr f : 0 < kr -> let b := be * Rpower (1 / kr) (1 / 2) in roots_ok roots 0 b -> ordered (roots [1; 0; 4 * 0 ^ 2; - 8 * 0 * b; 4]) ->
  (DAFinfinite roots solve 0 be kr = Ok f \/ DAFrelative roots solve 0 be kr = Ok f) -> f = Rpower kr (- (3 / 4)).
Proof.
  intros Hk b HR HO H. assert (PW : Rpower (1 / kr) (3 / 4) = Rpower kr (- (3 / 4))) by (unfold Rpower; f_equal; replace (1 / kr) with (/ kr) by (field; lra); rewrite ln_Rinv by auto; ring).
  destruct H as [H|H]; [unfold DAFinfinite in H|unfold DAFrelative in H].
  - destruct (moving_load_on_beam_on_elastic_foundation _ _ _ _ _ _) as [r|] eqn:EM; [|discriminate]. cbn [bind] in H. destruct (static_factor be kr 6 Hk HR HO r EM) as (m & E1 & E2). rewrite E1 in H. cbn [bind] in H. injection H as <-. rewrite E2, PW. ring.
  - destruct (moving_load_on_beam_on_elastic_foundation _ _ _ _ _ _) as [r|] eqn:EM; [|discriminate]. cbn [bind] in H. destruct (static_factor be kr 8 Hk HR HO r EM) as (m & E1 & E2). rewrite E1 in H. cbn [bind] in H. injection H as <-. rewrite E2, PW. ring.
Qed.
End S.

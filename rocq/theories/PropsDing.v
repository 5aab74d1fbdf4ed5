(** * C145: DingEtAl2012, simply supported beam under a moving load *)
From Coq Require Import Reals List Arith ZArith Bool Lia Lra.
From Coquelicot Require Import Coquelicot.
From Verif Require Import Base DingModel DingProofs.
Import ListNotations.
Local Open Scope R_scope.

(** the mode shapes of a simply supported beam of length L *)
Definition mode (L : R) (k : nat) (x : R) : R := sin ((INR k + 1) * PI * x / L).
(** beam given by physical quantities only *)
Definition physical (n nquad : nat) (E I rho A L k1 k3 mu Fz v : R) : ding_in :=
  mkIn SS n (Some E) (Some I) (Some rho) (Some A) (Some L) (Some k1) (Some k3) (Some mu) (Some Fz) (Some v) None None None None None None (Some nquad).
Lemma len_map_seq {A} (f : nat -> A) n : length (map f (seq 0 n)) = n. Proof. rewrite map_length, seq_length. reflexivity. Qed.
Lemma nth_map_seq (f : nat -> R) n i d : (i < n)%nat -> nth i (map f (seq 0 n)) d = f i.
Proof. intros H. rewrite (nth_indep _ d (f 0%nat)) by (rewrite len_map_seq; auto). rewrite map_nth, seq_nth by auto. reflexivity. Qed.
Lemma combine_maps {A B} (f : nat -> A) (g : nat -> B) l : combine (map f l) (map g l) = map (fun k => (f k, g k)) l.
Proof. induction l as [|a l IH]; [reflexivity|]. cbn. rewrite IH. reflexivity. Qed.

Section S.
Variable roots : (R -> R) -> nat -> result (list R).
Variable solve : list (list R) -> list R -> result (list R).
Lemma init_SS i o : i_BC i = SS -> init roots solve i = Ok o -> o_in o = i /\ o_phi o = phiSS /\ o_beta o = map (fun k => PI * (INR k + 1)) (seq 0 (i_nterms i)) /\ o_coeff o = 2 /\
  match i_nquad i with Some n => exists Ij, o_quad o = Some (points_SS n, Ij) /\ weights solve (points_SS n) = Ok Ij | None => o_quad o = None end.
Proof.
  intros HB H. unfold init in H.
  repeat (match type of H with bind ?m _ = Ok _ => let E := fresh "Q" in destruct m eqn:E; [cbn [bind] in H|discriminate] end).
  rewrite HB in Q5. apply (f_equal (fun r => match r with Ok x => x | Err _ => a5 end)) in Q5. subst a5. cbn [bind] in H.
  destruct (i_nquad i) as [n|]; cbn [option_map bind] in H.
  - destruct (weights solve (points_SS n)) as [Ij|] eqn:EW; [|discriminate]. cbn [bind] in H. injection H as <-. cbn. repeat split; auto. exists Ij. auto.
  - injection H as <-. cbn. repeat split; auto.
Qed.
Lemma init_physical n N E I rho A L k1 k3 mu Fz v o : init roots solve (physical n N E I rho A L k1 k3 mu Fz v) = Ok o ->
  o_v o = v * sqrt (rho / E) /\ o_kf o = 1 / L * sqrt (I / A) /\ o_F o = Fz / (E * A) /\ o_mu o = mu / A * sqrt (L ^ 2 / (rho * E)) /\ o_k1 o = k1 * L ^ 2 / (E * A) /\ o_k3 o = k3 * L ^ 4 / (E * A).
Proof.
  unfold init, physical. cbn -[points_SS weights]. destruct (weights solve (points_SS N)) as [Ij|]; [|discriminate]. cbn. intros H. injection H as <-. cbn. repeat split; reflexivity.
Qed.
Lemma w_modes o n q x : o_phi o = phiSS -> o_beta o = map (fun k => PI * (INR k + 1)) (seq 0 n) -> w o (map q (seq 0 n)) x = total (fun k => q k * mode 1 k x) n.
Proof.
  intros H1 H2. unfold w, total. rewrite H1, H2, combine_maps, map_map. f_equal. apply map_ext. intros k. cbn [fst snd]. unfold phiSS, mode. do 2 f_equal. field.
Qed.
Lemma sum_combine3 (Ij xj : list R) (F g : R -> R) : length Ij = length xj ->
  sumR (map (fun p => fst (fst p) * snd (fst p) * g (snd p)) (combine (combine Ij (map F xj)) xj)) = sumR (map (fun p => fst p * (F (snd p) * g (snd p))) (combine Ij xj)).
Proof.
  revert xj. induction Ij as [|a l IH]; intros [|x xj] H; try reflexivity; try discriminate. cbn [map combine fst snd]. change (sumR (?a :: ?l)) with (a + sumR l). rewrite IH by (cbn in H; lia). ring.
Qed.
(** the right hand side, written out *)
Lemma field_SS i o n N (q qd : nat -> R) T : i_BC i = SS -> i_nterms i = n -> i_nquad i = Some N -> init roots solve i = Ok o -> (0 < n)%nat ->
  exists Ij d, weights solve (points_SS N) = Ok Ij /\ vectorfield o (map q (seq 0 n) ++ map qd (seq 0 n)) T = Ok d /\ length d = (2 * n)%nat /\
  (forall k, (k < n)%nat -> nth k d 0 = qd k) /\
  forall k, (k < n)%nat -> length Ij = N -> nth (n + k) d 0 = - o_mu o * qd k - (o_k1 o + o_kf o ^ 2 * (PI * (INR k + 1)) ^ 4) * q k + 2 * o_F o * sin (PI * (INR k + 1) * (o_v o * T))
      - 2 * o_k3 o * sumR (map (fun p => fst p * (total (fun m => q m * mode 1 m (snd p)) n ^ 3 * mode 1 k (snd p))) (combine Ij (points_SS N))).
Proof.
  intros HB Hn HN HI Hp. destruct (init_SS i o HB HI) as (E1 & E2 & E3 & E4 & E5). rewrite HN in E5. destruct E5 as (Ij & E5 & E6). rewrite Hn in E3. exists Ij. unfold vectorfield. rewrite E1, Hn, E5.
  assert (L1 : firstn n (map q (seq 0 n) ++ map qd (seq 0 n)) = map q (seq 0 n)) by (rewrite firstn_app, len_map_seq, Nat.sub_diag, firstn_O, app_nil_r; apply firstn_all2; rewrite len_map_seq; lia).
  assert (L2 : skipn n (map q (seq 0 n) ++ map qd (seq 0 n)) = map qd (seq 0 n)) by (rewrite skipn_app, len_map_seq, Nat.sub_diag; rewrite skipn_all2 by (rewrite len_map_seq; lia); reflexivity).
  rewrite L1, L2. destruct n as [|n']; [lia|]. set (n := S n') in *. eexists. split; [exact E6|]. split; [reflexivity|]. split; [rewrite app_length, !len_map_seq; lia|]. split.
  - intros k Hk. rewrite app_nth1 by (rewrite len_map_seq; auto). apply nth_map_seq; auto.
  - intros k Hk HL. rewrite app_nth2 by (rewrite len_map_seq; lia). rewrite len_map_seq. replace (n + k - n)%nat with k by lia. rewrite nth_map_seq by auto. rewrite E4, E3, E2. rewrite !nth_map_seq by auto.
    assert (LP : length Ij = length (points_SS N)) by (unfold points_SS; rewrite len_map_seq; auto).
    rewrite (sum_combine3 Ij (points_SS N) (fun x => w o (map q (seq 0 n)) x ^ 3) (fun x => phiSS x (PI * (INR k + 1))) LP).
    f_equal. f_equal. f_equal. apply map_ext. intros p. f_equal. rewrite (w_modes o n q (snd p) E2 E3). f_equal. unfold phiSS, mode. f_equal. field.
Qed.
(** np.linalg.solve: as many numbers as equations *)
Hypothesis solve_length : forall M r x, solve M r = Ok x -> length x = length r.
Lemma weights_length N Ij : weights solve (points_SS N) = Ok Ij -> length Ij = N.
Proof. intros H. apply solve_length in H. rewrite H, len_map_seq. unfold points_SS. apply len_map_seq. Qed.
(** *** C145 The coefficients followed by the equations the object gives odeint make a deflection that satisfies the beam equation
      E I w'''' + rho A w_tt + mu w_t + k1 w + k3 w^3 = Fz delta(x - v t)
    in the sense of Galerkin: weighted with each mode and integrated over the length, the cubic term by the object's quadrature. *)
Theorem C145_galerkin n N E I rho A L k1 k3 mu Fz v o (q qd : nat -> R -> R) :
  0 < E -> 0 < I -> 0 < rho -> 0 < A -> 0 < L -> (0 < n)%nat ->
  init roots solve (physical n N E I rho A L k1 k3 mu Fz v) = Ok o ->
  (* q and its rate follow vectorfield in normalised time *)
  (forall T, exists d, vectorfield o (map (fun k => q k T) (seq 0 n) ++ map (fun k => qd k T) (seq 0 n)) T = Ok d /\
     forall k, (k < n)%nat -> is_derive (q k) T (nth k d 0) /\ is_derive (qd k) T (nth (n + k) d 0)) ->
  let defl := fun x t => L * total (fun k => q k (t / L * sqrt (E / rho)) * mode L k x) n in
  forall (wt wtt : R -> R -> R) (w1 w2 w3 w4 : R -> R) (t : R),
  (forall x t, is_derive (fun t => defl x t) t (wt x t)) -> (forall x t, is_derive (fun t => wt x t) t (wtt x t)) ->
  (forall x, is_derive (fun x => defl x t) x (w1 x)) -> (forall x, is_derive w1 x (w2 x)) -> (forall x, is_derive w2 x (w3 x)) -> (forall x, is_derive w3 x (w4 x)) ->
  exists Ij, weights solve (points_SS N) = Ok Ij /\ forall i, (i < n)%nat ->
  is_RInt (fun x => (E * I * w4 x + rho * A * wtt x t + mu * wt x t + k1 * defl x t) * mode L i x) 0 L
    (Fz * mode L i (v * t) - k3 * (L * sumR (map (fun p => fst p * (defl (L * snd p) t ^ 3 * mode L i (L * snd p))) (combine Ij (points_SS N))))).
Proof.
  intros HE HI Hr HA HL Hn HO HV defl wt wtt w1 w2 w3 w4 t D1 D2 X1 X2 X3 X4.
  destruct (init_physical n N E I rho A L k1 k3 mu Fz v o HO) as (P1 & P2 & P3 & P4 & P5 & P6).
  set (c := sqrt (E / rho) / L). assert (CT : forall s, s / L * sqrt (E / rho) = c * s) by (intros s; unfold c; field; lra).
  destruct (field_SS (physical n N E I rho A L k1 k3 mu Fz v) o n N (fun _ => 0) (fun _ => 0) 0 eq_refl eq_refl eq_refl HO Hn) as (Ij & _ & EW & _). exists Ij. split; [exact EW|]. assert (LI := weights_length N Ij EW). intros i Hi.
  set (Q := fun (T : R) (k : nat) => - o_mu o * qd k T - (o_k1 o + o_kf o ^ 2 * (PI * (INR k + 1)) ^ 4) * q k T + 2 * o_F o * sin (PI * (INR k + 1) * (o_v o * T))
      - 2 * o_k3 o * sumR (map (fun p => fst p * (total (fun m => q m T * mode 1 m (snd p)) n ^ 3 * mode 1 k (snd p))) (combine Ij (points_SS N)))).
  assert (DQ : forall T k, (k < n)%nat -> is_derive (q k) T (qd k T) /\ is_derive (qd k) T (Q T k)).
  { intros T k Hk. destruct (HV T) as (d & Ed & Hd). destruct (field_SS (physical n N E I rho A L k1 k3 mu Fz v) o n N (fun k => q k T) (fun k => qd k T) T eq_refl eq_refl eq_refl HO Hn) as (Ij' & d' & EW' & Ed' & _ & F1 & F2).
    assert (Ij' = Ij) by congruence. subst Ij'. assert (d' = d) by congruence. subst d'. destruct (Hd k Hk) as [A1 A2]. rewrite F1 in A1 by auto. rewrite F2 in A2 by auto. split; auto. }
  (* the derivatives in closed form *)
  assert (W1 : forall x s, wt x s = L * total (fun k => c * qd k (c * s) * mode L k x) n).
  { intros x s. assert (U := is_derive_unique _ _ _ (D1 x s)). rewrite <- U. apply is_derive_unique. unfold defl. apply (is_derive_scal (fun s => total (fun k => q k (s / L * sqrt (E / rho)) * mode L k x) n)).
    apply (total_derive (fun k s => q k (s / L * sqrt (E / rho)) * mode L k x)). intros k Hk. apply (is_derive_ext (fun s => mode L k x * q k (c * s))); [intros; rewrite CT; apply Rmult_comm|].
    replace (c * qd k (c * s) * mode L k x) with (mode L k x * (c * qd k (c * s))) by ring. apply (is_derive_scal (fun s => q k (c * s))). apply (is_derive_comp (V := R_NormedModule) (q k) (fun s => c * s)); [apply DQ; auto|]. auto_derive; auto. ring. }
  assert (W2 : forall x s, wtt x s = L * total (fun k => c ^ 2 * Q (c * s) k * mode L k x) n).
  { intros x s. assert (U := is_derive_unique _ _ _ (D2 x s)). rewrite <- U. apply is_derive_unique. apply (is_derive_ext (fun s => L * total (fun k => c * qd k (c * s) * mode L k x) n)); [intros; rewrite W1; auto|].
    apply (is_derive_scal (fun s => total (fun k => c * qd k (c * s) * mode L k x) n)). apply (total_derive (fun k s => c * qd k (c * s) * mode L k x)). intros k Hk.
    apply (is_derive_ext (fun s => (c * mode L k x) * qd k (c * s))); [intros; match goal with |- ?u = ?v => change (@eq R u v) end; ring|]. replace (c ^ 2 * Q (c * s) k * mode L k x) with ((c * mode L k x) * (c * Q (c * s) k)) by ring.
    apply (is_derive_scal (fun s => qd k (c * s))). apply (is_derive_comp (V := R_NormedModule) (qd k) (fun s => c * s)); [apply DQ; auto|]. auto_derive; auto. ring. }
  set (b := fun k => (INR k + 1) * PI / L). assert (MB : forall k x, mode L k x = sin (b k * x)) by (intros k x; unfold mode, b; f_equal; field; lra).
  assert (ST : forall (g h : R -> R) (a1 a2 : nat -> R) (f1 f2 : R -> R), (forall x, is_derive g x (h x)) -> (forall x, g x = L * total (fun k => a1 k * f1 (b k * x)) n) -> (forall x, is_derive f1 x (f2 x)) -> (forall k, a2 k = a1 k * b k) ->
     forall x, h x = L * total (fun k => a2 k * f2 (b k * x)) n).
  { intros g h a1 a2 f1 f2 Hg Eg Hf Ea x. assert (U := is_derive_unique _ _ _ (Hg x)). rewrite <- U. apply is_derive_unique. apply (is_derive_ext (fun x => L * total (fun k => a1 k * f1 (b k * x)) n)); [intros; rewrite Eg; auto|].
    apply (is_derive_scal (fun x => total (fun k => a1 k * f1 (b k * x)) n)). apply (total_derive (fun k x => a1 k * f1 (b k * x))). intros k _. rewrite Ea. replace (a1 k * b k * f2 (b k * x)) with (a1 k * (b k * f2 (b k * x))) by ring. apply (is_derive_scal (fun x => f1 (b k * x))).
    apply (is_derive_comp (V := R_NormedModule) f1 (fun x => b k * x)); [apply Hf|]. auto_derive; auto. ring. }
  assert (V0 : forall x, defl x t = L * total (fun k => q k (c * t) * sin (b k * x)) n) by (intros x; unfold defl; f_equal; apply total_ext; intros k _; rewrite CT, MB; reflexivity).
  assert (V1 := ST _ _ _ (fun k => q k (c * t) * b k) _ cos X1 V0 is_derive_sin ltac:(reflexivity)).
  assert (V2 := ST _ _ _ (fun k => q k (c * t) * b k * b k) _ (fun x => - sin x) X2 V1 is_derive_cos ltac:(reflexivity)).
  assert (V3 := ST _ _ _ (fun k => q k (c * t) * b k * b k * b k) _ (fun x => - cos x) X3 V2 ltac:(intros x; auto_derive; auto; ring) ltac:(reflexivity)).
  assert (V4 := ST _ _ _ (fun k => q k (c * t) * b k * b k * b k * b k) _ (fun x => sin x) X4 V3 ltac:(intros x; auto_derive; auto; ring) ltac:(reflexivity)).
  set (al := fun k => L * (E * I * (q k (c * t) * b k ^ 4) + rho * A * (c ^ 2 * Q (c * t) k) + mu * (c * qd k (c * t)) + k1 * q k (c * t))).
  apply (is_RInt_ext (fun x => total (fun k => al k * (mode L k x * mode L i x)) n)).
  { intros x _. rewrite V0, V4, W1, W2. rewrite <- !total_scal, <- !total_plus. rewrite Rmult_comm, <- total_scal. apply total_ext. intros k _. unfold al. rewrite !MB. ring. }
  assert (IV : total (fun k => al k * (if Nat.eqb k i then L / 2 else 0)) n = Fz * mode L i (v * t) - k3 * (L * sumR (map (fun p => fst p * (defl (L * snd p) t ^ 3 * mode L i (L * snd p))) (combine Ij (points_SS N))))).
  { rewrite (total_single _ n i Hi) by (intros k _ Hk; destruct (Nat.eqb_spec k i); [congruence|ring]). rewrite Nat.eqb_refl. unfold al, Q.
    set (S1 := sumR (map (fun p => fst p * (total (fun m => q m (c * t) * mode 1 m (snd p)) n ^ 3 * mode 1 i (snd p))) (combine Ij (points_SS N)))).
    assert (ML : forall k y, mode L k (L * y) = mode 1 k y) by (intros k y; unfold mode; f_equal; field; lra).
    assert (S2 : sumR (map (fun p => fst p * (defl (L * snd p) t ^ 3 * mode L i (L * snd p))) (combine Ij (points_SS N))) = L ^ 3 * S1).
    { unfold S1. generalize (combine Ij (points_SS N)) as l. induction l as [|p l IH]; [cbn; ring|]. cbn [map]. change (sumR (?a :: ?l)) with (a + sumR l). rewrite IH. unfold defl. rewrite ML.
      rewrite (total_ext (fun k => q k (t / L * sqrt (E / rho)) * mode L k (L * snd p)) (fun k => q k (c * t) * mode 1 k (snd p))) by (intros k _; rewrite CT, ML; reflexivity). ring. }
    rewrite S2. rewrite P1, P2, P3, P4, P5, P6.
    assert (C2 : c ^ 2 = E / (rho * L ^ 2)) by (unfold c; replace ((sqrt (E / rho) / L) ^ 2) with (sqrt (E / rho) ^ 2 / L ^ 2) by (field; lra); rewrite pow2_sqrt by (apply Rlt_le, Rdiv_lt_0_compat; lra); field; lra).
    assert (KF : (1 / L * sqrt (I / A)) ^ 2 = I / (A * L ^ 2)) by (rewrite Rpow_mult_distr; rewrite pow2_sqrt by (apply Rlt_le, Rdiv_lt_0_compat; lra); field; lra).
    assert (MU : sqrt (L ^ 2 / (rho * E)) * E = c * (L ^ 2)).
    { unfold c. replace (L ^ 2 / (rho * E)) with ((L / E) ^ 2 * (E / rho)) by (field; lra). rewrite sqrt_mult by (try (apply Rlt_le, Rdiv_lt_0_compat; lra); apply pow2_ge_0). rewrite sqrt_pow2 by (apply Rlt_le, Rdiv_lt_0_compat; lra). field. lra. }
    assert (SV : mode L i (v * t) = sin (PI * (INR i + 1) * (v * sqrt (rho / E) * (c * t)))).
    { unfold mode. f_equal. assert (RR : sqrt (rho / E) * sqrt (E / rho) = 1) by (rewrite <- sqrt_mult by (apply Rlt_le, Rdiv_lt_0_compat; lra); replace (rho / E * (E / rho)) with 1 by (field; lra); apply sqrt_1).
      unfold c. replace (PI * (INR i + 1) * (v * sqrt (rho / E) * (sqrt (E / rho) / L * t))) with (PI * (INR i + 1) * v * t / L * (sqrt (rho / E) * sqrt (E / rho))) by (field; lra). rewrite RR. field. lra. }
    rewrite SV, KF. set (ss := sin _). set (rt := sqrt (L ^ 2 / (rho * E))) in *. assert (CC : c = rt * E / L ^ 2) by (rewrite MU; field; lra). rewrite C2. replace (c * qd i (c * t)) with (rt * E / L ^ 2 * qd i (c * t)) by (rewrite <- CC; reflexivity).
    unfold b. set (qi := q i (c * t)). set (qdi := qd i (c * t)). field. lra. }
  rewrite <- IV. apply (total_RInt (fun k x => al k * (mode L k x * mode L i x))). intros k _. apply (is_RInt_scal (V := R_NormedModule)). apply sin_sin. exact HL.
Qed.
End S.

(** * Termination of find_n_roots; fixed_point_no_accel *)
From Coq Require Import Reals List Bool ZArith Lia Lra.
From Verif Require Import Base RootModel SpecRoot RootProofs.
Import ListNotations.
Open Scope R_scope.

(** The states the loop passes through. *)
Inductive reach (f fsolve : R -> R) (n : nat) (p : R) (max_iter : Z) (atol rtol : R) (s0 : st) : st -> Prop :=
| reach_start : reach f fsolve n p max_iter atol rtol s0 s0
| reach_next : forall s s', reach f fsolve n p max_iter atol rtol s0 s -> step f fsolve n p max_iter atol rtol s = Next s' ->
    reach f fsolve n p max_iter atol rtol s0 s'.
Lemma INR4 : INR 4 = 4. Proof. cbn. ring. Qed.
Section T.
Variables (f fsolve : R -> R) (n : nat) (p : R) (max_iter : Z) (atol rtol : R).
Hypothesis Hp : 0 < p.
Hypothesis Hp3 : p * p * p < 5.
Hypothesis Hf : continuity f.
Variable s0 : st.
Notation step := (step f fsolve n p max_iter atol rtol).
Notation run := (run f fsolve n p max_iter atol rtol).
Notation good := (good f).
Notation reach := (reach f fsolve n p max_iter atol rtol s0).
Hypothesis Hres : forall s, reach s -> (length (rts s) < n)%nat -> f (x00 s) <> 0.
Definition stops (s : st) : Prop := exists fuel r, run fuel s = Some r.
Lemma stops_next s s' : step s = Next s' -> stops s' -> stops s.
Proof. intros E (k & r & H). exists (S k), r. cbn [RootModel.run]. rewrite E. auto. Qed.
Lemma stops_done s r : step s = Done r -> stops s.
Proof. intros E. exists 1%nat, r. cbn [RootModel.run]. rewrite E. auto. Qed.

Lemma sign_near x : f x <> 0 -> exists d, 0 < d /\ forall h, 0 <= h < d -> 0 < f x * f (x + h).
Proof.
  intros Hx. destruct (Hf x (Rabs (f x)) (Rabs_pos_lt _ Hx)) as (d & Hd & H). exists d. split; auto. intros h Hh.
  destruct (Req_dec h 0) as [->|Hn]; [rewrite Rplus_0_r; destruct (Rdichotomy _ _ Hx); nra|].
  assert (K : Rabs (f (x + h) - f x) < Rabs (f x)).
  { apply H. split; [split; [exact I|lra]|]. cbn. unfold R_dist. replace (x + h - x) with h by ring. rewrite Rabs_right; lra. }
  destruct (Rdichotomy _ _ Hx) as [N|N].
  - rewrite (Rabs_left (f x)) in K by auto. apply Rabs_def2 in K. nra.
  - rewrite (Rabs_right (f x)) in K by lra. apply Rabs_def2 in K. nra.
Qed.

Definition M : R := Rmax 1 (p ^ 3).
Lemma M1 : 1 <= M. Proof. apply Rmax_l. Qed.
Lemma M5 : M / 5 < 1. Proof. unfold M. apply Rmax_case; cbn; lra. Qed.
Lemma pM k : (k <= 3)%nat -> p ^ k <= M.
Proof.
  intros H. assert (A := M1). assert (B : p ^ 3 <= M) by apply Rmax_r. destruct (Rle_dec p 1) as [L|L].
  - apply Rle_trans with 1; auto. rewrite <- (pow1 k). apply pow_incr. lra.
  - apply Rle_trans with (p ^ 3); auto. apply Rle_pow; auto. lra.
Qed.
Fixpoint geo (k : nat) : R := match k with O => 0 | S k => geo k + p ^ k end.
Lemma geo_bound k : (k <= 4)%nat -> 0 <= geo k <= INR k * M.
Proof.
  induction k as [|k IH]; intros H; [cbn; lra|]. cbn [geo]. rewrite S_INR. destruct IH as [A B]; [lia|]. assert (C := pM k ltac:(lia)).
  assert (D : 0 < p ^ k) by (apply pow_lt; auto). lra.
Qed.

Lemma all_stop : forall r s, (n - length (rts s))%nat = r -> good s -> ic s = 0%Z -> reach s -> stops s.
Proof.
  induction r as [|r IHr]; intros s Hr Hg Hi Hrs.
  { assert (C := step_cases f fsolve n p max_iter atol rtol Hp s Hg). destruct (step s) as [o|s'] eqn:E; [eapply stops_done; eauto|].
    exfalso. inversion C; subst; lia. }
  assert (Hx : f (x00 s) <> 0) by (apply Hres; auto; lia).
  assert (found_stops : forall s1 g dx, length (rts s1) = length (rts s) -> good s1 -> (4 <= ic s1)%Z -> reach s1 -> step s1 = Next (mkSt (rts s1 ++ [fsolve g]) 0 (Some 0%Z) (resume atol rtol (fsolve g) (sx s1 + sdx s1))
        (resume atol rtol (fsolve g) (sx s1 + sdx s1)) (f (resume atol rtol (fsolve g) (sx s1 + sdx s1))) dx) ->
     stepped f fsolve n p max_iter atol rtol s1 (Next (mkSt (rts s1 ++ [fsolve g]) 0 (Some 0%Z) (resume atol rtol (fsolve g) (sx s1 + sdx s1))
        (resume atol rtol (fsolve g) (sx s1 + sdx s1)) (f (resume atol rtol (fsolve g) (sx s1 + sdx s1))) dx)) ->
     changes_sign f (mkI (sx s1) (sx s1 + sdx s1) g) ->
     stops (mkSt (rts s1 ++ [fsolve g]) 0 (Some 0%Z) (resume atol rtol (fsolve g) (sx s1 + sdx s1))
        (resume atol rtol (fsolve g) (sx s1 + sdx s1)) (f (resume atol rtol (fsolve g) (sx s1 + sdx s1))) dx)).
  { intros s1 g dx Hl Hg1 Hi1 Hrs1 Est Hs1 Hc. apply IHr; cbn.
    - rewrite app_length. cbn. lia.
    - apply (stepped_good f fsolve n p max_iter atol rtol Hp s1); auto.
    - reflexivity.
    - eapply reach_next; eauto. }
  assert (late : forall m s1, length (rts s1) = length (rts s) -> good s1 -> (4 <= ic s1)%Z -> reach s1 -> (Z.to_nat (max_iter + 1 - ic s1) <= m)%nat -> stops s1).
  { induction m as [|m IH]; intros s1 Hl Hg1 Hi1 Hrs1 Hm; assert (C := step_cases f fsolve n p max_iter atol rtol Hp s1 Hg1);
      (destruct (step s1) as [o|s'] eqn:E; [eapply stops_done; eauto|]); apply (stops_next _ _ E); assert (Hrs' := reach_next _ _ _ _ _ _ _ _ _ _ Hrs1 E); assert (Hg' := stepped_good f fsolve n p max_iter atol rtol Hp _ _ Hg1 C).
    - inversion C; subst; try lia. 
    - inversion C; subst; try lia.
      + apply found_stops; auto.
      + apply IH; auto; cbn; try lia. }
  destruct (sign_near (x00 s) Hx) as (del & Hdel & Hsign).
  assert (MP : 0 < M) by (assert (A := M1); lra).
  assert (mid : forall N d, 0 < d -> (M / 5) ^ N * d * (4 * M) < del -> forall s1, reach s1 -> good s1 -> rts s1 = rts s -> ic s1 = 0%Z -> x00 s1 = x00 s -> sdx s1 = d -> stops s1).
  { induction N as [|N IHN]; intros d Hd HN.
    - assert (Q : forall j s1, (j <= 4)%nat -> ic s1 = Z.of_nat (4 - j) -> reach s1 -> good s1 -> rts s1 = rts s -> x00 s1 = x00 s ->
        sx s1 = x00 s + d * geo (4 - j) -> sdx s1 = d * p ^ (4 - j) -> stops s1).
      { induction j as [|j IHj]; intros s1 Hj H1 Hrs1 Hg1 H2 H3 H4 H5.
        - apply (late (Z.to_nat (max_iter + 1 - ic s1))); auto; [rewrite H2; auto|rewrite H1; cbn; lia].
        - assert (C := step_cases f fsolve n p max_iter atol rtol Hp s1 Hg1).
          assert (SX : sx s1 + sdx s1 = x00 s + d * geo (4 - j)).
          { rewrite H4, H5. replace (4 - j)%nat with (S (4 - S j)) by lia. cbn [geo]. ring. }
          destruct (step s1) as [o|s'] eqn:E; [eapply stops_done; eauto|]. apply (stops_next _ _ E). assert (Hrs' := reach_next _ _ _ _ _ _ _ _ _ _ Hrs1 E). assert (Hg' := stepped_good f fsolve n p max_iter atol rtol Hp _ _ Hg1 C).
          inversion C; subst.
          + exfalso. destruct Hg1 as (_ & Hy & _). match goal with HH : sy s1 * _ <= 0 |- _ => rename HH into Hneg end. rewrite Hy, SX, H4 in Hneg.
            assert (B1 := geo_bound (4 - S j) ltac:(lia)). assert (B2 := geo_bound (4 - j) ltac:(lia)).
            assert (L1 : INR (4 - S j) <= 4) by (rewrite <- INR4; apply le_INR; lia).
            assert (L2 : INR (4 - j) <= 4) by (rewrite <- INR4; apply le_INR; lia).
            cbn [pow] in HN. rewrite Rmult_1_l in HN.
            assert (S1 := Hsign (d * geo (4 - S j))). assert (S2 := Hsign (d * geo (4 - j))).
            assert (X1 : d * geo (4 - S j) <= d * (4 * M)) by (apply Rmult_le_compat_l; [lra|]; nra).
            assert (X2 : d * geo (4 - j) <= d * (4 * M)) by (apply Rmult_le_compat_l; [lra|]; nra).
            assert (Y1 : 0 <= d * geo (4 - S j)) by (apply Rmult_le_pos; lra). assert (Y2 : 0 <= d * geo (4 - j)) by (apply Rmult_le_pos; lra).
            specialize (S1 ltac:(lra)). specialize (S2 ltac:(lra)). set (a := f (x00 s)) in *. set (b := f (x00 s + d * geo (4 - S j))) in *. set (c := f (x00 s + d * geo (4 - j))) in *.
            assert (0 < (a * b) * (a * c)) by (apply Rmult_lt_0_compat; auto). assert (0 <= a * a) by nra. nra.
          + apply found_stops; auto; rewrite H2; auto.
          + apply IHj; cbn [ic rts x00 sx sdx same]; auto; try lia.
            * rewrite H5. replace (4 - j)%nat with (S (4 - S j)) by lia. cbn [pow]. ring. }
      intros s1 Hrs1 Hg1 H1 H2 H3 H4. apply (Q 4%nat); auto; cbn; try lia.
      + destruct Hg1 as (_ & _ & _ & H0 & _). rewrite H0, H3 by auto. ring.
      + rewrite H4. ring.
    - assert (Q : forall j s1, (j <= 4)%nat -> ic s1 = Z.of_nat (4 - j) -> reach s1 -> good s1 -> rts s1 = rts s -> x00 s1 = x00 s ->
        sdx s1 = d * p ^ (4 - j) -> stops s1).
      { induction j as [|j IHj]; intros s1 Hj H1 Hrs1 Hg1 H2 H3 H5.
        - apply (late (Z.to_nat (max_iter + 1 - ic s1))); auto; [rewrite H2; auto|rewrite H1; cbn; lia].
        - assert (C := step_cases f fsolve n p max_iter atol rtol Hp s1 Hg1).
          destruct (step s1) as [o|s'] eqn:E; [eapply stops_done; eauto|]. apply (stops_next _ _ E). assert (Hrs' := reach_next _ _ _ _ _ _ _ _ _ _ Hrs1 E). assert (Hg' := stepped_good f fsolve n p max_iter atol rtol Hp _ _ Hg1 C).
          inversion C; subst.
          + apply (IHN (sdx s1 * 0.2)); auto.
            * assert (0 < sdx s1) by apply Hg1. lra.
            * apply Rle_lt_trans with ((M / 5) ^ S N * d * (4 * M)); auto. cbn [pow].
              assert (B := pM (4 - S j) ltac:(lia)). assert (PN : 0 <= (M / 5) ^ N) by (apply pow_le; lra).
              assert (sdx s1 * 0.2 <= M / 5 * d).
              { rewrite H5. replace (M / 5 * d) with (d * M * 0.2) by lra. apply Rmult_le_compat_r; [lra|]. apply Rmult_le_compat_l; lra. }
              apply Rmult_le_compat_r; [lra|]. replace (M / 5 * (M / 5) ^ N * d) with ((M / 5) ^ N * (M / 5 * d)) by ring. apply Rmult_le_compat_l; auto.
          + apply found_stops; auto; rewrite H2; auto.
          + apply IHj; cbn [ic rts x00 sx sdx same]; auto; try lia.
            rewrite H5. replace (4 - j)%nat with (S (4 - S j)) by lia. cbn [pow]. ring. }
      intros s1 Hrs1 Hg1 H1 H2 H3 H4. apply (Q 4%nat); auto; cbn; try lia. rewrite H4. ring. }
  assert (Hd : 0 < sdx s) by apply Hg.
  assert (K : 0 < sdx s * (4 * M)) by (apply Rmult_lt_0_compat; lra).
  destruct (pow_lt_1_zero (M / 5)) with (y := del / (sdx s * (4 * M))) as (N & HN).
  - rewrite Rabs_right; [apply M5|]. lra.
  - apply Rdiv_lt_0_compat; auto.
  - apply (mid N (sdx s)); auto. specialize (HN N (le_n N)). rewrite Rabs_right in HN by (apply Rle_ge, pow_le; lra).
    apply (Rmult_lt_compat_r (sdx s * (4 * M))) in HN; auto. replace (del / (sdx s * (4 * M)) * (sdx s * (4 * M))) with del in HN by (field; lra). lra.
Qed.
(** A search that starts at a zero never ends. *)
Definition inv0 (s : st) : Prop := (1 <= ic s)%Z -> f (x00 s) <> 0.
Lemma reach_good s : good s0 -> inv0 s0 -> reach s -> good s /\ inv0 s.
Proof.
  intros Hg0 Hi0 H. induction H as [|s s' H [Hg Hi] E]; auto. assert (C := step_cases f fsolve n p max_iter atol rtol Hp s Hg). rewrite E in C.
  split; [eapply (stepped_good f fsolve n p max_iter atol rtol Hp); eauto|]. inversion C; subst; unfold inv0; cbn; try lia.
  intros _. destruct Hg as (_ & Hy & Hic & Hz & _). destruct (Z.eq_dec (ic s) 0) as [Q|Q]; [|apply Hi; lia].
  rewrite (Hz Q) in Hy. intros F0. rewrite Hy, F0, Rmult_0_l in *. lra.
Qed.
Lemma reach_run s : reach s -> exists k, forall m, run (k + m) s0 = run m s /\ forall j, (j <= k)%nat -> run j s0 = None.
Proof.
  intros H. induction H as [|s s' H (k & IH) E].
  - exists 0%nat. intros m. split; auto. intros j Hj. replace j with 0%nat by lia. reflexivity.
  - exists (S k). intros m. split.
    + replace (S k + m)%nat with (k + S m)%nat by lia. rewrite (proj1 (IH (S m))). cbn [RootModel.run]. rewrite E. reflexivity.
    + intros j Hj. destruct (Nat.eq_dec j (S k)) as [->|Nj]; [|apply (proj2 (IH 0%nat)); lia].
      replace (S k) with (k + 1)%nat by lia. rewrite (proj1 (IH 1%nat)). cbn [RootModel.run]. rewrite E. reflexivity.
Qed.
End T.
Lemma stuck_from f fsolve n p mi atol rtol : (0 <= mi)%Z -> forall fuel s, (length (rts s) < n)%nat -> ic s = 0%Z -> sx s = x00 s -> sy s = 0 -> f (x00 s) = 0 ->
  run f fsolve n p mi atol rtol fuel s = None.
Proof.
  intros Hm. induction fuel as [|k IH]; intros s Hn Hi Hx Hy H0; [reflexivity|]. cbn [run]. unfold step. rewrite Hi.
  destruct (Nat.leb_spec n (length (rts s))); [lia|]. destruct (Z.ltb_spec mi 0); [lia|]. cbv zeta. rewrite Hy, Rmult_0_l.
  replace (Rleb 0 0) with true by (symmetry; apply Rleb_true; lra). cbn [Z.add Z.ltb Z.compare Pos.compare Pos.compare_cont]. apply IH; auto.
Qed.

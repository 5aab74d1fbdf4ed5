(** * Piecewise linear smear zones. *)
From Coq Require Import Reals List Lra Lia Bool.
From Coquelicot Require Import Coquelicot.
From Verif Require Import Base SmearModel SpecSmear SmearProofs SmearProofs2 SmearProofs4.
Import ListNotations.
Local Open Scope R_scope.

Lemma isclose_refl a b : a = b -> isclose a b = true.
Proof.
  intros ->. unfold isclose. apply Rleb_true. rewrite Rminus_diag_eq by auto.
  rewrite Rabs_R0. pose proof (Rabs_pos b). lra.
Qed.

(** The segment is not in one of np.isclose's grey zones: each of the three
    equalities the code tests holds exactly or fails by more than the tolerance. *)
Definition clear_cut (sa sb ka kb : R) : Prop :=
  (sa = sb \/ isclose sa sb = false) /\
  (ka = kb \/ (isclose ka kb = false /\ isclose (ka / kb) 1 = false)) /\
  (ka / kb = sb / sa \/ isclose (ka / kb) (sb / sa) = false).

Section Seg.
Variables (n sa sb ka kb : R).
Hypotheses (Hn : 1 < n) (Ha : 1 <= sa) (Hab : sa < sb) (Hb : sb <= n)
  (Hka : 0 < ka) (Hkb : 0 < kb) (CC : clear_cut sa sb ka kb).

Definition k_seg (x : R) : R := / ka + (/ kb - / ka) * ((x - sa) / (sb - sa)).
Let A := (ka / kb - 1) / (sb - sa).
Let B := (sb - ka / kb * sa) / (sb - sa).

Lemma seg_Ba : A * sa + B = 1. Proof. unfold A, B. field. lra. Qed.
Lemma seg_Bb : A * sb + B = ka / kb. Proof. unfold A, B. field. lra. Qed.
Lemma seg_k x : 0 < A * x + B -> / k_seg x = ka / (A * x + B).
Proof.
  intros P. assert (E : k_seg x = (A * x + B) / ka) by (unfold k_seg, A, B; field; lra).
  rewrite E. field. lra.
Qed.
Lemma seg_pos x : sa <= x <= sb -> 0 < A * x + B.
Proof.
  intros Hx. pose proof seg_Ba. pose proof seg_Bb.
  assert (0 < ka / kb) by (apply Rdiv_lt_0_compat; auto).
  destruct (Rle_dec 0 A); nra.
Qed.

Lemma seg_neq : sa = sb -> False. Proof. lra. Qed.
Lemma seg_close : isclose sa sb = false.
Proof. destruct CC as [[E|E] _]; [lra|auto]. Qed.

Lemma phi_at_sa : pwl_phi n sa sb ka kb sa = 0.
Proof.
  unfold pwl_phi. fold A. replace ((sb - sa * ka / kb) / (sb - sa)) with B
    by (unfold B; field; lra).
  replace (sa / sa) with 1 by (field; lra). rewrite seg_Ba, ln_1.
  destruct (isclose (ka / kb) 1); [unfold Rdiv; ring|].
  destruct (isclose (ka / kb) (sb / sa)); [unfold Rdiv; ring|]. unfold Rdiv; ring.
Qed.

Lemma phi_at_sb : pwl_phi n sa sb ka kb sb = pwl_inner n sa sb ka kb.
Proof.
  unfold pwl_phi, pwl_inner. rewrite seg_close. fold A B.
  replace ((sb - sa * ka / kb) / (sb - sa)) with B by (unfold B; field; lra).
  destruct CC as [_ [[->|[E1 E2]] _]].
  - rewrite !isclose_refl; auto; [field; lra|]. field. lra.
  - rewrite E1, E2. destruct (isclose (ka / kb) (sb / sa)); [field; lra|].
    rewrite seg_Bb. reflexivity.
Qed.

Lemma inner_psi : pwl_psi_term n sa sb ka kb = ka * pwl_inner n sa sb ka kb.
Proof.
  unfold pwl_psi_term, pwl_inner. rewrite seg_close. fold A B.
  replace ((sb - sa * ka / kb) / (sb - sa)) with B by (unfold B; field; lra).
  destruct CC as [_ [[->|[E1 E2]] _]].
  - rewrite !isclose_refl; auto; [field; lra|]. field. lra.
  - rewrite E1, E2. destruct (isclose (ka / kb) (sb / sa)); [field; lra|].
    rewrite seg_Bb. reflexivity.
Qed.

Lemma seg_main : exists m,
  n^2 * (ka * pwl_outer n sa sb ka kb) = (sb^2 - n^2) * (ka * pwl_inner n sa sb ka kb) + m /\
  forall bs kp F c0,
    (forall x, sa <= x <= sb -> F x = ka * pwl_phi n sa sb ka kb x + c0) ->
    (forall x, sa < x < sb -> kp x = / k_seg x) ->
    good n bs kp F sa sb m.
Proof.
  destruct (Req_dec ka kb) as [Ek|Ek]; [|destruct (Req_dec (ka / kb) (sb / sa)) as [Es|Es]].
  - (* equal permeabilities *)
    exists (ka * L_c n sb - ka * L_c n sa). split.
    + unfold pwl_outer, pwl_inner. rewrite seg_close, (isclose_refl ka kb Ek).
      unfold L_c. rewrite ln_div by lra. field. lra.
    + intros bs kp F c0 HF Hk. apply piece_c with ka (c0 - ka * phi_c n sa); auto; try lra.
      * intros x Hx. rewrite HF by auto. unfold pwl_phi.
        rewrite isclose_refl by (rewrite Ek; field; lra).
        unfold phi_c. rewrite ln_div by lra. field. lra.
      * intros x Hx. rewrite Hk by auto. unfold k_seg. rewrite <- Ek.
        unfold Rminus at 1. rewrite Rplus_opp_r, Rmult_0_l, Rplus_0_r. apply Rinv_inv.
  - (* permeability proportional to the radius *)
    destruct CC as [_ [[?|[E1 E2]] _]]; [contradiction|].
    assert (EA : A = / sa) by (unfold A; rewrite Es; field; lra).
    assert (EB : B = 0) by (unfold B; rewrite Es; field; lra).
    exists (ka * sa * L_i n sb - ka * sa * L_i n sa). split.
    + unfold pwl_outer, pwl_inner. rewrite seg_close, E1, (isclose_refl _ _ Es).
      unfold L_i. field. lra.
    + intros bs kp F c0 HF Hk.
      apply piece_i with (ka * sa) (c0 - ka * sa * phi_i n sa); auto; try lra.
      * intros x Hx. rewrite HF by auto. unfold pwl_phi. rewrite E2, (isclose_refl _ _ Es).
        unfold phi_i. field. lra.
      * intros x Hx. rewrite Hk by auto. rewrite seg_k by (apply seg_pos; lra).
        rewrite EA, EB. field. lra.
  - (* general *)
    destruct CC as [_ [[?|[E1 E2]] [?|E3]]]; try contradiction.
    assert (HA : A <> 0).
    { unfold A, Rdiv. apply Rmult_integral_contrapositive; split; [|apply Rinv_neq_0_compat; lra].
      intros E. apply Ek. apply Rmult_eq_reg_r with (/ kb); [|apply Rinv_neq_0_compat; lra].
      rewrite Rinv_r by lra. unfold Rdiv in E; lra. }
    assert (HB : B <> 0).
    { unfold B, Rdiv. apply Rmult_integral_contrapositive; split; [|apply Rinv_neq_0_compat; lra].
      intros E. apply Es. apply Rmult_eq_reg_r with sa; [|lra].
      unfold Rdiv at 2. rewrite Rmult_assoc, Rinv_l by lra. unfold Rdiv in *; lra. }
    pose proof seg_Ba as Ea. pose proof seg_Bb as Eb.
    assert (Pr : 0 < ka / kb) by (apply Rdiv_lt_0_compat; auto).
    exists (ka * L_l n A B sb - ka * L_l n A B sa). split.
    + unfold pwl_outer, pwl_inner. rewrite seg_close, E1, E3. fold A B.
      unfold L_l. rewrite Ea, Eb, ln_1.
      assert (El : ln (kb * sb / ka / sa) = ln sb - ln sa - ln (ka / kb)).
      { replace (kb * sb / ka / sa) with ((sb / sa) / (ka / kb)) by (field; lra).
        rewrite !ln_div; auto; try lra. apply Rdiv_lt_0_compat; lra. }
      rewrite El, (ln_div sb sa) by lra.
      assert (Er : A * (sb - sa) = ka / kb - 1) by lra.
      generalize dependent (ln (ka / kb)). intros lk _. 
      generalize (ln sa) (ln sb). intros la lb.
      assert (EB : B = 1 - A * sa) by lra.
      clear - HA HB EB Hn Ha Hab Hka. clearbody A B. subst B.
      field. repeat split; lra.
    + intros bs kp F c0 HF Hk.
      apply piece_l with A B ka (c0 - ka * phi_l n A B sa); auto; try lra.
      * intros x Hx. rewrite HF by auto. unfold pwl_phi. rewrite E2, E3. fold A.
        replace ((sb - sa * ka / kb) / (sb - sa)) with B by (unfold B; field; lra).
        unfold phi_l. rewrite Ea, ln_1, ln_div by lra. field. repeat split; lra.
      * intros x Hx. rewrite Hk by auto. apply seg_k, seg_pos; lra.
Qed.
End Seg.

(** The arrays the code works on after validation. *)
Record pwl_ok (s kap : list R) : Prop := {
  pl_len : length s = length kap;
  pl_first : ix s 0 = 1;
  pl_last : 1 < ix s (length s - 1);
  pl_k : forall i, (i < length s)%nat -> 0 < ix kap i;
  pl_inc : forall i, (S i < length s)%nat -> ix s i <= ix s (S i);
  pl_clear : forall i, (S i < length s)%nat ->
     clear_cut (ix s i) (ix s (S i)) (ix kap i) (ix kap (S i))
}.

Section PWL.
Variables (s kap : list R).
Hypothesis OK : pwl_ok s kap.
Let N := (length s - 1)%nat.
Let n := ix s (length s - 1).
Let X := ix s.
Let Fp := fun x => u_pwl_raw s kap 0 x.
Let dd := fun j => ix kap j * pwl_inner n (X j) (X (S j)) (ix kap j) (ix kap (S j)).
Let oo := fun j => ix kap j * pwl_outer n (X j) (X (S j)) (ix kap j) (ix kap (S j)).

Lemma pwl_len2 : (2 <= length s)%nat.
Proof.
  destruct OK. destruct (length s) as [|[|k]] eqn:E; try lia.
  - cbn in pl_last0. lra.
  - cbn in pl_last0. lra.
Qed.
Lemma pwl_n : 1 < n. Proof. destruct OK; auto. Qed.
Lemma pwl_X0 : X 0%nat = 1. Proof. destruct OK; auto. Qed.
Lemma pwl_Xle i j : (i <= j <= N)%nat -> X i <= X j.
Proof.
  intros H. pose proof pwl_len2. apply mono_le; [destruct OK; auto|]. unfold N in H; lia.
Qed.
Lemma pwl_X1 j : (j <= N)%nat -> 1 <= X j <= n.
Proof.
  intros Hj. split.
  - rewrite <- pwl_X0. apply pwl_Xle. lia.
  - change n with (X N). apply pwl_Xle. lia.
Qed.
Lemma pwl_kpos j : (j <= N)%nat -> 0 < ix kap j.
Proof. intros Hj. pose proof pwl_len2. destruct OK. apply pl_k0. unfold N in Hj; lia. Qed.
Lemma pwl_cc j : (j < N)%nat -> clear_cut (X j) (X (S j)) (ix kap j) (ix kap (S j)).
Proof. intros Hj. pose proof pwl_len2. destruct OK. apply pl_clear0. unfold N in Hj; lia. Qed.

Ltac segt := first [lra | exact pwl_n | (apply pwl_kpos; unfold N; lia)
                   | (apply pwl_cc; unfold N in *; lia)].

Lemma inner_eq_zero j : X j = X (S j) -> dd j = 0.
Proof. intros E. unfold dd, pwl_inner. rewrite isclose_refl by auto. ring. Qed.

Lemma pwl_psi_is j : (j < N)%nat ->
  pwl_psi_term n (X j) (X (S j)) (ix kap j) (ix kap (S j)) = dd j.
Proof.
  intros Hj. destruct (Req_dec (X j) (X (S j))) as [E|E].
  - rewrite inner_eq_zero by auto. unfold pwl_psi_term. rewrite isclose_refl; auto.
  - unfold dd. pose proof (pwl_Xle j (S j) ltac:(lia)). pose proof (pwl_X1 j ltac:(lia)).
    apply inner_psi; segt.
Qed.

Lemma pwl_psi_sum k : (k <= N)%nat ->
  fold_left (fun psi j =>
      psi + pwl_psi_term n (ix s (j-1)) (ix s j) (ix kap (j-1)) (ix kap j)) (seq 1 k) 0
  = sumf dd 0 k.
Proof.
  intros Hk.
  change (sumf (fun j => pwl_psi_term n (ix s (j-1)) (ix s j) (ix kap (j-1)) (ix kap j)) 1 k
          = sumf dd 0 k).
  rewrite sumf_shift. apply sumf_ext. intros i Hi. cbn [Nat.sub].
  rewrite Nat.sub_0_r. apply pwl_psi_is. lia.
Qed.

(** On segment j (from X j to X (j+1), non-empty, reached first). *)
Lemma pwl_raw_seg j x : (j < N)%nat -> X j < x <= X (S j) ->
  Fp x = ix kap j * pwl_phi n (X j) (X (S j)) (ix kap j) (ix kap (S j)) x + sumf dd 0 j.
Proof.
  intros Hj Hx. unfold Fp, u_pwl_raw. fold n.
  assert (E : searchsorted s x = S j).
  { apply searchsorted_is; [unfold N in Hj; lia| |].
    - intros i Hi. apply Rle_lt_trans with (X j); [|lra]. apply pwl_Xle. lia.
    - intros i Hi. apply Rle_trans with (X (S j)); [lra|]. apply pwl_Xle. unfold N in *; lia. }
  rewrite E. cbn [Nat.sub]. rewrite Nat.sub_0_r, pwl_psi_sum by lia. unfold X. ring.
Qed.

Lemma pwl_raw_at_end j : (j < N)%nat -> X j < X (S j) -> Fp (X (S j)) = sumf dd 0 (S j).
Proof.
  intros Hj Hlt. rewrite (pwl_raw_seg j) by (auto; lra).
  pose proof (pwl_X1 j ltac:(lia)). pose proof (pwl_X1 (S j) ltac:(lia)).
  rewrite phi_at_sb by segt.
  rewrite sumf_S. cbn [Nat.add]. unfold dd. ring.
Qed.

(** At the wall. *)
Lemma pwl_raw_1 : X 0%nat < X 1%nat -> Fp 1 = 0.
Proof.
  intros Hlt. unfold Fp, u_pwl_raw. fold n. pose proof pwl_len2. pose proof pwl_X0 as E0.
  assert (E : searchsorted s 1 = 0%nat).
  { apply searchsorted_is; [lia| |]; intros j Hj; [lia|].
    apply pwl_X1. unfold N; lia. }
  rewrite E. cbn [Nat.sub seq fold_left]. fold (X 0%nat) (X 1%nat). rewrite <- E0.
  rewrite phi_at_sa by segt. ring.
Qed.

Lemma pwl_raw_at j : X 0%nat < X 1%nat -> (j <= N)%nat -> Fp (X j) = sumf dd 0 j.
Proof.
  intros H01. induction j as [|j IH]; intros Hj.
  - rewrite pwl_X0. apply pwl_raw_1; auto.
  - destruct (Req_dec (X j) (X (S j))) as [E|E].
    + rewrite <- E, IH by lia. rewrite sumf_S. cbn [Nat.add]. rewrite inner_eq_zero; auto. ring.
    + apply pwl_raw_at_end; [lia|]. pose proof (pwl_Xle j (S j) ltac:(lia)). lra.
Qed.

Lemma k_pwl_gen (s0 k0 : list R) j x :
  length s0 = length k0 -> (S j < length s0)%nat ->
  (forall i, (i <= j)%nat -> ix s0 i <= x) -> x < ix s0 (S j) ->
  k_pwl s0 k0 x = k_seg (ix s0 j) (ix s0 (S j)) (ix k0 j) (ix k0 (S j)) x.
Proof.
  revert k0 j. induction s0 as [|a [|b t] IH]; intros [|ka [|kb k0]] j Hl Hj H1 H2;
    cbn in Hl, Hj; try lia.
  change (k_pwl (a :: b :: t) (ka :: kb :: k0) x) with
    (if Rlt_dec x b then / ka + (/ kb - / ka) * ((x - a) / (b - a))
     else k_pwl (b :: t) (kb :: k0) x).
  destruct j as [|j].
  - unfold ix in H2; cbn in H2. destruct (Rlt_dec x b); [reflexivity|lra].
  - assert (b <= x) by (apply (H1 1%nat); lia).
    destruct (Rlt_dec x b); [lra|].
    rewrite (IH (kb :: k0) j); try (cbn in *; lia); auto.
    intros i Hi. apply (H1 (S i)). lia.
Qed.

Lemma pwl_kp j x : (j < N)%nat -> X j < x < X (S j) ->
  / k_pwl s kap x = / k_seg (X j) (X (S j)) (ix kap j) (ix kap (S j)) x.
Proof.
  intros Hj Hx. f_equal. apply k_pwl_gen; [destruct OK; auto|unfold N in Hj; lia| |exact (proj2 Hx)].
  intros i Hi. apply Rle_trans with (X j); [|lra]. apply pwl_Xle. lia.
Qed.

Lemma pwl_segs F : exists m : nat -> R,
  (forall j, (j < N)%nat -> n^2 * oo j = (X (S j) ^2 - n^2) * dd j + m j) /\
  (forall j, (j < N)%nat ->
     (exists c0, forall x, X j <= x <= X (S j) -> X j < X (S j) -> F x =
         ix kap j * pwl_phi n (X j) (X (S j)) (ix kap j) (ix kap (S j)) x + c0) ->
     good n s (fun x => / k_pwl s kap x) F (X j) (X (S j)) (m j)).
Proof.
  assert (Q : forall j, exists m, (j < N)%nat -> 
     n^2 * oo j = (X (S j) ^2 - n^2) * dd j + m /\
     ((exists c0, forall x, X j <= x <= X (S j) -> X j < X (S j) -> F x =
         ix kap j * pwl_phi n (X j) (X (S j)) (ix kap j) (ix kap (S j)) x + c0) ->
     good n s (fun x => / k_pwl s kap x) F (X j) (X (S j)) m)).
  { intros j. destruct (Compare_dec.lt_dec j N) as [Hj|Hj]; [|exists 0; intros; lia].
    destruct (Req_dec (X j) (X (S j))) as [E|E].
    - exists 0. intros _. split.
      + rewrite inner_eq_zero by auto. unfold oo, pwl_outer. rewrite isclose_refl by auto. ring.
      + intros _. rewrite <- E. apply good_point.
    - pose proof (pwl_Xle j (S j) ltac:(lia)). pose proof (pwl_X1 j ltac:(lia)).
      pose proof (pwl_X1 (S j) ltac:(lia)).
      destruct (seg_main n (X j) (X (S j)) (ix kap j) (ix kap (S j))) as [m [M1 M2]]; try segt.
      exists m. intros _. split; [exact M1|]. intros [c0 Hc]. apply M2 with c0.
      + intros x Hx. apply Hc; lra.
      + intros x Hx. apply (pwl_kp j); auto. }
  (* finite choice *)
  assert (Ch : forall K, exists m : nat -> R, forall j, (j < K)%nat -> (j < N)%nat ->
     n^2 * oo j = (X (S j) ^2 - n^2) * dd j + m j /\
     ((exists c0, forall x, X j <= x <= X (S j) -> X j < X (S j) -> F x =
         ix kap j * pwl_phi n (X j) (X (S j)) (ix kap j) (ix kap (S j)) x + c0) ->
     good n s (fun x => / k_pwl s kap x) F (X j) (X (S j)) (m j))).
  { induction K as [|K [m Hm]]; [exists (fun _ => 0); intros; lia|].
    destruct (Q K) as [mk Hk].
    exists (fun j => if Nat.eqb j K then mk else m j). intros j Hj HjN.
    destruct (Nat.eqb_spec j K) as [->|]; [apply Hk; auto|apply Hm; lia]. }
  destruct (Ch N) as [m Hm]. exists m. split; intros j Hj; apply Hm; auto.
Qed.

Lemma pwl_value (m : nat -> R) kp F :
  (forall j, (j < N)%nat -> n^2 * oo j = (X (S j) ^2 - n^2) * dd j + m j) ->
  (forall j, (j < N)%nat -> good n s kp F (X j) (X (S j)) (m j)) ->
  good n s kp F 1 n (mu_pwl_value s kap * (n^2 - 1)).
Proof.
  intros Ho Hg. pose proof pwl_n as Hn. pose proof pwl_len2 as HL.
  assert (HN : (0 < N)%nat) by (unfold N; lia).
  destruct (chain n s kp F X dd oo m N) as [_ [G E]]; auto; try lra.
  - intros j Hj. apply pwl_Xle; lia.
  - intros j Hj. unfold X, ix. apply nth_In. unfold N in Hj; lia.
  - change (X N) with n in *. rewrite pwl_X0 in G.
    replace (mu_pwl_value s kap * (n ^ 2 - 1)) with (sumf m 0 N); auto.
    rewrite Rminus_diag_eq in E by reflexivity. rewrite Rmult_0_l, Rplus_0_l in E. rewrite <- E.
    unfold mu_pwl_value. fold n N.
    set (body := fun i => ix kap (i - 1) * pwl_outer n (ix s (i - 1)) (ix s i) (ix kap (i - 1)) (ix kap i) +
      fold_left (fun sumj j => sumj + ix kap (j - 1) * pwl_inner n (ix s (j - 1)) (ix s j) (ix kap (j - 1)) (ix kap j))
        (seq 1 (i - 1)) 0 * (ix s i ^ 2 - ix s (i - 1) ^ 2) / n ^ 2).
    assert (Q : sumf (fun j : nat => oo j + sumf dd 0 j * (X (S j) ^ 2 - X j ^ 2) / n ^ 2) 0 N
      = sumf body 1 N).
    { rewrite sumf_shift. apply sumf_ext. intros i Hi. unfold body. cbn [Nat.sub].
      rewrite Nat.sub_0_r.
      assert (I : fold_left (fun sumj j => sumj + ix kap (j - 1) * pwl_inner n (ix s (j - 1)) (ix s j) (ix kap (j - 1)) (ix kap j))
        (seq 1 i) 0 = sumf dd 0 i).
      { change (sumf (fun j => ix kap (j - 1) * pwl_inner n (ix s (j - 1)) (ix s j) (ix kap (j - 1)) (ix kap j)) 1 i = sumf dd 0 i).
        rewrite sumf_shift. apply sumf_ext. intros j Hj. cbn [Nat.sub]. rewrite Nat.sub_0_r.
        reflexivity. }
      rewrite I. reflexivity. }
    rewrite Q. change (n ^ 2 * sumf body 1 N = sumf body 1 N * n ^ 2 / (n ^ 2 - 1) * (n ^ 2 - 1)).
    field. pose proof (n2 n Hn). lra.
Qed.

Lemma pwl_main : X 0%nat < X 1%nat ->
  good n s (fun x => / k_pwl s kap x) Fp 1 n (mu_pwl_value s kap * (n^2 - 1)) /\ Fp 1 = 0.
Proof.
  intros H01. split; [|apply pwl_raw_1; auto].
  destruct (pwl_segs Fp) as [m [M1 M2]]. apply pwl_value with m; auto.
  intros j Hj. apply M2; auto. exists (sumf dd 0 j). intros x [[Hx|<-] Hx2] Hlt.
  - apply pwl_raw_seg; auto.
  - rewrite pwl_raw_at by (auto; lia). pose proof (pwl_X1 j ltac:(lia)).
    rewrite phi_at_sa by segt. ring.
Qed.

(** mu alone needs no assumption about the first segment. *)
Lemma pwl_mu : is_mu n (k_pwl s kap) (mu_pwl_value s kap).
Proof.
  destruct (pwl_segs Fp) as [m [M1 M2]].
  assert (J : forall j, (j < N)%nat ->
     is_RInt (fun x => / k_pwl s kap x * ww n x) (X j) (X (S j)) (m j)).
  { intros j Hj. destruct (Req_dec (X j) (X (S j))) as [E|E].
    - assert (m j = 0).
      { specialize (M1 j Hj). rewrite inner_eq_zero in M1 by auto.
        unfold oo, pwl_outer in M1. rewrite isclose_refl in M1 by auto. lra. }
      rewrite <- E, H. apply (is_RInt_point (V := R_NormedModule)).
    - pose proof (pwl_Xle j (S j) ltac:(lia)). pose proof (pwl_X1 j ltac:(lia)).
      pose proof (pwl_X1 (S j) ltac:(lia)).
      destruct (seg_main n (X j) (X (S j)) (ix kap j) (ix kap (S j))) as [m' [N1 N2]]; try segt.
      replace (m j) with m'.
      + destruct (N2 s (fun x => / k_pwl s kap x)
          (fun x => ix kap j * pwl_phi n (X j) (X (S j)) (ix kap j) (ix kap (S j)) x + 0) 0)
          as [_ _ I _]; auto.
        intros x Hx. apply (pwl_kp j); auto.
      + specialize (M1 j Hj). unfold oo, dd in M1. lra. }
  assert (T : forall k, (k <= N)%nat -> is_RInt (fun x => / k_pwl s kap x * ww n x) 1 (X k) (sumf m 0 k)).
  { induction k as [|k IH]; intros Hk.
    - rewrite pwl_X0. apply (is_RInt_point (V := R_NormedModule)).
    - rewrite sumf_S. apply (is_RInt_Chasles (V := R_NormedModule)) with (X k).
      + apply IH; lia.
      + apply J; lia. }
  unfold is_mu. eapply is_RInt_val; [exact (T N ltac:(lia))|].
  (* the same algebra as in [pwl_value] *)
  pose proof pwl_n as Hn. pose proof pwl_len2 as HL.
  assert (HN : (0 < N)%nat) by (unfold N; lia).
  assert (E : forall k, (k <= N)%nat ->
    n^2 * sumf (fun j => oo j + sumf dd 0 j * (X (S j) ^2 - X j ^2) / n^2) 0 k
     = (X k ^2 - n^2) * sumf dd 0 k + sumf m 0 k).
  { induction k as [|k IH]; intros Hk; [rewrite !sumf_0; ring|].
    rewrite sumf_S, Rmult_plus_distr_l, IH by lia. cbn [Nat.add].
    rewrite Rmult_plus_distr_l, M1 by lia. rewrite (sumf_S dd 0 k), (sumf_S m 0 k).
    cbn [Nat.add]. field. lra. }
  specialize (E N ltac:(lia)). change (X N) with n in E.
  rewrite Rminus_diag_eq in E by reflexivity. rewrite Rmult_0_l, Rplus_0_l in E. rewrite <- E.
  unfold mu_pwl_value. fold n N.
  set (body := fun i => ix kap (i - 1) * pwl_outer n (ix s (i - 1)) (ix s i) (ix kap (i - 1)) (ix kap i) +
      fold_left (fun sumj j => sumj + ix kap (j - 1) * pwl_inner n (ix s (j - 1)) (ix s j) (ix kap (j - 1)) (ix kap j))
        (seq 1 (i - 1)) 0 * (ix s i ^ 2 - ix s (i - 1) ^ 2) / n ^ 2).
  assert (Q : sumf (fun j : nat => oo j + sumf dd 0 j * (X (S j) ^ 2 - X j ^ 2) / n ^ 2) 0 N
      = sumf body 1 N).
  { rewrite sumf_shift. apply sumf_ext. intros i Hi. unfold body. cbn [Nat.sub].
    rewrite Nat.sub_0_r.
    assert (I : fold_left (fun sumj j => sumj + ix kap (j - 1) * pwl_inner n (ix s (j - 1)) (ix s j) (ix kap (j - 1)) (ix kap j))
        (seq 1 i) 0 = sumf dd 0 i).
    { change (sumf (fun j => ix kap (j - 1) * pwl_inner n (ix s (j - 1)) (ix s j) (ix kap (j - 1)) (ix kap j)) 1 i = sumf dd 0 i).
      rewrite sumf_shift. apply sumf_ext. intros j Hj. cbn [Nat.sub]. rewrite Nat.sub_0_r.
      reflexivity. }
    rewrite I. reflexivity. }
  rewrite Q. change (n ^ 2 * sumf body 1 N = sumf body 1 N * n ^ 2 / (n ^ 2 - 1) * (n ^ 2 - 1)).
  field. pose proof (n2 n Hn). lra.
Qed.
End PWL.

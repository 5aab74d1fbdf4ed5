(** * Property theorems: smear zones, continued (C72-C76) *)
From Coq Require Import Reals List Arith Lia Lra Bool Ascii String.
From Coquelicot Require Import Coquelicot.
From Verif Require Import Base SmearModel SpecSmear SmearProofs SmearProofs2 SmearProofs3
  SmearProofs4 SmearProofs5 SmearProofs6 SmearProofs7 PropsSmear.
Import ListNotations.
Local Open Scope list_scope.
Local Open Scope R_scope.
Local Notation length := List.length.

(** The result [v] for a smear zone of ratio [kap] whose exact parameter is [m]: the code
    takes short cuts when two numbers are equal to within np.isclose. *)
Definition close_mu (kap v m : R) : Prop := Rabs (v - m) <= 2 / 100000 * (m + Rabs (kap - 1)).

(** ** C72: linear smear zone *)
Definition linear_args (n s kap : list R) : Prop :=
  length n = length kap /\ length s = length kap /\
  List.Forall (fun v => 1 < v) n /\ List.Forall (fun v => 0 < v) kap /\
  forall i, (i < length kap)%nat -> 1 <= nth i s 0 < nth i n 0.

Lemma nth_map3 (f : R -> R -> R -> R) a b c i : length a = length c -> length b = length c ->
  (i < length c)%nat -> nth i (map3 f a b c) 0 = f (nth i a 0) (nth i b 0) (nth i c 0).
Proof.
  revert b c i. induction a as [|x a IH]; intros [|y b] [|z c] i L1 L2 Hi; cbn in *; try lia.
  destruct i as [|i]; auto. apply IH; lia.
Qed.
Lemma len_map3 (f : R -> R -> R -> R) a b c : length a = length c -> length b = length c ->
  length (map3 f a b c) = length c.
Proof.
  revert b c. induction a as [|x a IH]; intros [|y b] [|z c] L1 L2; cbn in *; try lia.
  rewrite IH; lia.
Qed.

Theorem C72_mu_linear : forall n s kap,
  (linear_args n s kap -> exists mus, mu_linear n s kap = Ok mus /\ length mus = length kap /\
     forall i, (i < length kap)%nat ->
       (exists m, is_mu (nth i n 0) (k_lin (nth i s 0) (nth i kap 0)) m /\
          close_mu (nth i kap 0) (nth i mus 0) m) /\
       (told_apart (nth i s 0) 1 -> told_apart (nth i kap 0) 1 ->
        told_apart (nth i s 0) (nth i kap 0) ->
          is_mu (nth i n 0) (k_lin (nth i s 0) (nth i kap 0)) (nth i mus 0))) /\
  (~ linear_args n s kap -> mu_linear n s kap = Err ValueError).
Proof.
  intros n s kap. split.
  - intros [L1 [L2 [Hn [Hk Hs]]]]. exists (map3 mu_linear_elem n s kap).
    split; [|split; [apply len_map3; auto|]].
    + unfold mu_linear.
      rewrite (any_false_of (fun v => Rleb v 1) n).
      2:{ intros i Hi. apply Rleb_false. revert i Hi. apply Forall_ix; auto. }
      rewrite (any_false_of (fun v => Rltb v 1) s).
      2:{ intros i Hi. apply Rltb_false. unfold ix. apply Hs. lia. }
      rewrite (any_false_of (fun v => Rleb v 0) kap).
      2:{ intros i Hi. apply Rleb_false. revert i Hi. apply Forall_ix; auto. }
      rewrite L1, L2, Nat.eqb_refl. cbn [andb negb].
      destruct (existsb _ (combine n s)) eqn:E; auto. exfalso.
      apply existsb_exists in E. destruct E as [p [Hp E]]. apply Rleb_true in E.
      apply (In_nth _ _ (0,0)) in Hp. destruct Hp as [i [Hi Ep]].
      rewrite combine_length in Hi. rewrite combine_nth in Ep by lia. subst p. cbn in E.
      specialize (Hs i). lra || (specialize (Hs ltac:(lia)); lra).
    + intros i Hi. rewrite nth_map3 by auto. specialize (Hs i Hi).
      assert (P1 : 1 < nth i n 0) by lra.
      assert (P2 : 0 < nth i kap 0) by (apply (proj2 (Forall_ix _ kap) Hk i Hi)).
      split.
      * destruct (mu_lin_exists (nth i n 0) (nth i s 0) (nth i kap 0)) as [m Hm]; auto; try lra.
        exists m. split; auto. apply mu_linear_elem_close; auto. lra.
      * intros T1 T2 T3. apply mu_linear_elem_exact; auto. lra.
  - intros H. unfold mu_linear.
    destruct (any _ n) eqn:E1; auto. destruct (any _ s) eqn:E2; auto.
    destruct (any _ kap) eqn:E3; auto.
    destruct (Nat.eqb (length n) (length kap) && Nat.eqb (length s) (length kap)) eqn:E4; auto.
    cbn [negb]. destruct (existsb _ (combine n s)) eqn:E5; auto. exfalso; apply H.
    apply andb_prop in E4. destruct E4 as [E4 E6]. apply Nat.eqb_eq in E4, E6.
    split; [auto|]. split; [auto|]. split; [|split].
    + apply Forall_ix. intros i Hi. pose proof (any_false _ _ E1 i Hi) as Q. apply Rleb_false in Q. auto.
    + apply Forall_ix. intros i Hi. pose proof (any_false _ _ E3 i Hi) as Q. apply Rleb_false in Q. auto.
    + intros i Hi. split.
      * pose proof (any_false _ _ E2 i ltac:(lia)) as Q. apply Rltb_false in Q. auto.
      * apply Rnot_le_lt. intros Q.
        assert (X : existsb (fun p => Rleb (fst p) (snd p)) (combine n s) = true); [|congruence].
        apply existsb_exists. exists (nth i n 0, nth i s 0). split; [|apply Rleb_true; auto].
        rewrite <- combine_nth by lia. apply nth_In. rewrite combine_length. lia.
Qed.
Print Assumptions C72_mu_linear.

Lemma dec_close a b : / 100000000 + / 100000 * Rabs b < Rabs (a - b) -> isclose a b = false.
Proof. intros H. unfold isclose. apply Rleb_false. auto. Qed.
Ltac apart := right; apply dec_close;
  repeat match goal with
  | |- context [Rabs ?x] => first [rewrite (Rabs_right x) by lra | rewrite (Rabs_left1 x) by lra]
  end; lra.

Example C72_applies : linear_args [20; 10] [3; 2] [4; 2] /\
  told_apart 3 1 /\ told_apart 4 1 /\ told_apart 3 4 /\ told_apart 2 2.
Proof.
  split.
  - split; [reflexivity|]. split; [reflexivity|].
    split; [repeat constructor; lra|]. split; [repeat constructor; lra|].
    intros [|[|i]] Hi; cbn in *; try lia; lra.
  - split; [apart|]. split; [apart|]. split; [apart|]. left; auto.
Qed.

(** The permeability profile reported by k_linear is the one mu_linear uses. *)
Theorem C72_k_linear : forall n s kap si,
  1 < n -> 1 <= s <= n -> 0 < kap ->
  told_apart s 1 -> told_apart kap 1 -> told_apart s kap ->
  (in_annulus n si -> k_linear n s kap si = Ok (map (k_lin s kap) si)) /\
  (~ in_annulus n si -> k_linear n s kap si = Err ValueError).
Proof.
  intros n s kap si Hn Hs Hk T1 T2 T3. split.
  - intros Hsi. unfold k_linear. rewrite check_nsk_ok, check_si_ok by auto. cbn [bind].
    destruct (isclose s 1 || isclose kap 1) eqn:I.
    + f_equal. apply map_ext_in. intros x Hx.
      assert (1 <= x <= n) by (unfold in_annulus in Hsi; rewrite List.Forall_forall in Hsi; auto).
      unfold k_lin. destruct (Rlt_dec x s); auto.
      assert (HC : s = 1 \/ kap = 1).
      { destruct T1 as [?|T1]; auto. destruct T2 as [?|T2]; auto. rewrite T1, T2 in I. discriminate. }
      destruct HC as [->| ->]; [lra|]. rewrite Rinv_1. ring.
    + apply orb_false_elim in I. destruct I as [I1 I2].
      assert (s <> 1) by (intros ->; rewrite isclose_refl in I1; auto; discriminate).
      assert (Hs1 : 1 < s) by (apply Rnot_le_lt; intros ?; apply H; lra).
      f_equal. apply map_ext_in. intros x Hx.
      destruct (Rltb x s) eqn:E.
      * apply Rltb_true in E. rewrite k_lin_form by auto. unfold k_linear_eq_part, k_linear_neq_part.
        destruct (isclose s kap) eqn:I3.
        -- destruct T3 as [->|T3]; [|congruence]. field. lra.
        -- field. lra.
      * apply Rltb_false in E. rewrite k_lin_out; auto.
  - intros Hsi. unfold k_linear. rewrite check_nsk_ok, check_si_err by auto. reflexivity.
Qed.
Print Assumptions C72_k_linear.

(** ** C73: parabolic smear zone *)
Lemma k_par_pos s kap x : 0 < kap -> 1 <= x -> 0 < k_par s kap x.
Proof.
  intros Hk Hx. unfold k_par. destruct (Rlt_dec x s); [|lra].
  assert (0 < / kap) by (apply Rinv_0_lt_compat; lra).
  assert (Hr : 0 <= (s - x) / (s - 1) <= 1).
  { split; [apply Rle_mult_inv_pos; lra|]. apply Rmult_le_reg_r with (s - 1); [lra|].
    unfold Rdiv. rewrite Rmult_assoc, Rinv_l by lra. lra. }
  set (rr := (s - x) / (s - 1)) in *. assert (0 <= rr^2 <= 1) by nra.
  set (q := rr^2) in *. set (k := / kap) in *. clearbody rr q k.
  destruct (Req_dec q 1) as [->|]; [lra|]. assert (q < 1) by (apply Rnot_le_lt; intros ?; lra).
  assert (0 <= k * q) by (apply Rmult_le_pos; lra). lra.
Qed.

Lemma k_par_between s kap x : 1 < s -> 1 <= kap -> 1 <= x <= s ->
  Rmin 1 kap <= / k_par s kap x <= Rmax 1 kap.
Proof.
  intros Hs Hk Hx. rewrite Rmin_left, Rmax_right by lra.
  destruct (Req_dec kap 1) as [->|Hk1].
  - assert (E : k_par s 1 x = 1).
    { unfold k_par. destruct (Rlt_dec x s); auto. rewrite Rinv_1. ring. }
    rewrite E, Rinv_1. lra.
  - assert (1 < kap) by (apply Rnot_le_lt; intros ?; apply Hk1; lra).
    pose proof (k_par_range s kap x Hs H Hx) as R.
    assert (0 < / kap) by (apply Rinv_0_lt_compat; lra). split.
    + rewrite <- Rinv_1. apply Rinv_le_contravar; lra.
    + apply Rle_trans with (/ / kap); [apply Rinv_le_contravar; lra|rewrite Rinv_inv; lra].
Qed.

(** Whenever the permeability is reduced (kap >= 1) and numpy's square-root formula has
    no zero denominator, mu_parabolic is the drain parameter of the parabolic profile. *)
Theorem C73_mu_parabolic : forall n s kap,
  (1 < n -> 1 <= s <= n -> 1 <= kap -> kap / (kap - 1) <> (s / (s - 1))^2 ->
    exists v m, mu_parabolic n s kap = Ok (Some v) /\
      is_mu n (k_par s kap) m /\ close_mu kap v m /\
      (told_apart s 1 -> told_apart kap 1 -> v = m)) /\
  (~ (1 < n /\ 1 <= s <= n /\ 0 < kap) -> mu_parabolic n s kap = Err ValueError).
Proof.
  intros n s kap. split.
  - intros Hn Hs Hk NS. rewrite mu_parabolic_ok by lra.
    destruct (mu_par_exists n s kap) as [m Hm]; auto; [lra|].
    destruct (isclose s 1 || isclose kap 1) eqn:I.
    + exists (mu_ideal_elem n), m. split; auto. split; auto. split.
      * apply orb_prop in I. destruct (Req_dec s 1) as [->|Hs1].
        -- assert (E : mu_ideal_elem n = m).
           { apply (is_mu_unique n (k_par 1 kap)); auto. apply is_mu_ideal; auto.
             intros; apply k_par_out; lra. }
           rewrite E. unfold close_mu. rewrite Rminus_diag_eq, Rabs_R0 by auto.
           pose proof (Rabs_pos (kap - 1)).
           assert (0 <= m) by (eapply is_mu_pos; [exact Hn| |exact Hm]; intros; apply k_par_pos; lra).
           lra.
        -- assert (Hs2 : 1 < s) by (apply Rnot_le_lt; intros ?; apply Hs1; lra).
           apply (ideal_shortcut n s kap (k_par s kap) m); auto; [lra| |].
           ++ intros x Hx. apply k_par_between; lra.
           ++ intros; apply k_par_out; lra.
      * intros T1 T2. assert (HC : s = 1 \/ kap = 1).
        { destruct T1 as [?|T1]; auto. destruct T2 as [?|T2]; auto. rewrite T1, T2 in I. discriminate. }
        apply (is_mu_unique n (k_par s kap)); auto. apply is_mu_ideal; auto.
        intros x Hx. unfold k_par. destruct (Rlt_dec x s); auto.
        destruct HC as [->| ->]; [lra|rewrite Rinv_1; ring].
    + apply orb_false_elim in I. destruct I as [I1 I2].
      assert (s <> 1) by (intros ->; rewrite isclose_refl in I1; auto; discriminate).
      assert (kap <> 1) by (intros ->; rewrite isclose_refl in I2; auto; discriminate).
      assert (Hs1 : 1 < s) by (apply Rnot_le_lt; intros ?; apply H; lra).
      assert (Hk1 : 1 < kap) by (apply Rnot_le_lt; intros ?; apply H0; lra).
      destruct (mu_p_some n s kap Hk1 Hs1 NS) as [mu Hmu].
      destruct (good_par n s kap mu Hn ltac:(lra) Hk1 Hmu) as [G F1].
      assert (E : mu = m).
      { apply (is_mu_unique n (k_par s kap)); auto. eapply good_mu; [exact G|reflexivity]. }
      subst m. exists mu, mu. split; [rewrite Hmu; auto|]. split; auto. split; auto.
      unfold close_mu. rewrite Rminus_diag_eq, Rabs_R0 by auto.
      pose proof (Rabs_pos (kap - 1)).
      assert (0 <= mu) by (eapply is_mu_pos; [exact Hn| |exact Hm]; intros; apply k_par_pos; lra).
      lra.
  - intros H. unfold mu_parabolic.
    destruct (Rleb n 1) eqn:E1; auto. destruct (Rltb s 1) eqn:E2; auto.
    destruct (Rleb kap 0) eqn:E3; auto. destruct (Rltb n s) eqn:E4; auto.
    apply Rleb_false in E1, E3. apply Rltb_false in E2, E4. exfalso; apply H. lra.
Qed.
Print Assumptions C73_mu_parabolic.

Example C73_applies : 1 < 20 /\ 1 <= 3 <= 20 /\ 1 <= 4 /\ 4 / (4 - 1) <> (3 / (3 - 1))^2.
Proof. split; [lra|]. split; [lra|]. split; [lra|]. intros E; field_simplify in E; lra. Qed.

Theorem C73_k_parabolic : forall n s kap si,
  1 < n -> 1 <= s <= n -> 1 <= kap -> told_apart s 1 -> told_apart kap 1 ->
  (in_annulus n si -> k_parabolic n s kap si = Ok (map (fun x => Some (k_par s kap x)) si)) /\
  (~ in_annulus n si -> k_parabolic n s kap si = Err ValueError).
Proof.
  intros n s kap si Hn Hs Hk T1 T2. split.
  - intros Hsi. unfold k_parabolic. rewrite check_nsk_ok, check_si_ok by (auto; lra). cbn [bind].
    destruct (isclose s 1 || isclose kap 1) eqn:I.
    + f_equal. apply map_ext_in. intros x Hx. f_equal.
      assert (1 <= x <= n) by (unfold in_annulus in Hsi; rewrite List.Forall_forall in Hsi; auto).
      unfold k_par. destruct (Rlt_dec x s); auto.
      assert (HC : s = 1 \/ kap = 1).
      { destruct T1 as [?|T1]; auto. destruct T2 as [?|T2]; auto. rewrite T1, T2 in I. discriminate. }
      destruct HC as [->| ->]; [lra|]. rewrite Rinv_1. ring.
    + apply orb_false_elim in I. destruct I as [I1 I2].
      assert (s <> 1) by (intros ->; rewrite isclose_refl in I1; auto; discriminate).
      assert (kap <> 1) by (intros ->; rewrite isclose_refl in I2; auto; discriminate).
      assert (Hs1 : 1 < s) by (apply Rnot_le_lt; intros ?; apply H; lra).
      assert (Hk1 : 1 < kap) by (apply Rnot_le_lt; intros ?; apply H0; lra).
      f_equal. apply map_ext_in. intros x Hx.
      destruct (Rltb x s) eqn:E.
      * apply Rltb_true in E. pose proof (k_par_form s kap x Hs1 Hk1 E) as F. cbv zeta in F. rewrite F.
        unfold k_parabolic_part. rewrite (proj2 (Rltb_false kap 1)) by lra. f_equal.
        generalize (sqrt (kap / (kap - 1))). intros A. field. lra.
      * apply Rltb_false in E. rewrite k_par_out; auto.
  - intros Hsi. unfold k_parabolic. rewrite check_nsk_ok, check_si_err by (auto; lra). reflexivity.
Qed.
Print Assumptions C73_k_parabolic.

(** The full property fails: for a smear zone MORE permeable than the soil (accepted by
    the argument checks, and handled by the other models), and when
    kap/(kap-1) = (s/(s-1))^2, the result is nan although the drain parameter exists. *)
Theorem C73_nan_refuted :
  (forall n s kap, 1 < n -> 1 <= s <= n -> 0 < kap < 1 -> isclose s 1 = false -> isclose kap 1 = false ->
     mu_parabolic n s kap = Ok None /\ exists m, is_mu n (k_par s kap) m) /\
  (forall n s, 1 < n -> 1 < s <= n -> isclose s 1 = false ->
     let kap := s^2 / (2 * s - 1) in
     isclose kap 1 = false ->
     1 < kap /\ mu_parabolic n s kap = Ok None /\ exists m, is_mu n (k_par s kap) m).
Proof.
  split.
  - intros n s kap Hn Hs Hk I1 I2. split.
    + rewrite mu_parabolic_ok by lra. rewrite I1, I2. cbn [orb]. unfold mu_p.
      rewrite (proj2 (Rltb_true kap 1)) by lra. reflexivity.
    + apply mu_par_exists; lra.
  - intros n s Hn Hs I1 kap I2.
    assert (Hk : 1 < kap).
    { unfold kap. apply Rmult_lt_reg_r with (2 * s - 1); [lra|].
      unfold Rdiv. rewrite Rmult_assoc, Rinv_l by lra. nra. }
    split; auto. split; [|apply mu_par_exists; lra].
    rewrite mu_parabolic_ok by lra. rewrite I1, I2. cbn [orb]. unfold mu_p.
    rewrite (proj2 (Rltb_false kap 1)) by lra.
    assert (Z : kap / (kap - 1) = (s / (s - 1))^2).
    { assert (D : kap - 1 = (s - 1)^2 / (2 * s - 1)) by (unfold kap; field; lra).
      rewrite D. unfold kap. field. split; lra. }
    assert (0 <= kap / (kap - 1)) by (apply Rle_mult_inv_pos; lra).
    rewrite (proj2 (Reqb_true _ _)); auto.
    replace (sqrt (kap / (kap - 1)) ^ 2) with (kap / (kap - 1)).
    + rewrite Z. ring.
    + rewrite <- (sqrt_sqrt _ H) at 1. ring.
Qed.
Print Assumptions C73_nan_refuted.

Example C73_nan_applies : isclose 2 1 = false /\ isclose (2^2 / (2*2 - 1)) 1 = false /\ isclose (/ 2) 1 = false.
Proof.
  split; [|split]; apply dec_close.
  - rewrite (Rabs_right 1), Rabs_right by lra. lra.
  - rewrite (Rabs_right 1), Rabs_right by lra. lra.
  - rewrite (Rabs_right 1), Rabs_left1 by lra. lra.
Qed.

(** ** C74: overlapping linear smear zones *)
Lemma is_mu_const_kap n kap k : 1 < n -> 0 < kap -> (forall x, 1 < x < n -> k x = / kap) ->
  is_mu n k (kap * mu_ideal_elem n).
Proof.
  intros Hn Hk Hx. pose proof (Rinv_0_lt_compat _ Hk).
  replace (kap * mu_ideal_elem n) with (mu_ideal_elem n / (/ kap)) by (unfold Rdiv; rewrite Rinv_inv; ring).
  apply (is_mu_scale n k_one k (/ kap)); [auto|lra| |].
  - intros x H1. rewrite Hx by auto. unfold k_one. ring.
  - apply is_mu_ideal; auto.
Qed.

Theorem C74_mu_overlapping_linear : forall n s kap, 1 < n -> 1 <= s -> 0 < kap ->
  (s < n -> mu_overlapping_linear n s kap = Ok (mu_linear_elem n s kap) /\
            mu_linear [n] [s] [kap] = Ok [mu_linear_elem n s kap]) /\
  (n < s -> s < 2 * n - 1 -> exists v m, mu_overlapping_linear n s kap = Ok v /\
      is_mu n (k_over n s kap) m /\
      (isclose s 1 = false -> isclose kap 1 = false -> close_mu kap v m)) /\
  (2 * n - 1 <= s -> isclose s 1 = false -> told_apart kap 1 ->
      exists v, mu_overlapping_linear n s kap = Ok v /\ is_mu n (fun _ => / kap) v).
Proof.
  intros n s kap Hn Hs Hk.
  assert (C1 : Rleb n 1 = false) by (apply Rleb_false; lra).
  assert (C2 : Rltb s 1 = false) by (apply Rltb_false; lra).
  assert (C3 : Rleb kap 0 = false) by (apply Rleb_false; lra).
  split; [|split].
  - intros Hsn. split; [|apply mu_linear_1; auto; lra]. unfold mu_overlapping_linear. rewrite C1, C2, C3.
    destruct (isclose s 1 || isclose kap 1) eqn:I.
    + rewrite mu_ideal_1 by auto. unfold mu_linear_elem. rewrite I. reflexivity.
    + rewrite (proj2 (Rleb_true s n)) by lra. cbn [negb andb]. rewrite mu_linear_1 by (auto; lra). reflexivity.
  - intros H1 H2. destruct (kapx_facts n s kap Hn H1 ltac:(lra) Hk) as [Hx [Hkx [Hb Hko]]].
    destruct (mu_lin_exists n (_sx n s) (_kapx n s kap)) as [m0 Hm0]; auto; [lra|].
    assert (CC : _kapx n s kap / kap <> 0).
    { apply Rgt_not_eq, Rdiv_lt_0_compat; auto. }
    pose proof (is_mu_scale n _ _ _ m0 Hn CC Hko Hm0) as Hm.
    unfold mu_overlapping_linear. rewrite C1, C2, C3.
    destruct (isclose s 1 || isclose kap 1) eqn:I.
    + rewrite mu_ideal_1 by auto. eexists. eexists. split; [reflexivity|]. split; [exact Hm|].
      intros I1 I2. rewrite I1, I2 in I. discriminate.
    + rewrite (proj2 (Rleb_false s n)) by lra. rewrite (proj2 (Rleb_false (2 * n - s) 1)) by lra.
      cbn [negb andb]. rewrite mu_linear_1 by (auto; lra). cbn [bind].
      eexists. eexists. split; [reflexivity|]. split; [exact Hm|]. intros _ _.
      pose proof (mu_linear_elem_close n (_sx n s) (_kapx n s kap) m0 Hn ltac:(lra) Hkx Hm0) as Q.
      unfold close_mu. set (kx := _kapx n s kap) in *. set (v := mu_linear_elem _ _ _) in *.
      replace (v * kap / kx - m0 / (kx / kap)) with ((v - m0) * (kap / kx)) by (field; lra).
      replace (m0 / (kx / kap)) with (m0 * (kap / kx)) by (field; lra).
      assert (P : 0 < kap / kx) by (apply Rdiv_lt_0_compat; auto).
      rewrite Rabs_mult, (Rabs_right (kap / kx)) by lra.
      apply Rle_trans with (2 / 100000 * (m0 + Rabs (kx - 1)) * (kap / kx)).
      * apply Rmult_le_compat_r; lra.
      * lra.
  - intros H1 I1 T2. unfold mu_overlapping_linear. rewrite C1, C2, C3, I1. cbn [orb].
    destruct (isclose kap 1) eqn:I2.
    + destruct T2 as [->|]; [|congruence]. rewrite mu_ideal_1 by auto. eexists. split; [reflexivity|].
      apply is_mu_ideal; auto. intros; apply Rinv_1.
    + rewrite (proj2 (Rleb_false s n)) by lra. rewrite (proj2 (Rleb_true (2 * n - s) 1)) by lra.
      cbn [negb andb]. rewrite mu_ideal_1 by auto. eexists. split; [reflexivity|].
      apply is_mu_const_kap; auto.
Qed.
Print Assumptions C74_mu_overlapping_linear.

Example C74_applies : 1 < 5 /\ 5 < 7 /\ 7 < 2 * 5 - 1 /\ isclose 7 1 = false /\ told_apart 4 1.
Proof.
  split; [lra|]. split; [lra|]. split; [lra|]. split; [|apart].
  apply dec_close. rewrite (Rabs_right 1), Rabs_right by lra. lra.
Qed.

(** The permeability profile reported by k_overlapping_linear is the one
    mu_overlapping_linear uses. *)
Theorem C74_k_overlapping_linear : forall n s kap si,
  1 < n -> 1 <= s -> 0 < kap -> isclose s 1 = false -> isclose kap 1 = false -> in_annulus n si ->
  (n < s < 2 * n - 1 -> k_overlapping_linear n s kap si = Ok (map (k_over n s kap) si)) /\
  (2 * n - 1 <= s -> k_overlapping_linear n s kap si = Ok (map (fun _ => / kap) si)) /\
  (s <= n -> told_apart s kap -> k_overlapping_linear n s kap si = Ok (map (k_lin s kap) si)).
Proof.
  intros n s kap si Hn Hs Hk I1 I2 Hsi.
  assert (C1 : Rleb n 1 = false) by (apply Rleb_false; lra).
  assert (C2 : Rltb s 1 = false) by (apply Rltb_false; lra).
  assert (C3 : Rleb kap 0 = false) by (apply Rleb_false; lra).
  unfold k_overlapping_linear. rewrite C1, C2, C3, check_si_ok, I1, I2 by auto. cbn [bind orb].
  split; [|split].
  - intros H. rewrite (proj2 (Rleb_false (2 * n - s) 1)) by lra. rewrite (proj2 (Rleb_false s n)) by lra.
    f_equal. apply map_ext_in. intros x Hx. unfold k_over, _sx, _kapx, Rmin, _sx.
    destruct (Rltb x (2 * n - s)) eqn:E.
    + apply Rltb_true in E. destruct (Rle_dec x (2 * n - s)); [|lra]. field. lra.
    + apply Rltb_false in E. destruct (Rle_dec x (2 * n - s)).
      * assert (x = 2 * n - s) by lra. subst x. field. lra.
      * field. lra.
  - intros H. rewrite (proj2 (Rleb_true (2 * n - s) 1)) by lra. f_equal. apply map_ext.
    intros; field; lra.
  - intros H T. rewrite (proj2 (Rleb_false (2 * n - s) 1)) by lra.
    rewrite (proj2 (Rleb_true s n)) by lra.
    apply C72_k_linear; auto; right; auto.
Qed.
Print Assumptions C74_k_overlapping_linear.

(** The full property fails at the single radius s = n (smear zones just touching,
    accepted by the documented range s <= n): mu_linear, and with it
    mu_overlapping_linear and u_linear, raises ValueError although the parameter exists
    and mu_constant and mu_parabolic answer. *)
Theorem C74_touching_refuted : forall n kap, 1 < n -> 0 < kap -> isclose n 1 = false -> isclose kap 1 = false ->
  mu_overlapping_linear n n kap = Err ValueError /\
  (forall uavg uw muw, u_linear n n kap [1] uavg uw muw = Err ValueError) /\
  (exists m, is_mu n (k_lin n kap) m) /\ (exists v, mu_constant n n kap = Ok v).
Proof.
  intros n kap Hn Hk I1 I2.
  assert (ML : mu_linear [n] [n] [kap] = Err ValueError).
  { unfold mu_linear, any. cbn [existsb].
    rewrite (proj2 (Rleb_false n 1)) by lra. rewrite (proj2 (Rltb_false n 1)) by lra.
    rewrite (proj2 (Rleb_false kap 0)) by lra. cbn. rewrite (proj2 (Rleb_true n n)) by lra. reflexivity. }
  split; [|split; [|split]].
  - unfold mu_overlapping_linear. rewrite (proj2 (Rleb_false n 1)) by lra.
    rewrite (proj2 (Rltb_false n 1)) by lra. rewrite (proj2 (Rleb_false kap 0)) by lra.
    rewrite I1, I2. rewrite (proj2 (Rleb_true n n)) by lra. cbn [orb andb negb]. rewrite ML. reflexivity.
  - intros. unfold u_linear. rewrite check_nsk_ok by lra. cbn [bind].
    rewrite check_si_ok by (repeat constructor; lra). cbn [bind]. rewrite I1, I2. cbn [orb].
    rewrite ML. reflexivity.
  - apply mu_lin_exists; lra.
  - eexists. apply mu_constant_ok; lra.
Qed.
Print Assumptions C74_touching_refuted.

(** ** C75: piecewise linear permeability *)
Theorem C75_mu_piecewise_linear : forall s kap, node_list s kap -> all_clear_cut s kap ->
  exists mu, mu_piecewise_linear s kap None None = Ok mu /\ is_mu (last s 0) (k_pwl s kap) mu.
Proof.
  intros s kap N HC. destruct (pwl_ok_intro s kap N HC) as [O [El Ck]].
  exists (mu_pwl_value s kap). split.
  - unfold mu_piecewise_linear. cbn [with_outer bind]. rewrite Ck. reflexivity.
  - rewrite El. apply pwl_mu; auto.
Qed.
Print Assumptions C75_mu_piecewise_linear.

(** What is refused. *)
Definition refused_nodes (s kap : list R) : Prop :=
  length s <> length kap \/ (exists v, In v s /\ v < 1) \/ (exists k, In k kap /\ k <= 0) \/
  (exists i, (S i < length s)%nat /\ nth (S i) s 0 < nth i s 0) \/ isclose (nth 0 s 0) 1 = false.
Theorem C75_validation : forall s kap, s <> [] ->
  (mu_piecewise_linear s kap None None = Err ValueError <-> refused_nodes s kap).
Proof.
  intros s kap Ne. unfold mu_piecewise_linear. cbn [with_outer bind]. unfold check_pwl.
  assert (L : (0 < length s)%nat) by (destruct s; [contradiction|cbn; lia]).
  assert (G : get s 0 = Ok (nth 0 s 0)) by (destruct s; [contradiction|reflexivity]).
  destruct (Nat.eqb (length s) (length kap)) eqn:E1; cbn [negb].
  2:{ split; [|reflexivity]. intros _. left. apply Nat.eqb_neq; auto. }
  apply Nat.eqb_eq in E1.
  destruct (any _ s) eqn:E2.
  { split; [|reflexivity]. intros _. right; left. apply existsb_exists in E2.
    destruct E2 as [v [Hv E]]. exists v. split; auto. apply Rltb_true; auto. }
  destruct (any _ kap) eqn:E3.
  { split; [|reflexivity]. intros _. right; right; left. apply existsb_exists in E3.
    destruct E3 as [v [Hv E]]. exists v. split; auto. apply Rleb_true; auto. }
  destruct (any_diff_neg s) eqn:E4.
  { split; [|reflexivity]. intros _. right; right; right; left.
    destruct (Classical_Prop.classic (exists i, (S i < length s)%nat /\ nth (S i) s 0 < nth i s 0)) as [|X]; auto.
    rewrite (diff_le_of s) in E4; [discriminate|]. intros i Hi. unfold ix.
    destruct (Rle_dec (nth i s 0) (nth (S i) s 0)); auto. exfalso; apply X. exists i. split; auto. lra. }
  rewrite G. cbn [bind]. destruct (isclose (nth 0 s 0) 1) eqn:E5; cbn [negb].
  2:{ split; [|reflexivity]. intros _. right; right; right; right; auto. }
  cbn [bind]. split; [discriminate|]. intros [H|[[v [Hv H]]|[[v [Hv H]]|[[i [Hi H]]|H]]]].
  - congruence.
  - apply (In_nth _ _ 0) in Hv. destruct Hv as [i [Hi <-]].
    pose proof (any_false _ _ E2 i Hi) as Q. apply Rltb_false in Q. unfold ix in Q. lra.
  - apply (In_nth _ _ 0) in Hv. destruct Hv as [i [Hi <-]].
    pose proof (any_false _ _ E3 i Hi) as Q. apply Rleb_false in Q. unfold ix in Q. lra.
  - pose proof (diff_le s E4 i Hi) as Q. unfold ix in Q. lra.
  - congruence.
Qed.
Print Assumptions C75_validation.

Example C75_applies : node_list [1; 2; 2; 6] [4; 2; 3; 1] /\ all_clear_cut [1; 2; 2; 6] [4; 2; 3; 1] /\
  refused_nodes [2; 3] [1; 1].
Proof.
  destruct C36_applies as [_ [_ [_ [_ [A B]]]]]. split; auto. split; auto.
  right; right; right; right. cbn. apply dec_close. rewrite (Rabs_right 1), Rabs_right by lra. lra.
Qed.

(** A single linear zone given as nodes is mu_linear. *)
Theorem C75_single_zone : forall n s kap, 1 < s < n -> 0 < kap ->
  told_apart s 1 -> told_apart kap 1 -> told_apart s kap ->
  all_clear_cut [1; s; n] [kap; 1; 1] ->
  exists mu, mu_piecewise_linear [1; s; n] [kap; 1; 1] None None = Ok mu /\
    mu_linear [n] [s] [kap] = Ok [mu].
Proof.
  intros n s kap Hs Hk T1 T2 T3 CC.
  destruct (C75_mu_piecewise_linear [1; s; n] [kap; 1; 1]) as [mu [E I]]; auto.
  { split; [reflexivity|]. split; [reflexivity|]. split; [cbn; lra|].
    split; [repeat constructor; lra|]. intros [|[|i]] Hi; cbn in *; try lia; lra. }
  exists mu. split; auto. rewrite mu_linear_1 by lra. f_equal. f_equal.
  apply (is_mu_unique n (k_lin s kap)); [lra| |].
  - apply mu_linear_elem_exact; auto; lra.
  - eapply is_mu_ext; [| |exact I]; [lra|]. intros x Hx. cbn [k_pwl]. unfold k_lin.
    rewrite Rinv_1. destruct (Rlt_dec x s); [reflexivity|].
    destruct (Rlt_dec x n); [|lra]. ring.
Qed.
Print Assumptions C75_single_zone.

Example C75_single_applies : all_clear_cut [1; 3; 10] [4; 1; 1].
Proof.
  intros [|[|i]] Hi; cbn [nth List.length] in *; try lia; unfold clear_cut; (split; [|split]).
  - apart.
  - right; split; apply dec_close; rewrite ?(Rabs_right 1), Rabs_right by lra; lra.
  - apart.
  - apart.
  - left; reflexivity.
  - apart.
Qed.

(** ** C76: more resistance, slower consolidation *)
(** mu_constant is positive, and grows with the permeability reduction and (when the
    soil is damaged, kap >= 1) with the extent of the smear zone. *)
Theorem C76_mu_constant_monotone : forall n s1 s2 k1 k2 m1 m2,
  1 < n -> 1 <= s1 <= s2 -> s2 <= n -> 0 < k1 <= k2 -> (s1 = s2 \/ 1 <= k2) ->
  mu_constant n s1 k1 = Ok m1 -> mu_constant n s2 k2 = Ok m2 -> 0 < m1 <= m2.
Proof.
  intros n s1 s2 k1 k2 m1 m2 Hn Hs1 Hs2 Hk HC E1 E2.
  destruct (proj1 (C34_mu_constant n s1 k1)) as [a [A1 A2]]; try lra.
  destruct (proj1 (C34_mu_constant n s2 k2)) as [b [B1 B2]]; try lra.
  rewrite E1 in A1. injection A1 as <-. rewrite E2 in B1. injection B1 as <-.
  assert (P1 : 0 < / k1) by (apply Rinv_0_lt_compat; lra).
  assert (P2 : 0 < / k2) by (apply Rinv_0_lt_compat; lra).
  assert (P3 : / k2 <= / k1) by (apply Rinv_le_contravar; lra).
  split.
  - apply (is_mu_gt0 n (k_const s1 k1) m1 (1 + / k1)); auto; [lra|]. intros; apply k_const_bounds; lra.
  - apply (is_mu_le n (k_const s1 k1) (k_const s2 k2)); auto. intros x Hx. unfold k_const.
    destruct (Rlt_dec x s1), (Rlt_dec x s2); try lra.
    destruct HC as [->|HC]; [lra|]. assert (/ k2 <= / 1) by (apply Rinv_le_contravar; lra).
    rewrite Rinv_1 in H. lra.
Qed.
Print Assumptions C76_mu_constant_monotone.

(** The same for mu_linear. *)
Theorem C76_mu_linear_monotone : forall n s k1 k2 m1 m2,
  1 < n -> 1 <= s < n -> 0 < k1 <= k2 ->
  told_apart s 1 -> told_apart k1 1 -> told_apart k2 1 -> told_apart s k1 -> told_apart s k2 ->
  mu_linear [n] [s] [k1] = Ok [m1] -> mu_linear [n] [s] [k2] = Ok [m2] -> 0 < m1 <= m2.
Proof.
  intros n s k1 k2 m1 m2 Hn Hs Hk T1 T2 T3 T4 T5 E1 E2.
  rewrite mu_linear_1 in E1, E2 by lra. injection E1 as <-. injection E2 as <-.
  pose proof (mu_linear_elem_exact n s k1 Hn ltac:(lra) ltac:(lra) T1 T2 T4) as A.
  pose proof (mu_linear_elem_exact n s k2 Hn ltac:(lra) ltac:(lra) T1 T3 T5) as B.
  assert (P1 : 0 < / k1) by (apply Rinv_0_lt_compat; lra).
  assert (P2 : 0 < / k2) by (apply Rinv_0_lt_compat; lra).
  assert (P3 : / k2 <= / k1) by (apply Rinv_le_contravar; lra).
  split.
  - apply (is_mu_gt0 n (k_lin s k1) _ (1 + / k1)); auto; [lra|]. intros; apply k_lin_bounds; lra.
  - apply (is_mu_le n (k_lin s k1) (k_lin s k2)); auto. intros x Hx.
    split; [apply k_lin_bounds; lra|]. unfold k_lin. destruct (Rlt_dec x s); [|lra].
    assert (Hr : 0 <= (x - 1) / (s - 1) <= 1).
    { split; [apply Rle_mult_inv_pos; lra|]. apply Rmult_le_reg_r with (s - 1); [lra|].
      unfold Rdiv. rewrite Rmult_assoc, Rinv_l by lra. lra. }
    set (t := (x - 1) / (s - 1)) in *. clearbody t.
    assert (0 <= (/ k1 - / k2) * (1 - t)) by (apply Rmult_le_pos; lra). lra.
Qed.
Print Assumptions C76_mu_linear_monotone.

(** The same for any number of zones. *)
Theorem C76_mu_piecewise_constant_monotone : forall s k1 k2 m1 m2,
  s <> [] -> length s = length k1 -> length s = length k2 -> increasing_from_1 s ->
  (forall i, (i < length s)%nat -> 0 < nth i k1 0 <= nth i k2 0) ->
  mu_piecewise_constant s k1 None None = Ok m1 -> mu_piecewise_constant s k2 None None = Ok m2 ->
  0 < m1 <= m2.
Proof.
  intros s k1 k2 m1 m2 Ne L1 L2 Hi Hk E1 E2.
  assert (F1 : List.Forall (fun k => 0 < k) k1).
  { apply Forall_ix. intros i Q. unfold ix. apply Hk. lia. }
  assert (F2 : List.Forall (fun k => 0 < k) k2).
  { apply Forall_ix. intros i Q. unfold ix. specialize (Hk i ltac:(lia)). lra. }
  destruct (proj1 (C35_mu_piecewise_constant s k1 Ne) L1 Hi F1) as [a [A1 A2]].
  destruct (proj1 (C35_mu_piecewise_constant s k2 Ne) L2 Hi F2) as [b [B1 B2]].
  rewrite E1 in A1. injection A1 as <-. rewrite E2 in B1. injection B1 as <-.
  assert (Hn : 1 < last s 0).
  { apply (proj1 Hi). destruct (exists_last Ne) as [l [z ->]]. rewrite last_last.
    apply in_or_app; right; left; auto. }
  split.
  - apply (is_mu_gt0 (last s 0) (k_pwc s k1) m1 (inv_sum k1)); auto.
    + pose proof (inv_sum_pos k1 F1); lra.
    + intros; apply k_pwc_bounds; auto.
  - apply (is_mu_le (last s 0) (k_pwc s k1) (k_pwc s k2)); auto. intros x Hx. clear - L1 L2 Hk.
    revert k1 k2 L1 L2 Hk. induction s as [|d s IH]; intros [|a k1] [|b k2] L1 L2 Hk; cbn in *; try lia; [lra|].
    destruct (Rlt_dec x d).
    + specialize (Hk 0%nat ltac:(lia)). cbn in Hk.
      assert (0 < / b) by (apply Rinv_0_lt_compat; lra).
      assert (/ b <= / a) by (apply Rinv_le_contravar; lra). lra.
    + apply IH; try lia. intros i Q. apply (Hk (S i)). lia.
Qed.
Print Assumptions C76_mu_piecewise_constant_monotone.

(** Outer radius given separately: the pressure functions treat it as the mu functions. *)
Theorem C76_outer_radius_u : forall s kap si uavg uw muw n km,
  u_piecewise_constant s kap si uavg uw muw (Some n) (Some km)
    = u_piecewise_constant (s ++ [n]) (kap ++ [km]) si uavg uw muw None None /\
  u_piecewise_linear s kap si uavg uw muw (Some n) (Some km)
    = u_piecewise_linear (s ++ [n]) (kap ++ [km]) si uavg uw muw None None.
Proof. intros. split; reflexivity. Qed.
Print Assumptions C76_outer_radius_u.

(** drain_eta is the decay rate: positive, smaller for a larger mu or more well
    resistance, quartered when the radius doubles; an error of mu_function is passed on. *)
Theorem C76_drain_eta : forall re m1 m2 w1 w2, re <> 0 -> 0 < m1 -> 0 <= w1 -> m1 + w1 < m2 + w2 ->
  exists e1 e2, drain_eta re (Ok m1) w1 = Ok e1 /\ drain_eta re (Ok m2) w2 = Ok e2 /\
    0 < e2 < e1 /\ e1 * (re^2 * (m1 + w1)) = 2 /\
    drain_eta (2 * re) (Ok m1) w1 = Ok (e1 / 4) /\
    forall e, drain_eta re (Err e) w1 = Err e.
Proof.
  intros re m1 m2 w1 w2 Hr Hm Hw Hl.
  exists (2 / re^2 / (m1 + w1)), (2 / re^2 / (m2 + w2)).
  assert (P : 0 < re^2) by (apply pow2_gt_0; auto).
  assert (Q : 0 < 2 / re^2) by (apply Rdiv_lt_0_compat; lra).
  split; [reflexivity|]. split; [reflexivity|]. split; [|split; [|split]].
  - split; [apply Rdiv_lt_0_compat; lra|]. unfold Rdiv at 1 3. apply Rmult_lt_compat_l; auto.
    apply Rinv_lt_contravar; [apply Rmult_lt_0_compat|]; lra.
  - field. split; lra.
  - cbn [drain_eta bind]. f_equal. field. split; lra.
  - reflexivity.
Qed.
Print Assumptions C76_drain_eta.

Example C76_applies : 1 < 20 /\ 1 <= 2 <= 3 /\ 3 <= 20 /\ 0 < 2 <= 4 /\ (2 = 3 \/ 1 <= 4) /\
  (exists a b, mu_constant 20 2 2 = Ok a /\ mu_constant 20 3 4 = Ok b).
Proof.
  split; [lra|]. split; [lra|]. split; [lra|]. split; [lra|]. split; [right; lra|].
  do 2 eexists. split; apply mu_constant_ok; lra.
Qed.

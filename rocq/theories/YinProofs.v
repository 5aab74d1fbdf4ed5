(** * Proofs about the Yin and Graham soil *)
From Coq Require Import Reals List Arith ZArith Bool Lia Lra.
From Coquelicot Require Import Coquelicot.
From Verif Require Import Base ConstitutiveModel YinModel SpecYin.
Import ListNotations.
Local Open Scope R_scope.

Lemma ppow_pos x y : 0 < ppow x y. Proof. apply exp_pos. Qed.
Lemma ln_ppow x y : ln (ppow x y) = y * ln x. Proof. unfold ppow, Rpower. apply ln_exp. Qed.
Lemma ln_inj x y : 0 < x -> 0 < y -> ln x = ln y -> x = y.
Proof. intros Hx Hy E. rewrite <- (exp_ln x), <- (exp_ln y), E; auto. Qed.
Lemma ln_quot x y : 0 < x -> 0 < y -> ln (x / y) = ln x - ln y.
Proof. intros. apply ln_div; auto. Qed.
Lemma quot_pos x y : 0 < x -> 0 < y -> 0 < x / y. Proof. intros. apply Rdiv_lt_0_compat; auto. Qed.

Section Clay.
Variable m : clay.
Hypothesis Hm : is_clay m.
Notation lam := (y_lam m). Notation kap := (y_kap m). Notation psi := (y_psi m). Notation siga := (y_siga m). Notation ea := (y_ea m). Notation ta := (y_ta m). Notation al := (y_alpha m).
Lemma hk : 0 < kap. Proof. apply Hm. Qed.
Lemma hl : kap < lam. Proof. apply Hm. Qed.
Lemma hp : 0 < psi. Proof. apply Hm. Qed.
Lemma hs : 0 < siga. Proof. apply Hm. Qed.
Lemma ht : 0 < ta. Proof. apply Hm. Qed.
Lemma al_pos : 0 < al. Proof. pose proof hk. pose proof hl. apply quot_pos; [lra|apply hp]. Qed.
Lemma al_eq : al * psi = lam - kap. Proof. unfold y_alpha. pose proof hp. field. lra. Qed.

(** a consistent state in logarithms *)
Lemma consistent_ln c : consistent m c <-> 0 < i_s c /\ 0 < i_p c /\ 0 < i_t c /\
  i_e c = ea - lam * (ln (i_p c) - ln siga) + kap * (ln (i_p c) - ln (i_s c)) /\ ln (i_t c) = al * (ln (i_p c) - ln (i_s c)) + ln ta.
Proof.
  pose proof hs as Hs. pose proof ht as Ht. pose proof hp as Hp. pose proof al_eq as A. split.
  - intros [P1 P2 P3 B1 B2]. unfold on_reference in *. rewrite !ln_quot in B1, B2 by auto. split; [auto|]. split; [auto|]. split; [auto|]. split; [lra|].
    apply (Rmult_eq_reg_l psi); [|lra]. replace (psi * (al * (ln (i_p c) - ln (i_s c)) + ln ta)) with (al * psi * (ln (i_p c) - ln (i_s c)) + psi * ln ta) by ring. rewrite A. lra.
  - intros (P1 & P2 & P3 & B1 & B2). constructor; auto; unfold on_reference; rewrite !ln_quot by auto; [lra|]. rewrite B2.
    replace (psi * (al * (ln (i_p c) - ln (i_s c)) + ln ta - ln ta)) with (al * psi * (ln (i_p c) - ln (i_s c))) by ring. rewrite A. lra.
Qed.
(** at most one consistent state for each pair *)
Lemma same_state c d : consistent m c -> consistent m d -> ln (i_s c) = ln (i_s d) -> ln (i_p c) = ln (i_p d) -> c = d.
Proof.
  intros C D E1 E2. apply consistent_ln in C. apply consistent_ln in D. destruct C as (C1 & C2 & C3 & C4 & C5), D as (D1 & D2 & D3 & D4 & D5). destruct c as [e s p t], d as [e' s' p' t']. cbn [i_e i_s i_p i_t] in *.
  assert (T : ln t = ln t') by (rewrite C5, D5, E1, E2; reflexivity). apply ln_inj in E1; auto. apply ln_inj in E2; auto. apply ln_inj in T; auto. subst. reflexivity.
Qed.
(** the law in logarithms *)
Lemma law_ln s r e : 0 < s -> law m s r e = - kap * r / s - psi / ta * exp ((e - ea + lam * (ln s - ln siga)) / psi).
Proof.
  intros Hs0. unfold law, Rpower. rewrite ln_quot by (auto; apply hs). rewrite Rmult_assoc, <- exp_plus. do 3 f_equal. pose proof hp. field. lra.
Qed.
(** the state at any time: e0 - kap ln(s/s0) - psi ln(1+I) makes the creep rate (s/s0)^al / t0 / (1+I) *)
Definition cur (c : initial) (s I : R) : R := i_e c - kap * ln (s / i_s c) - psi * ln (I + 1).
Lemma creep c s I : consistent m c -> 0 < s -> 0 < I + 1 -> psi / ta * exp ((cur c s I - ea + lam * (ln s - ln siga)) / psi) = psi * (ppow (s / i_s c) al / i_t c) / (I + 1).
Proof.
  intros C Hs0 HI. pose proof hp as Hp. pose proof ht as Ht. apply consistent_ln in C. destruct C as (C1 & C2 & C3 & C4 & C5).
  assert (E : exp ((cur c s I - ea + lam * (ln s - ln siga)) / psi) = ta * (ppow (s / i_s c) al / i_t c) / (I + 1)).
  { apply ln_inj; [apply exp_pos| |].
    - apply quot_pos; auto. apply Rmult_lt_0_compat; auto. apply quot_pos; auto. apply ppow_pos.
    - rewrite ln_exp. rewrite ln_quot; auto; [|apply Rmult_lt_0_compat; auto; apply quot_pos; auto; apply ppow_pos]. rewrite ln_mult; auto; [|apply quot_pos; auto; apply ppow_pos]. rewrite ln_quot; auto; [|apply ppow_pos]. rewrite ln_ppow.
      unfold cur. rewrite !ln_quot by auto. rewrite C5, C4. unfold y_alpha. field. lra. }
  rewrite E. field. split; [lra|split; lra].
Qed.
(** ** one step *)
(** the integral part of the increment, from a to s while the stress changes linearly in dt *)
Definition part (c : initial) (a r t : R) : R := (ppow ((a + r * t) / i_s c) (al + 1) - ppow (a / i_s c) (al + 1)) * i_s c / (al + 1) / i_t c / r.
Lemma part_d c a r t : 0 < i_s c -> 0 < i_t c -> r <> 0 -> 0 < a + r * t -> is_derive (part c a r) t (ppow ((a + r * t) / i_s c) al / i_t c).
Proof.
  intros Hc Ht0 Hr Hpos. pose proof al_pos as A. unfold part, ppow, Rpower. auto_derive; [apply quot_pos; auto|].
  replace ((al + 1) * ln ((a + r * t) * / i_s c)) with (al * ln ((a + r * t) * / i_s c) + ln ((a + r * t) * / i_s c)) by ring. rewrite exp_plus, exp_ln by (apply quot_pos; auto).
  change ((a + r * t) * / i_s c) with ((a + r * t) / i_s c). field. repeat (match goal with |- _ /\ _ => split end); try auto; try apply Rgt_not_eq; try lra.
Qed.
Lemma part_0 c a r : part c a r 0 = 0.
Proof. unfold part. rewrite Rmult_0_r, Rplus_0_r. unfold Rdiv. ring. Qed.
Lemma part_inc c a s dt : 0 < i_s c -> 0 < i_t c -> s <> a -> 0 < dt -> y_inc m c a s dt = part c a ((s - a) / dt) dt.
Proof.
  intros Hc Ht0 Hn Hd. pose proof al_pos as A. unfold y_inc, part. replace (Reqb s a) with false by (symmetry; apply Reqb_false; auto). replace (a + (s - a) / dt * dt) with s by (field; lra). field.
  repeat (match goal with |- _ /\ _ => split end); try lra; intros Q; apply Hn; lra.
Qed.
Lemma inc_instant c a s : s <> a -> y_inc m c a s 0 = 0.
Proof. intros Hn. unfold y_inc. replace (Reqb s a) with false by (symmetry; apply Reqb_false; auto). unfold Rdiv. ring. Qed.
Lemma linear_pos s1 s2 dt t : 0 < s1 -> 0 < s2 -> 0 < dt -> 0 <= t <= dt -> 0 < s1 + (s2 - s1) / dt * t.
Proof.
  intros H1 H2 Hd Ht0. replace (s1 + (s2 - s1) / dt * t) with (s1 * (1 - t / dt) + s2 * (t / dt)) by (field; lra).
  assert (0 <= t / dt <= 1). { split; [apply Rdiv_le_0_compat; lra|]. apply (Rmult_le_reg_r dt); [auto|]. unfold Rdiv. rewrite Rmult_assoc, Rinv_l by lra. lra. }
  destruct (Req_dec (t / dt) 0) as [->|N]; [lra|]. assert (0 < s2 * (t / dt)) by (apply Rmult_lt_0_compat; lra). assert (0 <= s1 * (1 - t / dt)) by (apply Rmult_le_pos; lra). lra.
Qed.
(** monotone from a derivative that is positive *)
Lemma grows (f f' : R -> R) a b : a <= b -> (forall x, a <= x <= b -> is_derive f x (f' x)) -> (forall x, a <= x <= b -> 0 <= f' x) -> f a <= f b.
Proof.
  intros Hab D P. destruct (MVT_gen f a b f') as (c & Hc & Q).
  - intros x Hx. rewrite Rmin_left, Rmax_right in Hx by lra. apply D. lra.
  - intros x Hx. rewrite Rmin_left, Rmax_right in Hx by lra. apply continuity_pt_filterlim, (ex_derive_continuous (V := R_NormedModule)). exists (f' x). apply D. lra.
  - rewrite Rmin_left, Rmax_right in Hc by lra. assert (0 <= f' c * (b - a)) by (apply Rmult_le_pos; [apply P; auto|lra]). lra.
Qed.
Lemma part_nonneg c a s dt t : 0 < i_s c -> 0 < i_t c -> 0 < a -> 0 < s -> s <> a -> 0 < dt -> 0 <= t <= dt -> 0 <= part c a ((s - a) / dt) t.
Proof.
  intros Hc Ht0 Ha Hs0 Hn Hd Ht1. rewrite <- (part_0 c a ((s - a) / dt)).
  assert (Hr : (s - a) / dt <> 0) by (intros Q; apply Hn; apply (f_equal (fun x => x * dt)) in Q; unfold Rdiv in Q; rewrite Rmult_assoc, Rinv_l in Q by lra; lra).
  apply (grows _ (fun t => ppow ((a + (s - a) / dt * t) / i_s c) al / i_t c)); [lra| |].
  - intros x Hx. apply part_d; auto. apply linear_pos; auto; lra.
  - intros x Hx. apply Rlt_le, quot_pos; auto. apply ppow_pos.
Qed.
Lemma inc_nonneg c a s dt : 0 < i_s c -> 0 < i_t c -> 0 < a -> 0 < s -> s <> a -> 0 <= dt -> 0 <= y_inc m c a s dt.
Proof.
  intros Hc Ht0 Ha Hs0 Hn Hd. destruct (Req_dec dt 0) as [->|N]; [rewrite inc_instant; auto; lra|]. rewrite part_inc by (auto; lra). apply part_nonneg; auto; lra.
Qed.
(** a step of the object follows the law *)
Lemma step_ok c a s dt I : consistent m c -> 0 < a -> 0 < s -> s <> a -> 0 <= dt -> 0 <= I ->
  step m a (cur c a I) dt s (cur c s (I + y_inc m c a s dt)).
Proof.
  intros C Ha Hs0 Hn Hd HI. destruct C as [C1 C2 C3 C4 C5]. pose proof (Build_consistent m c C1 C2 C3 C4 C5) as C. split; intros Hdt.
  - exists (fun t => cur c (a + (s - a) / dt * t) (I + part c a ((s - a) / dt) t)).
    assert (Hr : (s - a) / dt <> 0) by (intros Q; apply Hn; apply (f_equal (fun x => x * dt)) in Q; unfold Rdiv in Q; rewrite Rmult_assoc, Rinv_l in Q by lra; lra).
    split; [|split].
    + intros t Ht0. pose proof (linear_pos a s dt t Ha Hs0 Hdt Ht0) as L. pose proof (part_nonneg c a s dt t C1 C3 Ha Hs0 Hn Hdt Ht0) as Pn.
      pose proof (part_d c a ((s - a) / dt) t C1 C3 Hr L) as D. rewrite law_ln by auto. cbv beta. rewrite creep by (auto; lra).
      set (r := (s - a) / dt) in *. set (f := part c a r) in *. unfold cur.
      assert (D1 : is_derive (fun t => ln ((a + r * t) / i_s c)) t (r / (a + r * t))). { auto_derive; [apply quot_pos; auto|]. field. split; lra. }
      assert (D2 : is_derive (fun t => ln (I + f t + 1)) t (ppow ((a + r * t) / i_s c) al / i_t c / (I + f t + 1))).
      { set (dv := ppow ((a + r * t) / i_s c) al / i_t c) in *. auto_derive; [split; [exists dv; exact D|split; [lra|exact Logic.I]]|]. change (fun x => f x) with f. rewrite (is_derive_unique _ _ _ D). field. lra. }
      set (l1 := r / (a + r * t)) in *. set (l2 := ppow ((a + r * t) / i_s c) al / i_t c / (I + f t + 1)) in *.
      replace (- kap * r / (a + r * t) - psi * (ppow ((a + r * t) / i_s c) al / i_t c) / (I + f t + 1)) with (0 - kap * l1 - psi * l2) by (unfold l1, l2, Rdiv; ring).
      apply (is_derive_minus (V := R_NormedModule)); [apply (is_derive_minus (V := R_NormedModule)); [apply (is_derive_const (V := R_NormedModule))|apply is_derive_scal; exact D1]|apply is_derive_scal; exact D2].
    + cbv beta. rewrite part_0. replace (a + (s - a) / dt * 0) with a by ring. replace (I + 0) with I by ring. reflexivity.
    + cbv beta. rewrite <- part_inc by (auto; lra). replace (a + (s - a) / dt * dt) with s by (field; lra). reflexivity.
  - subst dt. rewrite inc_instant by auto. unfold cur. rewrite !ln_quot by auto. replace (I + 0 + 1) with (I + 1) by ring. ring.
Qed.
(** the law determines the void ratio *)
Lemma law_unique s1 s2 dt e1 e2 : 0 < s1 -> 0 < s2 -> 0 < dt -> follows m s1 s2 dt e1 -> follows m s1 s2 dt e2 -> e1 0 = e2 0 -> forall t, 0 <= t <= dt -> e1 t = e2 t.
Proof.
  intros H1 H2 Hd F1 F2 E t Ht0. pose proof hp as Hp. pose proof ht as Hta.
  set (r := (s2 - s1) / dt). set (y := fun (e : R -> R) x => exp (- (e x + kap * ln (s1 + r * x)) / psi)).
  set (g := fun x => 1 / ta * exp ((- ea - kap * ln (s1 + r * x) + lam * (ln (s1 + r * x) - ln siga)) / psi)).
  assert (Dy : forall e, follows m s1 s2 dt e -> forall x, 0 <= x <= dt -> is_derive (y e) x (g x)).
  { intros e Fe x Hx. pose proof (linear_pos s1 s2 dt x H1 H2 Hd Hx) as L. fold r in L. pose proof (Fe x Hx) as D. fold r in D. rewrite law_ln in D by auto.
    set (dv := - kap * r / (s1 + r * x) - psi / ta * exp ((e x - ea + lam * (ln (s1 + r * x) - ln siga)) / psi)) in *. unfold y. auto_derive; [split; [exists dv; exact D|split; [lra|exact I]]|].
    change (fun x0 => e x0) with e. rewrite (is_derive_unique _ _ _ D). unfold dv, g.
    replace ((- ea - kap * ln (s1 + r * x) + lam * (ln (s1 + r * x) - ln siga)) / psi) with (- (e x + kap * ln (s1 + r * x)) / psi + (e x - ea + lam * (ln (s1 + r * x) - ln siga)) / psi) by (field; lra). rewrite exp_plus.
    change (- (e x + kap * ln (s1 + r * x)) * / psi) with (- (e x + kap * ln (s1 + r * x)) / psi). field. repeat (match goal with |- _ /\ _ => split end); lra. }
  assert (Y : y e1 t = y e2 t).
  { assert (Q : y e1 t - y e2 t = y e1 0 - y e2 0).
    { apply Rle_antisym.
      - assert (K := grows (fun x => y e2 x - y e1 x) (fun _ => 0) 0 t ltac:(lra)). cbv beta in K. enough (y e2 0 - y e1 0 <= y e2 t - y e1 t) by lra. apply K; [|intros; lra]. intros x Hx. replace 0 with (g x - g x) by ring. apply (is_derive_minus (V := R_NormedModule)); apply Dy; auto; lra.
      - assert (K := grows (fun x => y e1 x - y e2 x) (fun _ => 0) 0 t ltac:(lra)). cbv beta in K. apply K; [|intros; lra]. intros x Hx. replace 0 with (g x - g x) by ring. apply (is_derive_minus (V := R_NormedModule)); apply Dy; auto; lra. }
    assert (Z : y e1 0 = y e2 0) by (unfold y; rewrite E; reflexivity). lra. }
  unfold y in Y. apply exp_inv in Y. apply (f_equal (fun v => v * psi)) in Y. unfold Rdiv in Y. rewrite !Rmult_assoc, !Rinv_l, !Rmult_1_r in Y by lra. lra.
Qed.
Lemma step_unique s1 e1 dt s2 e2 e2' : 0 < s1 -> 0 < s2 -> 0 <= dt -> step m s1 e1 dt s2 e2 -> step m s1 e1 dt s2 e2' -> e2 = e2'.
Proof.
  intros H1 H2 Hd [A1 A2] [B1 B2]. destruct (Req_dec dt 0) as [Z|N]; [rewrite (A2 Z), (B2 Z); reflexivity|]. destruct (A1 ltac:(lra)) as (f & F1 & F2 & F3). destruct (B1 ltac:(lra)) as (g & G1 & G2 & G3).
  rewrite <- F3, <- G3. apply (law_unique s1 s2 dt f g); auto; try lra.
Qed.

(** at constant stress *)
Lemma creep_ok c s dt I : consistent m c -> 0 < s -> 0 < dt -> 0 <= I -> step m s (cur c s I) dt s (cur c s (I + dt * (ppow (s / i_s c) al / i_t c))).
Proof.
  intros C Hs0 Hd HI. pose proof C as C'. destruct C' as [C1 C2 C3 C4 C5]. split; [|intros; lra]. intros _. set (k := ppow (s / i_s c) al / i_t c). assert (Hk : 0 < k) by (apply quot_pos; auto; apply ppow_pos).
  exists (fun t => cur c s (I + t * k)). split; [|split; [rewrite Rmult_0_l, Rplus_0_r; reflexivity|reflexivity]].
  intros t Ht0. replace (s + (s - s) / dt * t) with s by (unfold Rdiv; ring). replace ((s - s) / dt) with 0 by (unfold Rdiv; ring). rewrite law_ln by auto.
  assert (0 <= t * k) by (apply Rmult_le_pos; lra). rewrite creep by (auto; lra). fold k. unfold cur. auto_derive; [lra|]. unfold Rdiv. rewrite Rmult_0_r, Rmult_0_l. field. lra.
Qed.
(** ** the increment grows with the stress and the time *)
Lemma ppow_le x y b : 0 < x -> x <= y -> 0 <= b -> ppow x b <= ppow y b.
Proof. intros Hx Hxy Hb. unfold ppow. apply Rle_Rpower_l; lra. Qed.
Lemma inc_dt c a s dt : s <> a -> y_inc m c a s dt = dt * y_inc m c a s 1.
Proof. intros Hn. unfold y_inc. replace (Reqb s a) with false by (symmetry; apply Reqb_false; auto). unfold Rdiv. ring. Qed.
Lemma inc_mono c a s s' dt : 0 < i_s c -> 0 < i_t c -> 0 < a -> 0 < s -> s <= s' -> s <> a -> s' <> a -> 0 <= dt -> y_inc m c a s dt <= y_inc m c a s' dt.
Proof.
  intros Hc Ht0 Ha Hs0 Hss N N' Hd. destruct (Req_dec dt 0) as [->|Nd]; [rewrite !inc_instant by auto; lra|]. assert (Hdt : 0 < dt) by lra. rewrite !part_inc by auto. pose proof al_pos as A.
  set (r := (s - a) / dt). set (r' := (s' - a) / dt).
  assert (R0 : forall v, v <> a -> (v - a) / dt <> 0) by (intros v Nv Q; apply Nv; apply (f_equal (fun x => x * dt)) in Q; unfold Rdiv in Q; rewrite Rmult_assoc, Rinv_l in Q by lra; lra).
  assert (Hrr : r <= r') by (unfold r, r', Rdiv; apply Rmult_le_compat_r; [apply Rlt_le, Rinv_0_lt_compat; auto|lra]).
  assert (K := grows (fun t => part c a r' t - part c a r t) (fun t => ppow ((a + r' * t) / i_s c) al / i_t c - ppow ((a + r * t) / i_s c) al / i_t c) 0 dt ltac:(lra)). cbv beta in K. rewrite !part_0 in K. enough (0 - 0 <= part c a r' dt - part c a r dt) by lra. apply K.
  - intros x Hx. apply (is_derive_minus (V := R_NormedModule)); apply part_d; auto; try (apply R0; auto); apply linear_pos; auto; lra.
  - intros x Hx. pose proof (linear_pos a s dt x Ha Hs0 Hdt Hx) as L. fold r in L. assert (a + r * x <= a + r' * x) by (assert (r * x <= r' * x) by (apply Rmult_le_compat_r; lra); lra).
    assert (Q : ppow ((a + r * x) / i_s c) al <= ppow ((a + r' * x) / i_s c) al). { apply ppow_le; [apply quot_pos; auto| |lra]. unfold Rdiv. apply Rmult_le_compat_r; [apply Rlt_le, Rinv_0_lt_compat; auto|lra]. }
    assert (ppow ((a + r * x) / i_s c) al / i_t c <= ppow ((a + r' * x) / i_s c) al / i_t c); [|lra]. unfold Rdiv. apply Rmult_le_compat_r; [apply Rlt_le, Rinv_0_lt_compat; auto|auto].
Qed.
Lemma cur_mono c s s' I I' : 0 < i_s c -> 0 < s -> s < s' -> 0 <= I -> I <= I' -> cur c s' I' < cur c s I.
Proof.
  intros Hc Hs0 Hss HI HII. pose proof hk as Hk. pose proof hp as Hp. unfold cur. rewrite !ln_quot by lra.
  assert (ln s < ln s') by (apply ln_increasing; lra). assert (ln (I + 1) <= ln (I' + 1)) by (destruct (Req_dec I I') as [->|N]; [lra|apply Rlt_le, ln_increasing; lra]).
  assert (kap * ln s < kap * ln s') by (apply Rmult_lt_compat_l; auto). assert (psi * ln (I + 1) <= psi * ln (I' + 1)) by (apply Rmult_le_compat_l; lra). lra.
Qed.
(** the function iterated: a value is on the line of the state *)
Lemma fn_pos c I old e dt x : 0 < i_s c -> 0 < y_fn m c I old e dt x.
Proof. intros. apply Rmult_lt_0_compat; auto. apply exp_pos. Qed.
Lemma fn_cur c I old e dt x : 0 < i_s c -> cur c (y_fn m c I old e dt x) (I + y_inc m c old x dt) = e.
Proof.
  intros Hc. pose proof hk as Hk. unfold cur, y_fn. rewrite ln_quot by (auto; apply fn_pos; auto). rewrite ln_mult by (auto; apply exp_pos). rewrite ln_exp.
  replace (1 + y_inc m c old x dt + I) with (I + y_inc m c old x dt + 1) by ring. field. lra.
Qed.
End Clay.

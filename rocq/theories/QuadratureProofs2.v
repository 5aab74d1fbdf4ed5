(** * From moments to polynomials on any interval *)
From Coq Require Import Reals List Bool ZArith Lia Lra.
From Coquelicot Require Import Coquelicot.
From Verif Require Import Base QuadratureGen QuadratureModel SpecQuadrature QuadratureProofs.
Import ListNotations.
Open Scope R_scope.

Lemma rsum_ext {A} (f g : A -> R) l : (forall e, In e l -> f e = g e) -> rsum (map f l) = rsum (map g l).
Proof. intros H. induction l as [|a l IH]; [reflexivity|]. cbn. f_equal; [apply H; left; auto|apply IH; intros; apply H; right; auto]. Qed.
Lemma rsum_plus {A} (f g : A -> R) l : rsum (map (fun e => f e + g e) l) = rsum (map f l) + rsum (map g l).
Proof. induction l as [|a l IH]; cbn; [ring|]. unfold rsum in *. rewrite IH. ring. Qed.
Lemma rsum_scal {A} k (f : A -> R) l : rsum (map (fun e => k * f e) l) = k * rsum (map f l).
Proof. induction l as [|a l IH]; cbn; [ring|]. unfold rsum in *. rewrite IH. ring. Qed.
Lemma rsum_sumf {A} (F : nat -> A -> R) n l : rsum (map (fun e => sum_f_R0 (fun i => F i e) n) l) = sum_f_R0 (fun i => rsum (map (F i) l)) n.
Proof. induction n as [|n IH]; [reflexivity|]. cbn [sum_f_R0]. rewrite rsum_plus, IH. reflexivity. Qed.

(** the integral of t^j and of a polynomial in t over [-1, 1] *)
Lemma int_pow a b j : is_RInt (fun t => t ^ j) a b ((b ^ S j - a ^ S j) / INR (S j)).
Proof.
  assert (P : INR (S j) <> 0) by (apply not_0_INR; lia).
  replace ((b ^ S j - a ^ S j) / INR (S j)) with (minus (b ^ S j / INR (S j)) (a ^ S j / INR (S j))) by (unfold minus, plus, opp; cbn; field; auto).
  apply (is_RInt_derive (V := R_CompleteNormedModule) (fun t => t ^ S j / INR (S j))).
  - intros x _. auto_derive; auto. cbn [Nat.pred]. change (match j with 0%nat => 1 | S _ => INR j + 1 end) with (INR (S j)). field. auto.
  - intros x _. apply (ex_derive_continuous (V := R_NormedModule) (fun t => t ^ j)). auto_derive. auto.
Qed.
Lemma int_exact j : is_RInt (fun t => t ^ j) (-1) 1 (exact j).
Proof. assert (H := int_pow (-1) 1 j). unfold exact. rewrite pow1 in H. exact H. Qed.
Lemma int_sum (F : nat -> R -> R) (I : nat -> R) a b n : (forall i, (i <= n)%nat -> is_RInt (F i) a b (I i)) ->
  is_RInt (fun t => sum_f_R0 (fun i => F i t) n) a b (sum_f_R0 I n).
Proof.
  induction n as [|n IH]; intros H; cbn [sum_f_R0]; [apply H; lia|].
  apply (is_RInt_plus (V := R_NormedModule)); [apply IH; intros; apply H; lia|apply H; lia].
Qed.
Lemma int_affine p q k : is_RInt (fun t => (p * t + q) ^ k) (-1) 1 (sum_f_R0 (fun i => Binomial.C k i * p ^ i * q ^ (k - i) * exact i) k).
Proof.
  apply (is_RInt_ext (fun t => sum_f_R0 (fun i => Binomial.C k i * p ^ i * q ^ (k - i) * t ^ i) k)).
  - intros t _. rewrite binomial. apply sum_eq. intros i _. rewrite Rpow_mult_distr. cbn. ring.
  - apply (int_sum (fun i t => Binomial.C k i * p ^ i * q ^ (k - i) * t ^ i)). intros i _. apply (is_RInt_scal (V := R_NormedModule)). apply int_exact.
Qed.
Lemma affine_value a b k : let p := (b - a) / 2 in let q := (a + b) / 2 in
  p * sum_f_R0 (fun i => Binomial.C k i * p ^ i * q ^ (k - i) * exact i) k = (b ^ S k - a ^ S k) / INR (S k).
Proof.
  intros p q. assert (P : INR (S k) <> 0) by (apply not_0_INR; lia).
  assert (H1 := is_RInt_scal (V := R_NormedModule) _ _ _ p _ (int_affine p q k)).
  assert (H2 : is_RInt (fun t => scal p ((p * t + q) ^ k)) (-1) 1 ((b ^ S k - a ^ S k) / INR (S k))).
  { replace ((b ^ S k - a ^ S k) / INR (S k)) with (minus ((p * 1 + q) ^ S k / INR (S k)) ((p * -1 + q) ^ S k / INR (S k))).
    - apply (is_RInt_derive (V := R_CompleteNormedModule) (fun t => (p * t + q) ^ S k / INR (S k))).
      + intros x _. auto_derive; auto. cbn [Nat.pred]. change (match k with 0%nat => 1 | S _ => INR k + 1 end) with (INR (S k)). unfold scal; cbn -[INR]; unfold mult; cbn -[INR]. field. auto.
      + intros x _. apply (ex_derive_continuous (V := R_NormedModule) (fun t => scal p ((p * t + q) ^ k))). unfold scal; cbn; unfold mult; cbn. auto_derive. auto.
    - unfold minus, plus, opp. cbn [AbelianGroup.opp AbelianGroup.plus R_AbelianGroup AbelianGroup.class]. cbn -[pow INR]. replace (p * 1 + q) with b by (unfold p, q; field). replace (p * -1 + q) with a by (unfold p, q; field). field. auto. }
  rewrite <- (is_RInt_unique _ _ _ _ H2). symmetry. apply is_RInt_unique. exact H1.
Qed.

Lemma half_max a b : Rabs ((b - a) / 2) + Rabs ((a + b) / 2) = Rmax (Rabs a) (Rabs b).
Proof. unfold Rmax, Rabs. repeat (destruct Rcase_abs); destruct Rle_dec; lra. Qed.

(** A rule whose moments up to degree m are right within eps *)
Definition moments (xw : list (R * R)) (m : nat) (eps : R) : Prop :=
  forall j, (j < m)%nat -> Rabs (rsum (map (fun e => snd e * fst e ^ j) xw) - exact j) <= eps.
Lemma rule_mono xw m eps a b k : moments xw m eps -> (k < m)%nat ->
  Rabs (rule (fun x => x ^ k) a b xw - (b ^ S k - a ^ S k) / INR (S k)) <= eps * Rabs ((b - a) / 2) * Rmax (Rabs a) (Rabs b) ^ k.
Proof.
  intros Hm Hk. rewrite <- affine_value, <- half_max. cbv zeta. unfold rule. cbv zeta. set (p := (b - a) / 2). set (q := (a + b) / 2).
  apply Rle_trans with (Rabs (p * sum_f_R0 (fun i => Binomial.C k i * p ^ i * q ^ (k - i) * (rsum (map (fun e => snd e * fst e ^ i) xw) - exact i)) k)).
  - right. f_equal.
    rewrite (sum_eq (fun i => Binomial.C k i * p ^ i * q ^ (k - i) * (rsum (map (fun e => snd e * fst e ^ i) xw) - exact i))
      (fun i => Binomial.C k i * p ^ i * q ^ (k - i) * rsum (map (fun e => snd e * fst e ^ i) xw) - Binomial.C k i * p ^ i * q ^ (k - i) * exact i)) by (intros; ring).
    rewrite minus_sum. rewrite Rmult_minus_distr_l. f_equal.
    rewrite (rsum_ext _ (fun e => p * sum_f_R0 (fun i => Binomial.C k i * p ^ i * q ^ (k - i) * (snd e * fst e ^ i)) k)).
    + rewrite rsum_scal, rsum_sumf. f_equal. apply sum_eq. intros i _. rewrite rsum_scal. ring.
    + intros e _. rewrite binomial, scal_sum, scal_sum, Rmult_comm, scal_sum. apply sum_eq. intros i _. rewrite Rpow_mult_distr. ring.
  - rewrite Rabs_mult. rewrite binomial. rewrite (Rmult_comm eps). rewrite Rmult_assoc. apply Rmult_le_compat_l; [apply Rabs_pos|].
    apply Rle_trans with (1 := Rsum_abs _ _). rewrite scal_sum. apply sum_Rle. intros i Hi.
    rewrite !Rabs_mult, <- !RPow_abs. assert (PC : 0 <= Binomial.C k i).
    { unfold Binomial.C. apply Rmult_le_pos; [apply pos_INR|]. left. apply Rinv_0_lt_compat. apply Rmult_lt_0_compat; apply INR_fact_lt_0. }
    rewrite (Rabs_pos_eq (Binomial.C k i)) by auto. apply Rmult_le_compat_l; [|apply Hm; lia].
    apply Rmult_le_pos; [apply Rmult_le_pos; auto|]; apply pow_le, Rabs_pos.
Qed.

(** polynomials: linear in the coefficients *)
Lemma rule_scal c f a b xw : rule (fun x => c * f x) a b xw = c * rule f a b xw.
Proof. unfold rule. cbv zeta. rewrite <- rsum_scal. apply rsum_ext. intros. ring. Qed.
Lemma rule_plus f g a b xw : rule (fun x => f x + g x) a b xw = rule f a b xw + rule g a b xw.
Proof. unfold rule. cbv zeta. rewrite <- rsum_plus. apply rsum_ext. intros. ring. Qed.
Lemma rule_ext f g a b xw : (forall x, f x = g x) -> rule f a b xw = rule g a b xw.
Proof. intros H. unfold rule. cbv zeta. apply rsum_ext. intros. rewrite H. auto. Qed.
Lemma rule_0 a b xw : rule (fun _ => 0) a b xw = 0.
Proof. unfold rule. cbv zeta. induction xw as [|e l IH]; [reflexivity|]. cbn. unfold rsum in *. rewrite IH. ring. Qed.
Fixpoint polyint (k : nat) (cs : list R) (a b : R) : R :=
  match cs with [] => 0 | c :: r => c * ((b ^ S k - a ^ S k) / INR (S k)) + polyint (S k) r a b end.
Lemma poly_is_int cs : forall k a b, is_RInt (fun x => x ^ k * poly cs x) a b (polyint k cs a b).
Proof.
  induction cs as [|c r IH]; intros k a b; cbn [poly polyint].
  - apply (is_RInt_ext (fun _ => 0)); [intros x _; rewrite Rmult_0_r; reflexivity|]. assert (Q := is_RInt_const (V := R_NormedModule) a b 0). unfold scal in Q; cbn in Q; unfold mult in Q; cbn in Q. rewrite Rmult_0_r in Q. exact Q.
  - apply (is_RInt_ext (fun x => plus (scal c (x ^ k)) (x ^ S k * poly r x))).
    + intros x _. unfold plus, scal; cbn; unfold mult; cbn. ring.
    + apply (is_RInt_plus (V := R_NormedModule)); [|apply IH]. apply (is_RInt_scal (V := R_NormedModule)). apply int_pow.
Qed.
Lemma rule_poly xw m eps cs : moments xw m eps -> forall k a b, (k + length cs <= m)%nat ->
  Rabs (rule (fun x => x ^ k * poly cs x) a b xw - polyint k cs a b) <= eps * Rabs ((b - a) / 2) * (Rmax (Rabs a) (Rabs b) ^ k * poly_size cs (Rmax (Rabs a) (Rabs b))).
Proof.
  intros Hm. unfold poly_size. induction cs as [|c r IH]; intros k a b Hk; cbn [poly polyint map].
  - rewrite (rule_ext _ (fun _ => 0)) by (intros; ring). rewrite rule_0, Rmult_0_r, Rminus_0_r, Rabs_R0. lra.
  - set (X := Rmax (Rabs a) (Rabs b)) in *. rewrite (rule_ext _ (fun x => c * x ^ k + x ^ S k * poly r x)) by (intros; cbn; ring).
    rewrite rule_plus, rule_scal. cbn [length] in Hk. specialize (IH (S k) a b ltac:(lia)). fold X in IH.
    assert (H1 := rule_mono xw m eps a b k Hm ltac:(lia)). fold X in H1.
    generalize dependent (rule (fun x => x ^ S k * poly r x) a b xw). intros r2 IH. generalize dependent (rule (fun x => x ^ k) a b xw). intros r1 H1.
    generalize dependent ((b ^ S k - a ^ S k) / INR (S k)). intros e1 H1. generalize dependent (polyint (S k) r a b). intros e2 IH.
    replace (c * r1 + r2 - (c * e1 + e2)) with (c * (r1 - e1) + (r2 - e2)) by ring. assert (T := Rabs_triang (c * (r1 - e1)) (r2 - e2)). rewrite Rabs_mult in T.
    assert (Rabs c * Rabs (r1 - e1) <= Rabs c * (eps * Rabs ((b - a) / 2) * X ^ k)) by (apply Rmult_le_compat_l; auto; apply Rabs_pos).
    cbn [pow] in IH. nra.
Qed.
Theorem rule_polynomial xw m eps cs a b I : moments xw m eps -> (length cs <= m)%nat -> is_RInt (poly cs) a b I ->
  Rabs (rule (poly cs) a b xw - I) <= eps * Rabs ((b - a) / 2) * poly_size cs (Rmax (Rabs a) (Rabs b)).
Proof.
  intros Hm Hl HI. assert (H := rule_poly xw m eps cs Hm 0 a b Hl). assert (E : I = polyint 0 cs a b).
  { assert (P := poly_is_int cs 0 a b). apply (is_RInt_ext _ (poly cs)) in P; [|intros; cbn; ring].
    rewrite <- (is_RInt_unique _ _ _ _ HI). apply is_RInt_unique. exact P. }
  rewrite E. rewrite (rule_ext (poly cs) (fun x => x ^ 0 * poly cs x)) by (intros; cbn; ring). cbn [pow] in H. rewrite Rmult_1_l in H. exact H.
Qed.

(** ** The tabulated rules *)
Lemma moments_of t m : table_ok t m = true -> moments (map (fun e => (dec (fst e), dec (snd e))) t) m (/ 10 ^ 24).
Proof.
  intros H j Hj. assert (T := table_moment t m j H Hj). unfold M in T. rewrite map_map. cbn [fst snd]. exact T.
Qed.
Lemma zmem_In n l : zmem n l = true <-> In n l.
Proof. unfold zmem. rewrite existsb_exists. split; [intros (x & Hx & E); apply Z.eqb_eq in E; subst; auto|intros H; exists n; split; auto; apply Z.eqb_refl]. Qed.
Lemma gl_rule n : In n gl_allowed -> exists xw, gauss_legendre n = Ok xw /\ moments xw (2 * Z.to_nat n) (/ 10 ^ 24) /\ Z.of_nat (length xw) = n /\
  List.Forall (fun e => -1 < fst e < 1 /\ 0 < snd e) xw.
Proof.
  intros H. assert (A := gl_all). rewrite forallb_forall in A. specialize (A n H). unfold gl_ok in A. unfold gauss_legendre.
  apply zmem_In in H. rewrite H. cbn [negb]. destruct (gl_table n) as [t|]; [|discriminate]. apply andb_true_iff in A. destruct A as [L T].
  eexists. split; [reflexivity|]. split; [apply moments_of; auto|]. split; [rewrite map_length; apply Z.eqb_eq; auto|].
  unfold table_ok in T. rewrite !andb_true_iff, forallb_forall in T. destruct T as [[T _] _]. apply List.Forall_forall. intros e He.
  apply in_map_iff in He. destruct He as (z & <- & Hz). specialize (T z Hz). apply andb_true_iff in T. destruct T as [T1 T2]. apply Z.ltb_lt in T1, T2. cbn [fst snd].
  rewrite !dec_D. assert (Dp := IZRD). assert (Ip := Rinv_0_lt_compat _ Dp). apply IZR_lt in T1, T2. rewrite abs_IZR in T1. apply Rabs_def2 in T1. unfold Rdiv.
  assert (E1 : IZR D * / IZR D = 1) by (apply Rinv_r; lra). split; [split|apply Rmult_lt_0_compat; auto]; nra.
Qed.
Lemma put_ok (k g : list (Z * Z)) dup : length dup = length k -> masked g k dup = true ->
  exists wi1, put dup (map (fun e => dec (snd e)) g) = Ok wi1 /\ length wi1 = length k /\
   forall (F : R -> R -> R), (forall x, F x 0 = 0) ->
    rsum (map (fun e => F (fst e) (snd e)) (combine (map (fun e => dec (fst e)) k) wi1)) = rsum (map (fun e => F (fst e) (snd e)) (map (fun e => (dec (fst e), dec (snd e))) g)).
Proof.
  unfold masked. destruct list_eq_dec as [E|]; [|discriminate]. intros Hl _. revert g k Hl E. induction dup as [|d dup IH]; intros g k Hl E; destruct k as [|[x w] k]; try discriminate.
  - cbn in E. apply map_eq_nil in E. subst g. cbn. exists []. auto.
  - cbn [combine filter snd] in E. destruct d.
    + cbn [map fst] in E. destruct g as [|[x' w'] g]; [discriminate|]. cbn in E. injection E as -> E. destruct (IH g k ltac:(cbn in Hl; lia) E) as (wi & Hp & Hlw & HF).
      cbn [map put snd]. rewrite Hp. cbn [bind]. eexists. split; [reflexivity|]. split; [cbn; lia|]. intros F HF0. cbn [combine map rsum fold_right fst snd]. unfold rsum in HF. rewrite HF by auto. reflexivity.
    + destruct (IH g k ltac:(cbn in Hl; lia) E) as (wi & Hp & Hlw & HF). cbn [put]. rewrite Hp. cbn [bind]. eexists. split; [reflexivity|]. split; [cbn; lia|].
      intros F HF0. cbn [combine map rsum fold_right fst snd]. rewrite HF0. unfold rsum in HF. rewrite HF by auto. unfold rsum. ring.
Qed.
Lemma combine_fst_snd (k : list (Z * Z)) : combine (map (fun e => dec (fst e)) k) (map (fun e => dec (snd e)) k) = map (fun e => (dec (fst e), dec (snd e))) k.
Proof. induction k as [|e k IH]; [reflexivity|]. cbn. rewrite IH. reflexivity. Qed.
Lemma gk_rule n : In n gk_allowed -> exists xi wi1 wi2, gauss_kronrod n = Ok (xi, wi1, wi2) /\
  moments (combine xi wi1) (2 * Z.to_nat n) (/ 10 ^ 24) /\ moments (combine xi wi2) (3 * Z.to_nat n + 2) (/ 10 ^ 24) /\
  Z.of_nat (length xi) = (2 * n + 1)%Z /\ length wi1 = length xi /\ length wi2 = length xi.
Proof.
  intros H. assert (A := gk_all). rewrite forallb_forall in A. specialize (A n H). unfold gk_ok in A. unfold gauss_kronrod.
  apply zmem_In in H. rewrite H. cbn [negb]. destruct (gk_table n) as [[[g k] dup]|]; [|discriminate]. rewrite !andb_true_iff in A.
  destruct A as [[[[[Lg Lk] Ld] Hm] Tg] Tk]. apply Nat.eqb_eq in Ld. destruct (put_ok k g dup Ld Hm) as (wi1 & Hp & Hl & HF). rewrite Hp. cbn [bind].
  eexists _, _, _. split; [reflexivity|]. split; [|split; [|split; [|split]]].
  - intros j Hj. rewrite (HF (fun x w => w * x ^ j)) by (intros; ring). apply (moments_of g _ Tg). auto.
  - rewrite combine_fst_snd. apply moments_of. auto.
  - rewrite map_length. apply Z.eqb_eq. auto.
  - rewrite map_length. auto.
  - rewrite !map_length. auto.
Qed.

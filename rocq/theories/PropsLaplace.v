(** * C125: numerical inversion of Laplace transforms (laplace.py, mp_laplace.py: Talbot) *)
From Coq Require Import Reals List Arith ZArith Bool Lia Lra.
From Coquelicot Require Import Coquelicot.
From Verif Require Import Base LaplaceModel SpecLaplace LaplaceProofs.
Import ListNotations.
Open Scope R_scope.

(** The values, whether returned as a number or as an array. *)
Definition values (a : answer) : list R := match a with Number v => [v] | Array l => l end.
Definition nonzero (ts : list R) : Prop := forall t, In t ts -> t <> 0.

Lemma zero_free ts : nonzero ts -> existsb (fun x => Reqb x 0) ts = false.
Proof.
  intros H. destruct (existsb _ ts) eqn:E; [|reflexivity]. apply existsb_exists in E. destruct E as (x & Hx & Q). apply Reqb_true in Q. destruct (H x Hx Q).
Qed.
Lemma values_real l : values (real_parts l) = map Re l.
Proof. destruct l as [|v [|w l]]; reflexivity. Qed.
Section Point.
Variables (f : C -> C) (n : nat) (sh : R) (vec : bool).
Hypothesis Hn : (1 <= n)%nat.
Let N := (n + n mod 2)%nat.
Let T := Talbot f n sh vec.
Lemma cot_eq x : sin x <> 0 -> cos x <> 0 -> cot x = cos x / sin x.
Proof. intros S0 C0. unfold cot, tan. field. auto. Qed.
Lemma z_eq t k : t <> 0 -> (k < N)%nat -> z_ T t k = talbot_contour sh N t (middle (- PI) PI N k).
Proof.
  intros Ht Hk. destruct (mid_ok n Hn k Hk) as (_ & _ & S0 & C0). unfold z_. change (theta T k) with (theta (Talbot f n sh vec) k). rewrite theta_mid by auto. fold N. fold N in S0, C0. set (x := middle (- PI) PI N k) in *.
  rewrite cot_eq by auto. unfold talbot_contour, cpx, nR. cbn [tal_shift tal_n T Talbot]. fold N. apply injective_projections; cbn; unfold Rdiv; ring.
Qed.
Lemma dz_eq t k : t <> 0 -> (k < N)%nat -> dz_ T t k = contour' N t (middle (- PI) PI N k).
Proof.
  intros Ht Hk. destruct (mid_ok n Hn k Hk) as (_ & _ & S0 & C0). unfold dz_. change (theta T k) with (theta (Talbot f n sh vec) k). rewrite theta_mid by auto. fold N. fold N in S0, C0. set (x := middle (- PI) PI N k) in *.
  rewrite cot_eq by auto. unfold contour', cpx, nR, csc. cbn [tal_shift tal_n T Talbot]. fold N. apply injective_projections; cbn; field; auto.
Qed.
Lemma inv1_eq t : t <> 0 -> inv_laplace1 T t = midpoint_bromwich f t (talbot_contour sh N t) (contour' N t) N.
Proof.
  intros Ht. pose proof (N_pos n Hn) as NP. fold N in NP.
  assert (E : inv_laplace1 T t = (total_C N (fun k => cexp (z_ T t k * RtoC t) * f (z_ T t k) * dz_ T t k) * (RtoC (h_ T) / (cpx 0 2 * RtoC PI)))%C).
  { unfold inv_laplace1. cbv zeta. f_equal. change (tal_n T) with N. destruct (tal_vectorized T); rewrite csum_total; [reflexivity|]. apply total_C_ext. intros k _. change (tal_f T) with f. ring. }
  rewrite E. unfold midpoint_bromwich. cbv zeta. unfold h_, nR. change (tal_n T) with N.
  rewrite (total_C_ext N (fun k => cexp (z_ T t k * RtoC t) * f (z_ T t k) * dz_ T t k)%C (fun k => Cexp (talbot_contour sh N t (middle (- PI) PI N k) * RtoC t) * f (talbot_contour sh N t (middle (- PI) PI N k)) * contour' N t (middle (- PI) PI N k))%C).
  2:{ intros k Hk. rewrite z_eq, dz_eq by auto. reflexivity. }
  rewrite (total_C_ext N (fun k => Cexp (talbot_contour sh N t (middle (- PI) PI N k) * RtoC t) * f (talbot_contour sh N t (middle (- PI) PI N k)) * contour' N t (middle (- PI) PI N k) * RtoC (2 * PI / INR N))%C
    (fun k => RtoC (2 * PI / INR N) * (Cexp (talbot_contour sh N t (middle (- PI) PI N k) * RtoC t) * f (talbot_contour sh N t (middle (- PI) PI N k)) * contour' N t (middle (- PI) PI N k)))%C) by (intros; ring).
  rewrite total_C_scal. generalize (total_C N (fun k => Cexp (talbot_contour sh N t (middle (- PI) PI N k) * RtoC t) * f (talbot_contour sh N t (middle (- PI) PI N k)) * contour' N t (middle (- PI) PI N k))%C). intros c.
  assert (ED : (cpx 0 2 * RtoC PI)%C = (2 * RtoC PI * Ci)%C) by (apply injective_projections; cbn; ring). rewrite ED. unfold Cdiv. ring.
Qed.
Lemma call_eq ts : nonzero ts -> call T ts = Ok (real_parts (map (fun t => midpoint_bromwich f t (talbot_contour sh N t) (contour' N t) N) ts)).
Proof.
  intros Hz. unfold call. rewrite zero_free by auto. f_equal. f_equal. apply map_ext_in. intros t Ht. apply inv1_eq. apply Hz; auto.
Qed.
End Point.

(** The value at each time is the midpoint rule, with an even number of points not less than n, for the integral of
    e^(st) F(s) along the contour, with the derivative of the contour; no point lies where the contour is not
    defined.  One time gives a number, several an array. *)
Theorem C125_midpoint_rule : forall f n sh vec, (1 <= n)%nat -> exists N, Nat.Even N /\ (n <= N <= n + 1)%nat /\
  (forall k, (k < N)%nat -> middle (- PI) PI N k <> 0 /\ - PI < middle (- PI) PI N k < PI) /\
  forall ts, nonzero ts -> exists a Z', call (Talbot f n sh vec) ts = Ok a /\
    (forall t, In t ts -> is_path (talbot_contour sh N t) (Z' t) (- PI) PI) /\
    values a = map (fun t => Re (midpoint_bromwich f t (talbot_contour sh N t) (Z' t) N)) ts /\
    ((exists v, a = Number v) <-> length ts = 1%nat).
Proof.
  intros f n sh vec Hn. exists (n + n mod 2)%nat. destruct (N_even n Hn) as (m & E & _ & B). split; [exists m; auto|]. split; [auto|]. split.
  { intros k Hk. destruct (mid_ok n Hn k Hk) as (B1 & B2 & _). split; auto. }
  intros ts Hz. eexists. exists (contour' (n + n mod 2)). split; [apply call_eq; auto|]. split; [intros t Ht; apply contour_path; apply Hz; auto|]. split; [rewrite values_real, map_map; reflexivity|].
  destruct ts as [|t [|t' ts]]; cbn; split; try (intros (v & Q); discriminate); try discriminate; intros; eauto.
Qed.
(** For the transform of a real function nothing is lost by taking the real part. *)
Theorem C125_real : forall f n sh vec t, (1 <= n)%nat -> t <> 0 -> of_real_function f -> Im (inv_laplace1 (Talbot f n sh vec) t) = 0.
Proof.
  intros f n sh vec t Hn Ht Hf. rewrite inv1_eq by auto. set (N := (n + n mod 2)%nat). pose proof (N_pos n Hn) as NP. fold N in NP. unfold midpoint_bromwich. cbv zeta.
  set (g := fun x => (Cexp (talbot_contour sh N t x * RtoC t) * f (talbot_contour sh N t x) * contour' N t x * RtoC (2 * PI / INR N))%C).
  change (Im (total_C N (fun k => g (middle (- PI) PI N k)) / (2 * RtoC PI * Ci))%C = 0). set (s := total_C N (fun k => g (middle (- PI) PI N k))).
  assert (G : forall x, g (- x) = Copp (Cconj (g x))).
  { intros x. unfold g. assert (E1 : talbot_contour sh N t (- x) = Cconj (talbot_contour sh N t x)).
    { unfold talbot_contour, Cconj. cbn [fst snd]. replace (6407/10000 * - x) with (- (6407/10000 * x)) by ring. rewrite sin_neg, cos_neg. unfold Rdiv. rewrite Rinv_opp. f_equal; ring. }
    assert (E2 : contour' N t (- x) = Copp (Cconj (contour' N t x))).
    { unfold contour', Cconj, Copp. cbn [fst snd]. replace (6407/10000 * - x) with (- (6407/10000 * x)) by ring. rewrite sin_neg, cos_neg. unfold Rdiv. rewrite Rinv_opp. replace ((- sin (6407 * / 10000 * x))^2) with ((sin (6407 * / 10000 * x))^2) by ring. f_equal; ring. }
    rewrite E1, E2, Hf. generalize (f (talbot_contour sh N t x)) (contour' N t x) (talbot_contour sh N t x) (2 * PI / INR N). intros [a b] [c d] [p q] r.
    unfold Cexp, Cconj, Copp, Cmult, RtoC, Re, Im. cbn [fst snd]. replace (p * 0 + - q * t) with (- (p * 0 + q * t)) by ring. rewrite cos_neg, sin_neg. replace (p * t - - q * 0) with (p * t - q * 0) by ring. f_equal; ring. }
  assert (S1 : s = Copp (Cconj s)).
  { unfold s at 1. rewrite <- total_C_rev. rewrite (total_C_ext _ _ (fun k => (RtoC (-1) * Cconj (g (middle (- PI) PI N k)))%C)).
    - rewrite total_C_scal, total_C_conj. fold s. apply injective_projections; cbn; ring.
    - intros k Hk. cbv beta. unfold N in *. rewrite mid_neg by auto. rewrite G. apply injective_projections; cbn; ring. }
  clearbody s. destruct s as [a b]. assert (A : a = 0) by (injection S1; intros; lra). subst a. unfold Cdiv, Cinv, Cmult, Im, RtoC. cbn. pose proof PI_RGT_0. field. nra.
Qed.
(** Linear in the transform. *)
Theorem C125_linear : forall f g a b n sh vec ts, (1 <= n)%nat -> nonzero ts -> exists u v w,
  call (Talbot f n sh vec) ts = Ok u /\ call (Talbot g n sh vec) ts = Ok v /\
  call (Talbot (fun s => RtoC a * f s + RtoC b * g s)%C n sh vec) ts = Ok w /\
  forall j, (j < length ts)%nat -> nth j (values w) 0 = a * nth j (values u) 0 + b * nth j (values v) 0.
Proof.
  intros f g a b n sh vec ts Hn Hz. do 3 eexists. split; [apply call_eq; auto|]. split; [apply call_eq; auto|]. split; [apply call_eq; auto|].
  intros j Hj. rewrite !values_real, !map_map. set (N := (n + n mod 2)%nat).
  assert (X : forall h, nth j (map (fun t => Re (midpoint_bromwich h t (talbot_contour sh N t) (contour' N t) N)) ts) 0 = Re (midpoint_bromwich h (nth j ts 0) (talbot_contour sh N (nth j ts 0)) (contour' N (nth j ts 0)) N)).
  { intros h. set (F := fun t => Re (midpoint_bromwich h t (talbot_contour sh N t) (contour' N t) N)). rewrite (nth_indep _ 0 (F 0)) by (rewrite map_length; auto). rewrite map_nth. reflexivity. }
  rewrite !X. set (t := nth j ts 0). unfold midpoint_bromwich. cbv zeta.
  set (e := fun k => (Cexp (talbot_contour sh N t (middle (- PI) PI N k) * RtoC t))%C). set (d := fun k => (contour' N t (middle (- PI) PI N k) * RtoC (2 * PI / INR N))%C). set (p := fun k => talbot_contour sh N t (middle (- PI) PI N k)).
  rewrite (total_C_ext N (fun k => Cexp (talbot_contour sh N t (middle (- PI) PI N k) * RtoC t) * (RtoC a * f (talbot_contour sh N t (middle (- PI) PI N k)) + RtoC b * g (talbot_contour sh N t (middle (- PI) PI N k))) * contour' N t (middle (- PI) PI N k) * RtoC (2 * PI / INR N))%C
    (fun k => RtoC a * (Cexp (talbot_contour sh N t (middle (- PI) PI N k) * RtoC t) * f (talbot_contour sh N t (middle (- PI) PI N k)) * contour' N t (middle (- PI) PI N k) * RtoC (2 * PI / INR N))
      + RtoC b * (Cexp (talbot_contour sh N t (middle (- PI) PI N k) * RtoC t) * g (talbot_contour sh N t (middle (- PI) PI N k)) * contour' N t (middle (- PI) PI N k) * RtoC (2 * PI / INR N)))%C) by (intros; ring).
  rewrite total_C_plus, !total_C_scal. generalize (total_C N (fun k => Cexp (talbot_contour sh N t (middle (- PI) PI N k) * RtoC t) * f (talbot_contour sh N t (middle (- PI) PI N k)) * contour' N t (middle (- PI) PI N k) * RtoC (2 * PI / INR N))%C) (total_C N (fun k => Cexp (talbot_contour sh N t (middle (- PI) PI N k) * RtoC t) * g (talbot_contour sh N t (middle (- PI) PI N k)) * contour' N t (middle (- PI) PI N k) * RtoC (2 * PI / INR N))%C).
  intros u v. replace ((RtoC a * u + RtoC b * v) / (2 * RtoC PI * Ci))%C with (RtoC a * (u / (2 * RtoC PI * Ci)) + RtoC b * (v / (2 * RtoC PI * Ci)))%C by (unfold Cdiv; ring).
  generalize (u / (2 * RtoC PI * Ci))%C (v / (2 * RtoC PI * Ci))%C. intros [u1 u2] [v1 v2]. cbn. ring.
Qed.
(** The transform F(s/c)/c belongs to the function at c t. *)
Theorem C125_time_scaling : forall f c n vec ts, (1 <= n)%nat -> c <> 0 -> nonzero ts -> exists u w,
  call (Talbot (fun s => f (s / RtoC c) / RtoC c)%C n 0 vec) ts = Ok u /\ call (Talbot f n 0 vec) (map (Rmult c) ts) = Ok w /\ values u = values w.
Proof.
  intros f c n vec ts Hn Hc Hz. do 2 eexists. split; [apply call_eq; auto|]. split.
  { apply call_eq; auto. intros t Ht. apply in_map_iff in Ht. destruct Ht as (x & <- & Hx). apply Rmult_integral_contrapositive_currified; auto. }
  rewrite !values_real, !map_map. apply map_ext_in. intros t Ht. specialize (Hz t Ht). f_equal. unfold midpoint_bromwich. cbv zeta. f_equal. apply total_C_ext. intros k Hk. set (N := (n + n mod 2)%nat). set (x := middle (- PI) PI N k).
  assert (CN : RtoC c <> RtoC 0) by (intros Q; apply Hc; apply RtoC_inj; auto).
  assert (EN : INR N / t = c * (INR N / (c * t))) by (field; auto).
  assert (E1 : talbot_contour 0 N t x = (RtoC c * talbot_contour 0 N (c * t) x)%C) by (unfold talbot_contour; rewrite EN; apply injective_projections; cbn; unfold Rdiv; ring).
  assert (E2 : contour' N t x = (RtoC c * contour' N (c * t) x)%C) by (unfold contour'; rewrite EN; apply injective_projections; cbn; unfold Rdiv; ring).
  rewrite E1, E2, RtoC_mult. replace (RtoC c * talbot_contour 0 N (c * t) x * RtoC t)%C with (talbot_contour 0 N (c * t) x * (RtoC c * RtoC t))%C by ring.
  replace (RtoC c * talbot_contour 0 N (c * t) x / RtoC c)%C with (talbot_contour 0 N (c * t) x) by (field; auto). field. auto.
Qed.
(** Shifting the contour by a is inverting F(s + a) and multiplying by e^(a t). *)
Theorem C125_shift : forall f a n vec ts, (1 <= n)%nat -> nonzero ts -> exists u w,
  call (Talbot f n a vec) ts = Ok u /\ call (Talbot (fun s => f (s + RtoC a)%C) n 0 vec) ts = Ok w /\
  forall j, (j < length ts)%nat -> nth j (values u) 0 = exp (a * nth j ts 0) * nth j (values w) 0.
Proof.
  intros f a n vec ts Hn Hz. do 2 eexists. split; [apply call_eq; auto|]. split; [apply call_eq; auto|].
  intros j Hj. rewrite !values_real, !map_map. set (N := (n + n mod 2)%nat).
  assert (X : forall sh h, nth j (map (fun t => Re (midpoint_bromwich h t (talbot_contour sh N t) (contour' N t) N)) ts) 0 = Re (midpoint_bromwich h (nth j ts 0) (talbot_contour sh N (nth j ts 0)) (contour' N (nth j ts 0)) N)).
  { intros sh h. set (F := fun t => Re (midpoint_bromwich h t (talbot_contour sh N t) (contour' N t) N)). rewrite (nth_indep _ 0 (F 0)) by (rewrite map_length; auto). rewrite map_nth. reflexivity. }
  rewrite !X. set (t := nth j ts 0). unfold midpoint_bromwich. cbv zeta.
  rewrite (total_C_ext N (fun k => Cexp (talbot_contour a N t (middle (- PI) PI N k) * RtoC t) * f (talbot_contour a N t (middle (- PI) PI N k)) * contour' N t (middle (- PI) PI N k) * RtoC (2 * PI / INR N))%C
    (fun k => RtoC (exp (a * t)) * (Cexp (talbot_contour 0 N t (middle (- PI) PI N k) * RtoC t) * f (talbot_contour 0 N t (middle (- PI) PI N k) + RtoC a) * contour' N t (middle (- PI) PI N k) * RtoC (2 * PI / INR N)))%C).
  - rewrite total_C_scal. generalize (total_C N (fun k => Cexp (talbot_contour 0 N t (middle (- PI) PI N k) * RtoC t) * f (talbot_contour 0 N t (middle (- PI) PI N k) + RtoC a)%C * contour' N t (middle (- PI) PI N k) * RtoC (2 * PI / INR N))%C).
    intros c. replace (RtoC (exp (a * t)) * c / (2 * RtoC PI * Ci))%C with (RtoC (exp (a * t)) * (c / (2 * RtoC PI * Ci)))%C by (unfold Cdiv; ring). generalize (c / (2 * RtoC PI * Ci))%C. intros [p q]. cbn. ring.
  - intros k Hk. set (x := middle (- PI) PI N k). assert (E : talbot_contour a N t x = (talbot_contour 0 N t x + RtoC a)%C) by (unfold talbot_contour; apply injective_projections; cbn; ring).
    rewrite E. assert (EE : Cexp ((talbot_contour 0 N t x + RtoC a) * RtoC t)%C = (RtoC (exp (a * t)) * Cexp (talbot_contour 0 N t x * RtoC t))%C).
    { generalize (talbot_contour 0 N t x). intros [p q]. unfold Cexp. apply injective_projections; cbn.
      - replace ((p + a) * t - (q + 0) * 0) with (a * t + (p * t - q * 0)) by ring. replace ((p + a) * 0 + (q + 0) * t) with (p * 0 + q * t) by ring. rewrite exp_plus. ring.
      - replace ((p + a) * t - (q + 0) * 0) with (a * t + (p * t - q * 0)) by ring. replace ((p + a) * 0 + (q + 0) * t) with (p * 0 + q * t) by ring. rewrite exp_plus. ring. }
    rewrite EE. ring.
Qed.
(** A zero among the times is refused; vectorized or not, and with mpmath in exact arithmetic, the values are the same. *)
Theorem C125_zero_time : forall T ts, In 0 ts -> call T ts = Err ValueError /\ mp_call T ts = Err ValueError.
Proof.
  intros T ts H. assert (E : existsb (fun x => Reqb x 0) ts = true) by (apply existsb_exists; exists 0; split; [auto|apply Reqb_true; auto]). unfold call, mp_call. rewrite E. auto.
Qed.
Theorem C125_vectorized : forall f n sh vec ts, (1 <= n)%nat -> call (Talbot f n sh vec) ts = call (Talbot f n sh true) ts.
Proof.
  intros f n sh vec ts Hn. destruct (existsb (fun x => Reqb x 0) ts) eqn:E; [unfold call; rewrite E; reflexivity|].
  assert (Hz : nonzero ts). { intros t Ht Q. assert (existsb (fun x => Reqb x 0) ts = true) by (apply existsb_exists; exists t; split; [auto|apply Reqb_true; auto]). congruence. }
  rewrite !call_eq by auto. reflexivity.
Qed.
Theorem C125_mpmath : forall f n sh vec ts, (1 <= n)%nat -> mp_call (Talbot f n sh vec) ts = call (Talbot f n sh true) ts.
Proof.
  intros f n sh vec ts Hn. unfold mp_call, call. destruct (existsb _ ts); [reflexivity|]. f_equal. f_equal. apply map_ext. intros t. unfold mp_inv1, inv_laplace1. cbv zeta. cbn [tal_vectorized Talbot]. f_equal.
  f_equal. apply map_ext_in. intros k Hk. apply in_seq in Hk. cbn [tal_n Talbot] in Hk. destruct (mid_ok n Hn k ltac:(lia)) as (_ & _ & S0 & C0). 
  assert (Z : mp_z (Talbot f n sh vec) t k = z_ (Talbot f n sh true) t k).
  { unfold mp_z, z_. rewrite !theta_mid by auto. unfold cot. cbn [tal_shift Talbot]. f_equal. unfold nR. cbn [tal_n Talbot]. f_equal. f_equal. f_equal. unfold Rdiv. ring. }
  assert (D : mp_dz (Talbot f n sh vec) t k = dz_ (Talbot f n sh true) t k).
  { unfold mp_dz, dz_. rewrite !theta_mid by auto. unfold cot, csc, nR. cbn [tal_n Talbot]. f_equal. f_equal. f_equal. unfold tan. field. auto. }
  rewrite Z, D. reflexivity.
Qed.
(** The hypotheses hold of the transform 1/s of the constant 1. *)
Theorem C125_witness : of_real_function Cinv /\ exists a, call (Talbot Cinv 24 0 true) [1; 2] = Ok a /\ length (values a) = 2%nat.
Proof.
  split.
  - intros [a b]. unfold Cinv, Cconj. cbn [fst snd]. replace ((- b)^2) with (b^2) by ring. f_equal. unfold Rdiv. ring.
  - eexists. split; [apply call_eq; [lia|intros t [<-|[<-|[]]]; lra]|]. rewrite values_real, !map_length. reflexivity.
Qed.

(** * Properties C48, C87, C88, C89: series acceleration and Gauss quadrature (quadrature.py) *)
From Coq Require Import Reals List Bool ZArith Lia Lra.
From Coquelicot Require Import Coquelicot.
From Verif Require Import Base QuadratureGen QuadratureModel SpecQuadrature QuadratureProofs QuadratureProofs2 QuadratureProofs3 QuadratureProofs4.
Import ListNotations.
Open Scope R_scope.

(** ** C48 shanks *)
(** Exact on L + a q^k for every length, ratio, and starting index that leaves three terms. *)
Theorem C48_geometric : forall L a q len i, (q <> 1 \/ a = 0) -> (i + 3 <= len)%nat ->
  exists arr, shanks (geometric L a q len) (Some (Z.of_nat i)) = Ok (arr, L).
Proof.
  intros L a q len i Hq Hi. set (l := geometric L a q len). assert (Ll : length l = len) by apply geo_length.
  unfold shanks. destruct (Z.ltb_spec (Z.of_nat i) 0); [lia|]. rewrite Z.max_l, Nat2Z.id by lia.
  set (l' := shanks_loop (length l) i l). assert (Ll' : length l' = len) by (unfold l'; rewrite loop_length; auto).
  exists l'. rewrite (get_last_nth l' 0) by (intros E; rewrite E in Ll'; cbn in Ll'; lia). cbn [bind]. do 2 f_equal.
  rewrite Ll', <- Ll. apply (loop_geometric _ _ _ _ a q); auto; [lia|lia|]. intros k Hk. apply geo_nth. lia.
Qed.
(** ... and also from an index counted from the end. *)
Theorem C48_geometric_negative : forall L a q len i, (q <> 1 \/ a = 0) -> (3 <= i <= len)%nat ->
  exists arr, shanks (geometric L a q len) (Some (- Z.of_nat i)%Z) = Ok (arr, L).
Proof.
  intros L a q len i Hq Hi. destruct (C48_geometric L a q len (len - i) Hq ltac:(lia)) as (arr & H). exists arr. rewrite <- H. unfold shanks.
  destruct (Z.ltb_spec (- Z.of_nat i) 0); [|lia]. destruct (Z.ltb_spec (Z.of_nat (len - i)) 0); [lia|]. rewrite geo_length.
  replace (Z.of_nat len + - Z.of_nat i)%Z with (Z.of_nat (len - i)) by lia. reflexivity.
Qed.
(** Only the terms from the index on matter: an arbitrary start does not spoil the answer. *)
Theorem C48_tail : forall l i L a q, (q <> 1 \/ a = 0) -> (i + 3 <= length l)%nat ->
  (forall k, (i <= k < length l)%nat -> nth k l 0 = L + a * q ^ k) -> exists arr, shanks l (Some (Z.of_nat i)) = Ok (arr, L).
Proof.
  intros l i L a q Hq Hi H. unfold shanks. destruct (Z.ltb_spec (Z.of_nat i) 0); [lia|]. rewrite Z.max_l, Nat2Z.id by lia.
  set (l' := shanks_loop (length l) i l). assert (Ll' : length l' = length l) by (unfold l'; rewrite loop_length; auto).
  exists l'. rewrite (get_last_nth l' 0) by (intros E; rewrite E in Ll'; cbn in Ll'; lia). cbn [bind]. do 2 f_equal.
  rewrite Ll'. apply (loop_geometric _ _ _ _ a q); auto. lia.
Qed.
(** With nothing to accelerate (ind=None, or fewer than three terms left) the last term comes back. *)
Theorem C48_no_acceleration : forall l s i, shanks (l ++ [s]) None = Ok (l ++ [s], s) /\
  ((length l <= i + 1)%nat -> shanks (l ++ [s]) (Some (Z.of_nat i)) = Ok (l ++ [s], s)).
Proof.
  intros l s i. assert (E : get_last (l ++ [s]) = Ok s) by (unfold get_last; rewrite rev_app_distr; reflexivity).
  split; [unfold shanks; rewrite E; reflexivity|]. intros H. unfold shanks. destruct (Z.ltb_spec (Z.of_nat i) 0); [lia|].
  rewrite loop_short by (rewrite app_length; cbn; lia). rewrite E. reflexivity.
Qed.
(** Three terms: the Aitken / Shanks formula, or the last term when its divisor is 0. *)
Theorem C48_three_terms : forall a b c, exists arr,
  shanks [a; b; c] (Some 0%Z) = Ok (arr, if Req_EM_T (c - 2 * b + a) 0 then c else aitken a b c).
Proof.
  intros a b c. unfold shanks. cbn -[Reqb shank denom get_last]. unfold Reqb. change (denom (a, b, c)) with (c - 2 * b + a).
  destruct (Req_EM_T (c - 2 * b + a) 0); cbn [orb].
  - eexists. reflexivity.
  - try rewrite loop_short by (cbn; lia). unfold get_last. cbn [rev app bind]. rewrite shank_aitken. eexists. reflexivity.
Qed.
(** Changing units or the origin changes the answer accordingly. *)
Theorem C48_affine : forall l ind al be arr v, al <> 0 -> shanks l ind = Ok (arr, v) ->
  shanks (map (fun x => al * x + be) l) ind = Ok (map (fun x => al * x + be) arr, al * v + be).
Proof.
  intros l ind al be arr v Ha H. unfold shanks in *.
  assert (G : forall k m, get_last k = Ok m -> get_last (map (fun x => al * x + be) k) = Ok (al * m + be)).
  { intros k m Hk. unfold get_last in *. rewrite <- map_rev. destruct (rev k); [discriminate|]. injection Hk as <-. reflexivity. }
  destruct ind as [z|].
  - rewrite map_length, loop_affine by auto. destruct (get_last _) as [w|e] eqn:E; [|discriminate]. cbn [bind] in H. injection H as <- <-.
    rewrite (G _ _ E). reflexivity.
  - destruct (get_last l) as [w|e] eqn:E; [|discriminate]. cbn [bind] in H. injection H as <- <-. rewrite (G _ _ E). reflexivity.
Qed.
(** The only failure is on an empty sequence. *)
Theorem C48_total : forall l ind, (shanks l ind = Err IndexError /\ l = []) \/ exists arr v, l <> [] /\ shanks l ind = Ok (arr, v) /\ length arr = length l.
Proof.
  intros l ind. destruct l as [|s l]; [left; split; auto; destruct ind as [z|]; [|reflexivity]; unfold shanks; cbn; reflexivity|]. right.
  unfold shanks. destruct ind as [z|].
  - cbv zeta. set (arr := shanks_loop _ _ _). assert (La : length arr = length (s :: l)) by (unfold arr; apply loop_length).
    exists arr. rewrite (get_last_nth arr 0) by (intros E; rewrite E in La; cbn in La; lia). eexists. split; [discriminate|]. split; [reflexivity|exact La].
  - rewrite (get_last_nth (s :: l) 0) by discriminate. eexists _, _. split; [discriminate|]. split; reflexivity.
Qed.
(** The caller's array is overwritten: a second call on the same array answers differently. *)
Theorem C48_caller_array_kept_refuted :
  ~ (forall l ind arr v, shanks l ind = Ok (arr, v) -> arr = l) /\
  exists l arr v arr2 v2, shanks l (Some 0%Z) = Ok (arr, v) /\ shanks arr (Some 0%Z) = Ok (arr2, v2) /\ v2 <> v.
Proof.
  assert (E1 : shanks [0; 1; 3] (Some 0%Z) = Ok ([0; 1; -1], -1)).
  { unfold shanks. cbn -[Reqb shank denom get_last]. rewrite (proj2 (Reqb_false _ _)) by (cbn; lra). cbn [orb]. try rewrite loop_short by (cbn; lia).
    unfold get_last, shank, denom. cbn [rev app bind]. do 2 f_equal; [do 3 f_equal|]; field. }
  assert (E2 : shanks [0; 1; -1] (Some 0%Z) = Ok ([0; 1; 1 / 3], 1 / 3)).
  { unfold shanks. cbn -[Reqb shank denom get_last]. rewrite (proj2 (Reqb_false _ _)) by (cbn; lra). cbn [orb]. try rewrite loop_short by (cbn; lia).
    unfold get_last, shank, denom. cbn [rev app bind]. do 2 f_equal; [do 3 f_equal|]; field. }
  split.
  - intros H. specialize (H _ _ _ _ E1). injection H as H. lra.
  - eexists _, _, _, _, _. split; [exact E1|]. split; [exact E2|]. lra.
Qed.
Print Assumptions C48_geometric.
Print Assumptions C48_geometric_negative.
Print Assumptions C48_tail.
Print Assumptions C48_no_acceleration.
Print Assumptions C48_three_terms.
Print Assumptions C48_affine.
Print Assumptions C48_total.
Print Assumptions C48_caller_array_kept_refuted.
(** partial sums of 1 + 1/2 + 1/4 + ... *)
Example C48_witness : exists arr, shanks [1; 3/2; 7/4; 15/8; 31/16] (Some 0%Z) = Ok (arr, 2).
Proof.
  replace [1; 3/2; 7/4; 15/8; 31/16] with (geometric 2 (-1) (1/2) 5) by (unfold geometric; cbn; repeat (f_equal; try field)).
  apply (C48_geometric 2 (-1) (1/2) 5 0); [left; lra|lia].
Qed.

(** ** C87 shanks_table *)
Theorem C87_too_short : forall s T, (length s < 2)%nat <-> shanks_table s T = Err ValueError.
Proof. intros s T. unfold shanks_table. destruct (Nat.ltb_spec (length s) 2); split; intros Q; auto; [lia|discriminate]. Qed.
(** Lower triangular, an even number of rows, so that the last entry is an extrapolated value. *)
Theorem C87_shape : forall s T, shanks_table s [] = Ok T ->
  Nat.even (length T) = true /\ (length T < length s)%nat /\ forall i, (i < length T)%nat -> length (nth i T []) = S i.
Proof.
  intros s T H. destruct (table_valid s T H) as (V & L & E & L2). assert (SL := stop_le s). split; [exact E|]. split; [lia|].
  intros i Hi. apply (row_spec s T). apply V. auto.
Qed.
(** Wynn's epsilon rule, read off the sequence and the table. *)
Theorem C87_epsilon_rule : forall s T i j, shanks_table s [] = Ok T -> (i < length T)%nat ->
  nth 0 (nth i T []) 0 * (nth (i + 1) s 0 - nth i s 0) = 1 /\
  ((1 <= i)%nat -> (nth 1 (nth i T []) 0 - nth i s 0) * (nth 0 (nth i T []) 0 - nth 0 (nth (i - 1) T []) 0) = 1) /\
  ((2 <= j <= i)%nat -> (nth j (nth i T []) 0 - nth (j - 2) (nth (i - 1) T []) 0) * (nth (j - 1) (nth i T []) 0 - nth (j - 1) (nth (i - 1) T []) 0) = 1).
Proof.
  intros s T i j H Hi. destruct (table_valid s T H) as (V & _). destruct (row_spec s T i _ (V i Hi)) as (_ & H0 & HJ). split; [exact H0|]. split.
  - intros H1. exact (HJ 1%nat ltac:(lia)).
  - intros H2. specialize (HJ j ltac:(lia)). destruct (Nat.eqb_spec j 1); [lia|]. exact HJ.
Qed.
(** The second column is the Shanks transform of the sequence. *)
Theorem C87_transform : forall s T i, shanks_table s [] = Ok T -> (1 <= i < length T)%nat ->
  nth 1 (nth i T []) 0 = aitken (nth (i - 1) s 0) (nth i s 0) (nth (i + 1) s 0).
Proof.
  intros s T i H Hi. destruct (C87_epsilon_rule s T i 0 H ltac:(lia)) as (H0 & H1 & _). specialize (H1 ltac:(lia)).
  destruct (C87_epsilon_rule s T (i - 1) 0 H ltac:(lia)) as (G0 & _ & _). replace (i - 1 + 1)%nat with i in G0 by lia.
  set (a := nth (i - 1) s 0) in *. set (b := nth i s 0) in *. set (c := nth (i + 1) s 0) in *. set (x := nth 1 _ 0) in *. set (u := nth 0 (nth i T []) 0) in *. set (v := nth 0 (nth (i - 1) T []) 0) in *.
  clearbody a b c x u v. unfold aitken.
  assert (Nc : c - b <> 0) by (intros E; rewrite E in H0; lra). assert (Nb : b - a <> 0) by (intros E; rewrite E in G0; lra).
  assert (u = / (c - b)) by (apply Rmult_eq_reg_r with (c - b); auto; rewrite Rinv_l; auto). assert (v = / (b - a)) by (apply Rmult_eq_reg_r with (b - a); auto; rewrite Rinv_l; auto). subst u v.
  assert (K : (x - b) * (2 * b - a - c) = (c - b) * (b - a)).
  { replace (2 * b - a - c) with ((/ (c - b) - / (b - a)) * ((c - b) * (b - a))) by (field; auto). rewrite <- Rmult_assoc, H1. ring. }
  assert (N : c - 2 * b + a <> 0). { intros E. replace (2 * b - a - c) with (- (c - 2 * b + a)) in K by ring. rewrite E in K. assert (X : (c - b) * (b - a) <> 0) by (apply Rmult_integral_contrapositive; auto). lra. }
  apply Rmult_eq_reg_r with (c - 2 * b + a); auto. replace ((c * a - b * b) / (c - 2 * b + a) * (c - 2 * b + a)) with (c * a - b * b) by (field; auto). lra.
Qed.
(** Exact in one step for L + a q^k; the division by zero that follows ends the table. *)
Theorem C87_geometric : forall L a q len, a <> 0 -> q <> 0 -> q <> 1 -> (3 <= len)%nat ->
  exists T, shanks_table (geometric L a q len) [] = Ok T /\ length T = 2%nat /\ last (last T []) 0 = L.
Proof. intros L a q len Ha Hq H1 Hl. rewrite (table_geometric L a q len Ha Hq H1 Hl). eexists. split; [reflexivity|]. split; reflexivity. Qed.
(** Extending the table of a prefix gives the table of the whole sequence. *)
Theorem C87_extend : forall s e T, shanks_table s [] = Ok T -> shanks_table (s ++ e) T = shanks_table (s ++ e) [].
Proof. exact table_extend. Qed.
(** With no new terms nothing changes. *)
Theorem C87_idempotent : forall s T, shanks_table s [] = Ok T -> shanks_table s T = Ok T.
Proof. intros s T H. assert (E := table_extend s [] T H). rewrite app_nil_r in E. congruence. Qed.
(** Two terms are accepted, but there is then no last row to read the limit from. *)
Theorem C87_always_an_estimate_refuted : ~ (forall s T, shanks_table s [] = Ok T -> T <> []).
Proof. intros H. apply (H [0; 1] []); reflexivity. Qed.
Print Assumptions C87_too_short.
Print Assumptions C87_shape.
Print Assumptions C87_epsilon_rule.
Print Assumptions C87_transform.
Print Assumptions C87_geometric.
Print Assumptions C87_extend.
Print Assumptions C87_idempotent.
Print Assumptions C87_always_an_estimate_refuted.
Example C87_witness : exists T, shanks_table (geometric 2 (-1) (1/2) 7) [] = Ok T /\ last (last T []) 0 = 2.
Proof. destruct (C87_geometric 2 (-1) (1/2) 7) as (T & H & _ & E); try lra; [lia|]. exists T. auto. Qed.

(** ** C88 gl_quad *)
Theorem C88_orders : forall f a b n, (exists v, gl_quad f [a] [b] n = Ok [v]) /\ ((2 <= n <= 20)%Z \/ n = 32%Z \/ n = 64%Z \/ n = 100%Z) \/
  gl_quad f [a] [b] n = Err ValueError /\ ~ ((2 <= n <= 20)%Z \/ n = 32%Z \/ n = 64%Z \/ n = 100%Z).
Proof.
  intros f a b n. rewrite <- gl_allowed_iff. destruct (in_dec Z.eq_dec n gl_allowed) as [H|H].
  - left. split; auto. destruct (gl_rule n H) as (xw & E & _). unfold gl_quad. rewrite E. eexists. reflexivity.
  - right. split; auto. unfold gl_quad. rewrite gl_not by auto. reflexivity.
Qed.
(** Every polynomial of degree below 2n, over every interval. *)
Theorem C88_polynomial : forall n cs a b I, In n gl_allowed -> (length cs <= 2 * Z.to_nat n)%nat -> is_RInt (poly cs) a b I ->
  exists v, gl_quad (poly cs) [a] [b] n = Ok [v] /\ Rabs (v - I) <= / 10 ^ 24 * Rabs ((b - a) / 2) * poly_size cs (Rmax (Rabs a) (Rabs b)).
Proof.
  intros n cs a b I Hn Hl HI. destruct (gl_rule n Hn) as (xw & E & M & _). unfold gl_quad. rewrite E. eexists. split; [reflexivity|]. cbn [fst snd].
  apply (rule_polynomial xw (2 * Z.to_nat n)); auto.
Qed.
(** Any integrable f: at most (2 + 1e-24)(b - a) times its distance from a polynomial of degree below 2n. *)
Theorem C88_near_best : forall n f cs a b I delta, In n gl_allowed -> (length cs <= 2 * Z.to_nat n)%nat -> a <= b -> is_RInt f a b I ->
  (forall x, a <= x <= b -> Rabs (f x - poly cs x) <= delta) ->
  exists v, gl_quad f [a] [b] n = Ok [v] /\
   Rabs (v - I) <= delta * (2 + / 10 ^ 24) * (b - a) + / 10 ^ 24 * ((b - a) / 2) * poly_size cs (Rmax (Rabs a) (Rabs b)).
Proof.
  intros n f cs a b I delta Hn Hl Hab HI Hd. destruct (gl_rule n Hn) as (xw & E & M & L & P). unfold gl_quad. rewrite E. eexists. split; [reflexivity|]. cbn [fst snd].
  apply (rule_approx f xw (2 * Z.to_nat n)); auto. apply gl_allowed_iff in Hn. lia.
Qed.
(** The integrand is only looked at strictly inside the interval. *)
Theorem C88_inside : forall n f g a b, (forall x, Rmin a b < x < Rmax a b -> f x = g x) -> gl_quad f [a] [b] n = gl_quad g [a] [b] n.
Proof.
  intros n f g a b H. unfold gl_quad. destruct (in_dec Z.eq_dec n gl_allowed) as [Hn|Hn]; [|rewrite gl_not by auto; reflexivity].
  destruct (gl_rule n Hn) as (xw & E & _ & _ & P). rewrite E. cbn. do 2 f_equal. apply rule_inside; auto.
  rewrite List.Forall_forall in *. intros e He. apply P. auto.
Qed.
Theorem C88_positive : forall n f a b v, a <= b -> (forall x, a < x < b -> 0 <= f x) -> gl_quad f [a] [b] n = Ok [v] -> 0 <= v.
Proof.
  intros n f a b v Hab H Hv. unfold gl_quad in Hv. destruct (in_dec Z.eq_dec n gl_allowed) as [Hn|Hn]; [|rewrite gl_not in Hv by auto; discriminate].
  destruct (gl_rule n Hn) as (xw & E & _ & _ & P). rewrite E in Hv. cbn in Hv. injection Hv as <-. apply rule_nonneg; auto.
Qed.
Theorem C88_linear : forall n f g c a b u v, gl_quad f [a] [b] n = Ok [u] -> gl_quad g [a] [b] n = Ok [v] ->
  gl_quad (fun x => c * f x + g x) [a] [b] n = Ok [c * u + v].
Proof.
  intros n f g c a b u v. unfold gl_quad. destruct (gauss_legendre n) as [xw|e]; [|discriminate]. cbn. intros H1 H2. injection H1 as <-. injection H2 as <-.
  rewrite (rule_plus (fun x => c * f x) g), rule_scal. reflexivity.
Qed.
Theorem C88_reversed : forall n f a b v, gl_quad f [a] [b] n = Ok [v] -> gl_quad f [b] [a] n = Ok [- v].
Proof.
  intros n f a b v H. unfold gl_quad in *. destruct (in_dec Z.eq_dec n gl_allowed) as [Hn|Hn]; [|rewrite gl_not in H by auto; discriminate].
  destruct (gl_rule n Hn) as (xw & E & _). rewrite E in *. cbn in *. injection H as <-. do 2 f_equal. apply (gl_reversed n); auto.
Qed.
(** Arrays of limits: each row is the integral over its own interval, a single limit is shared,
    other shapes are refused. *)
Theorem C88_arrays : forall n f la lb, In n gl_allowed -> length la = length lb -> la <> [] ->
  exists vs, gl_quad f la lb n = Ok vs /\ length vs = length la /\
   forall i, (i < length la)%nat -> gl_quad f [nth i la 0] [nth i lb 0] n = Ok [nth i vs 0].
Proof.
  intros n f la lb Hn Hl He. destruct (gl_rule n Hn) as (xw & E & _). unfold gl_quad. rewrite E. cbn [bind]. rewrite broadcast_same by auto. cbn [bind].
  assert (Lc : length (combine la lb) = length la) by (rewrite combine_length; lia).
  destruct (combine la lb) as [|p c] eqn:C; [destruct la; [congruence|discriminate]|]. cbn [nonempty bind]. rewrite <- C in Lc |- *. eexists. split; [reflexivity|]. split; [rewrite map_length; auto|].
  intros i Hi. cbn. do 2 f_equal. rewrite (nth_indep (map _ _) 0 (rule f (fst (0, 0)) (snd (0, 0)) xw)) by (rewrite map_length; lia).
  rewrite (map_nth (fun e => rule f (fst e) (snd e) xw)). rewrite combine_nth by auto. reflexivity.
Qed.
Theorem C88_shared_limit : forall n f a b la lb, gl_quad f [a] lb n = gl_quad f (repeat a (length lb)) lb n /\
  gl_quad f la [b] n = gl_quad f la (repeat b (length la)) n.
Proof.
  intros n f a b la lb. unfold gl_quad. destruct (gauss_legendre n); [|split; reflexivity]. cbn [bind]. split.
  - rewrite broadcast_left, broadcast_same by apply repeat_length. rewrite combine_repeat_l. reflexivity.
  - rewrite broadcast_right, broadcast_same by (rewrite repeat_length; reflexivity). rewrite combine_repeat_r. reflexivity.
Qed.
Theorem C88_shapes : forall n f la lb, In n gl_allowed -> length la <> length lb -> length la <> 1%nat -> length lb <> 1%nat -> gl_quad f la lb n = Err ValueError.
Proof. intros n f la lb Hn H1 H2 H3. destruct (gl_rule n Hn) as (xw & E & _). unfold gl_quad. rewrite E. cbn [bind]. rewrite broadcast_bad by auto. reflexivity. Qed.
(** sum_intervals over consecutive break points x0, xs gives the whole integral. *)
Theorem C88_sum_intervals : forall n cs x0 xs M I, In n gl_allowed -> (length cs <= 2 * Z.to_nat n)%nat -> xs <> [] ->
  (forall x, In x (x0 :: xs) -> Rabs x <= M) -> is_RInt (poly cs) x0 (last xs x0) I ->
  exists v, gl_quad_sum (poly cs) (removelast (x0 :: xs)) xs n = Ok v /\ Rabs (v - I) <= / 10 ^ 24 * steps x0 xs * poly_size cs M.
Proof.
  intros n cs x0 xs M I Hn Hl Hx HM HI. destruct (gl_rule n Hn) as (xw & E & Mo & _). unfold gl_quad_sum, gl_quad. rewrite E. cbn [bind].
  assert (L : forall (x : R) l, length (removelast (x :: l)) = length l) by (intros x l; revert x; induction l as [|y l IH]; intros x; [reflexivity|]; change (removelast (x :: y :: l)) with (x :: removelast (y :: l)); cbn [length]; rewrite IH; reflexivity).
  rewrite broadcast_same by apply L. cbn [bind]. destruct xs as [|y xs]; [congruence|].
  change (removelast (x0 :: y :: xs)) with (x0 :: removelast (y :: xs)). cbn [combine nonempty bind]. eexists. split; [reflexivity|].
  assert (K := consecutive xw _ _ cs Mo Hl ltac:(left; apply Rinv_0_lt_compat, pow_lt; lra) (y :: xs) x0 M I HM HI). exact K.
Qed.
Print Assumptions C88_orders.
Print Assumptions C88_polynomial.
Print Assumptions C88_near_best.
Print Assumptions C88_inside.
Print Assumptions C88_positive.
Print Assumptions C88_linear.
Print Assumptions C88_reversed.
Print Assumptions C88_arrays.
Print Assumptions C88_shared_limit.
Print Assumptions C88_shapes.
Print Assumptions C88_sum_intervals.
(** x^3 over [1, 3] with two points: 20. *)
Example C88_witness : exists v, gl_quad (poly [0; 0; 0; 1]) [1] [3] 2 = Ok [v] /\ Rabs (v - 20) <= / 10 ^ 24 * 27.
Proof.
  destruct (C88_polynomial 2 [0; 0; 0; 1] 1 3 20) as (v & H & B); [cbn; auto|cbn; lia| |].
  - assert (P := poly_is_int [0; 0; 0; 1] 0 1 3). cbn in P. apply (is_RInt_ext _ (poly [0; 0; 0; 1])) in P; [|intros; cbn; ring].
    match type of P with is_RInt _ _ _ ?u => replace u with 20 in P by field end. exact P.
  - exists v. split; auto. apply Rle_trans with (1 := B). right. rewrite (Rabs_pos_eq ((3 - 1) / 2)), !(Rabs_pos_eq 1), (Rabs_pos_eq 3), Rmax_right by lra. unfold poly_size. cbn [map poly]. rewrite Rabs_R0, (Rabs_pos_eq 1) by lra. field.
Qed.

(** ** C89 gk_quad *)
Theorem C89_orders : forall f a b n, (exists v e, gk_quad f [a] [b] n = Ok ([v], [e])) /\ In n [7; 10; 15; 20; 25; 30]%Z \/
  gk_quad f [a] [b] n = Err ValueError /\ ~ In n [7; 10; 15; 20; 25; 30]%Z.
Proof.
  intros f a b n. rewrite <- gk_allowed_iff. destruct (in_dec Z.eq_dec n gk_allowed) as [H|H].
  - left. split; auto. destruct (gk_full n H) as (xi & w1 & w2 & E & _). unfold gk_quad. rewrite E. eexists _, _. reflexivity.
  - right. split; auto. unfold gk_quad. rewrite gk_not by auto. reflexivity.
Qed.
(** Degree up to 3n+1 over every interval. *)
Theorem C89_polynomial : forall n cs a b I, In n gk_allowed -> (length cs <= 3 * Z.to_nat n + 2)%nat -> is_RInt (poly cs) a b I ->
  exists v e, gk_quad (poly cs) [a] [b] n = Ok ([v], [e]) /\ Rabs (v - I) <= / 10 ^ 24 * Rabs ((b - a) / 2) * poly_size cs (Rmax (Rabs a) (Rabs b)).
Proof.
  intros n cs a b I Hn Hl HI. destruct (gk_full n Hn) as (xi & w1 & w2 & E & M1 & M2 & _). unfold gk_quad. rewrite E. eexists _, _. split; [reflexivity|]. cbn [fst snd].
  apply (rule_polynomial _ (3 * Z.to_nat n + 2)); auto.
Qed.
(** The error estimate vanishes (to rounding of the table) for degree below 2n, and is never negative. *)
Theorem C89_estimate_small : forall n cs a b, In n gk_allowed -> (length cs <= 2 * Z.to_nat n)%nat ->
  exists v e, gk_quad (poly cs) [a] [b] n = Ok ([v], [e]) /\ 0 <= e <= 2 * / 10 ^ 24 * Rabs ((b - a) / 2) * poly_size cs (Rmax (Rabs a) (Rabs b)).
Proof.
  intros n cs a b Hn Hl. destruct (gk_full n Hn) as (xi & w1 & w2 & E & M1 & M2 & _). unfold gk_quad. rewrite E. eexists _, _. split; [reflexivity|]. cbn [fst snd].
  split; [apply Rabs_pos|].
  assert (P := poly_is_int cs 0 a b). apply (is_RInt_ext _ (poly cs)) in P; [|intros; cbn; ring].
  assert (B1 := rule_polynomial _ _ _ cs a b _ M1 Hl P). assert (B2 := rule_polynomial _ _ _ cs a b _ M2 ltac:(lia) P).
  set (u := rule _ a b (combine xi w1)) in *. set (v := rule _ a b (combine xi w2)) in *. set (p := polyint 0 cs a b) in *.
  replace (v - u) with ((v - p) + - (u - p)) by ring. assert (T := Rabs_triang (v - p) (- (u - p))). rewrite Rabs_Ropp in T. lra.
Qed.
(** The estimate is the difference from the n point Gauss-Legendre value. *)
Theorem C89_estimate : forall n f a b v e w, In n [7; 10; 15; 20]%Z -> gk_quad f [a] [b] n = Ok ([v], [e]) -> gl_quad f [a] [b] n = Ok [w] -> e = Rabs (v - w).
Proof.
  intros n f a b v e w Hn H1 H2. assert (Hk : In n gk_allowed) by (apply gk_allowed_iff; cbn [In] in *; tauto).
  destruct (gk_full n Hk) as (xi & w1 & w2 & E & _ & _ & _ & _ & S). destruct (S Hn) as (xw & El & R). unfold gk_quad in H1. unfold gl_quad in H2. rewrite E in H1. rewrite El in H2. cbn in H1, H2.
  injection H2 as <-. injection H1 as <- <-. rewrite <- R. reflexivity.
Qed.
Theorem C89_near_best : forall n f cs a b I delta, In n gk_allowed -> (length cs <= 3 * Z.to_nat n + 2)%nat -> a <= b -> is_RInt f a b I ->
  (forall x, a <= x <= b -> Rabs (f x - poly cs x) <= delta) ->
  exists v e, gk_quad f [a] [b] n = Ok ([v], [e]) /\
   Rabs (v - I) <= delta * (2 + / 10 ^ 24) * (b - a) + / 10 ^ 24 * ((b - a) / 2) * poly_size cs (Rmax (Rabs a) (Rabs b)).
Proof.
  intros n f cs a b I delta Hn Hl Hab HI Hd. destruct (gk_full n Hn) as (xi & w1 & w2 & E & M1 & M2 & P & _). unfold gk_quad. rewrite E. eexists _, _. split; [reflexivity|]. cbn [fst snd].
  apply (rule_approx f _ (3 * Z.to_nat n + 2)); auto. lia.
Qed.
Theorem C89_inside : forall n f g a b, (forall x, Rmin a b < x < Rmax a b -> f x = g x) -> gk_quad f [a] [b] n = gk_quad g [a] [b] n.
Proof.
  intros n f g a b H. unfold gk_quad. destruct (in_dec Z.eq_dec n gk_allowed) as [Hn|Hn]; [|rewrite gk_not by auto; reflexivity].
  destruct (gk_full n Hn) as (xi & w1 & w2 & E & _ & _ & P2 & P1 & _). rewrite E. cbn.
  rewrite (rule_inside f g a b (combine xi w1)), (rule_inside f g a b (combine xi w2)); auto. rewrite List.Forall_forall in *. intros e He. apply P2. auto.
Qed.
Theorem C89_arrays : forall n f la lb, In n gk_allowed -> length la = length lb -> la <> [] ->
  exists vs es, gk_quad f la lb n = Ok (vs, es) /\ length vs = length la /\ length es = length la /\
   forall i, (i < length la)%nat -> gk_quad f [nth i la 0] [nth i lb 0] n = Ok ([nth i vs 0], [nth i es 0]).
Proof.
  intros n f la lb Hn Hl He. destruct (gk_full n Hn) as (xi & w1 & w2 & E & _). unfold gk_quad. rewrite E. cbn [bind]. rewrite broadcast_same by auto. cbn [bind].
  assert (Lc : length (combine la lb) = length la) by (rewrite combine_length; lia).
  destruct (combine la lb) as [|p c] eqn:C; [destruct la; [congruence|discriminate]|]. cbn [nonempty bind]. rewrite <- C in Lc |- *. eexists _, _. split; [reflexivity|].
  split; [rewrite map_length; auto|]. split; [rewrite map_length, combine_length, !map_length; lia|].
  assert (D : forall l : list (R * R), combine (map (fun e => rule f (fst e) (snd e) (combine xi w1)) l) (map (fun e => rule f (fst e) (snd e) (combine xi w2)) l) =
    map (fun e => (rule f (fst e) (snd e) (combine xi w1), rule f (fst e) (snd e) (combine xi w2))) l) by (intros l; induction l as [|x l IH]; [reflexivity|]; cbn; rewrite IH; reflexivity).
  rewrite D, map_map. cbn [fst snd]. intros i Hi. cbn. do 2 f_equal; f_equal.
  - rewrite (nth_indep (map _ _) 0 (rule f (fst (0, 0)) (snd (0, 0)) (combine xi w2))) by (rewrite map_length; lia).
    rewrite (map_nth (fun e => rule f (fst e) (snd e) (combine xi w2))). rewrite combine_nth by auto. reflexivity.
  - set (F := fun e : R * R => Rabs (rule f (fst e) (snd e) (combine xi w2) - rule f (fst e) (snd e) (combine xi w1))).
    rewrite (nth_indep (map _ _) 0 (F (0, 0))) by (rewrite map_length; lia). rewrite (map_nth F). rewrite combine_nth by auto. reflexivity.
Qed.
Theorem C89_sum_intervals : forall n cs x0 xs M I, In n gk_allowed -> (length cs <= 3 * Z.to_nat n + 2)%nat -> xs <> [] ->
  (forall x, In x (x0 :: xs) -> Rabs x <= M) -> is_RInt (poly cs) x0 (last xs x0) I ->
  exists v e, gk_quad_sum (poly cs) (removelast (x0 :: xs)) xs n = Ok (v, e) /\ 0 <= e /\ Rabs (v - I) <= / 10 ^ 24 * steps x0 xs * poly_size cs M.
Proof.
  intros n cs x0 xs M I Hn Hl Hx HM HI. destruct (gk_full n Hn) as (xi & w1 & w2 & E & _ & M2 & _). unfold gk_quad_sum, gk_quad. rewrite E. cbn [bind].
  assert (L : forall (x : R) l, length (removelast (x :: l)) = length l) by (intros x l; revert x; induction l as [|y l IH]; intros x; [reflexivity|]; change (removelast (x :: y :: l)) with (x :: removelast (y :: l)); cbn [length]; rewrite IH; reflexivity).
  rewrite broadcast_same by apply L. cbn [bind]. destruct xs as [|y xs]; [congruence|].
  change (removelast (x0 :: y :: xs)) with (x0 :: removelast (y :: xs)). cbn [combine nonempty bind]. eexists _, _. split; [reflexivity|].
  split; [cbn [fst snd]; apply rsum_nonneg; intros; apply Rabs_pos|].
  assert (K := consecutive _ _ _ cs M2 Hl ltac:(left; apply Rinv_0_lt_compat, pow_lt; lra) (y :: xs) x0 M I HM HI). exact K.
Qed.
Print Assumptions C89_orders.
Print Assumptions C89_polynomial.
Print Assumptions C89_estimate_small.
Print Assumptions C89_estimate.
Print Assumptions C89_near_best.
Print Assumptions C89_inside.
Print Assumptions C89_arrays.
Print Assumptions C89_sum_intervals.
Example C89_witness : In 10%Z gk_allowed /\ (length [1; 2; 3] <= 3 * Z.to_nat 10 + 2)%nat.
Proof. split; [cbn; auto|cbn; lia]. Qed.

(** * C143: vcosine_transform, v2dcosine_transform *)
From Coq Require Import Reals List Arith ZArith Bool Lia Lra Sorting.
From Coquelicot Require Import Coquelicot.
From Verif Require Import Base QuadratureGen QuadratureModel SteinModel SpecQuadrature QuadratureProofs QuadratureProofs2 QuadratureProofs3 QuadratureProofs4 PropsQuadrature FourierModel SpecFourier FourierProofs2.
Import ListNotations.
Local Open Scope R_scope.

Lemma sorted_from (g : nat -> R) (j n : nat) : (forall i k, (i < k)%nat -> g i < g k) -> sorted (map g (seq j n)).
Proof.
  intros H. revert j. induction n as [|n IH]; intros j; [constructor|]. cbn [seq map]. constructor; [apply IH|]. rewrite List.Forall_forall. intros x Hx. apply in_map_iff in Hx. destruct Hx as (k & <- & Hk).
  apply in_seq in Hk. apply H. lia.
Qed.
Lemma cos_zeros_sorted m : sorted (cos_zeros m).
Proof.
  unfold cos_zeros. assert (P := PI_RGT_0). constructor; [apply sorted_from; intros i k Hik; apply lt_INR in Hik; nra|]. rewrite List.Forall_forall. intros x Hx. apply in_map_iff in Hx. destruct Hx as (k & <- & _).
  assert (K := pos_INR k). nra.
Qed.
Lemma cos_points_eq m s : 0 < s -> map (fun z => z / s) (cos_zeros m) = cos_points m s.
Proof.
  intros Hs. unfold cos_zeros, cos_points. cbn [map]. rewrite map_map. f_equal; [unfold Rdiv; ring|]. apply map_ext. intros k. field. lra.
Qed.
Lemma cos_last m : (0 < m)%nat -> last (map (fun k => (2 * INR k + 1) * (PI / 2)) (seq 0 m)) 0 = (2 * INR m - 1) * PI / 2.
Proof. intros H. destruct m as [|m]; [lia|]. rewrite seq_S, map_app. cbn [map]. rewrite last_last. rewrite S_INR, Nat.add_0_l. field. Qed.
(** the points really are 0 and zeros of the kernel *)
Theorem C143_points m s x : 0 < s -> In x (cos_points m s) -> x = 0 \/ cos (s * x) = 0.
Proof.
  intros Hs [<-|Hx]; [left; auto|right]. apply in_map_iff in Hx. destruct Hx as (k & <- & _). replace (s * ((2 * INR k + 1) * PI / (2 * s))) with (PI / 2 + INR k * PI) by (field; lra).
  rewrite cos_plus, cos_PI2. replace (sin (INR k * PI)) with 0; [ring|]. symmetry. apply sin_eq_0_1. exists (Z.of_nat k). rewrite <- INR_IZR_INZ. reflexivity.
Qed.
(** *** Without extrapolation: one value for each s, off the integral of f(x) cos(s x) from 0 to the last point by no
    more than what quadrature over the panels can be wrong *)
Theorem C143_value (f : R -> R) (si : list R) (m : nat) (ng : Z) : In ng gl_allowed -> (0 < m)%nat -> (forall s, In s si -> 0 < s) ->
  exists vs, vcosine_transform f si m ng None = Ok vs /\ length vs = length si /\
  forall i, (i < length si)%nat -> forall delta M (I : R), let s := nth i si 0 in let top := (2 * INR m - 1) * PI / (2 * s) in
    near_pieces (2 * Z.to_nat ng) delta M (fun x => f x * cos (s * x)) (cos_points m s) ->
    is_RInt (fun x => f x * cos (s * x)) 0 top I ->
    Rabs (nth i vs 0 - I) <= (delta * (2 + / 10 ^ 24) + / 10 ^ 24 / 2 * M) * top.
Proof.
  intros Hn Hm Hs. unfold vcosine_transform. destruct (vtransform_error (fun s x => cos (s * x)) f 0 (map (fun k => (2 * INR k + 1) * (PI / 2)) (seq 0 m)) ng si Hn (cos_zeros_sorted m) Hs) as (vs & E & L & H).
  exists vs. split; [exact E|]. split; [exact L|]. intros i Hi delta M I HN HI. set (s := nth i si 0) in *. set (top := (2 * INR m - 1) * PI / (2 * s)) in *.  specialize (H i Hi delta M I). cbv zeta in H. fold s in H. assert (S0 : 0 < s) by (apply Hs, nth_In; auto).
  change (map (fun z : R => z / s) (0 :: map (fun k : nat => (2 * INR k + 1) * (PI / 2)) (seq 0 m))) with (map (fun z => z / s) (cos_zeros m)) in H. rewrite cos_points_eq in H by auto. rewrite cos_last in H by auto.
  replace ((2 * INR m - 1) * PI / 2 / s) with top in H by (unfold top; field; lra). replace (0 / s) with 0 in H by (unfold Rdiv; ring). rewrite Rminus_0_r in H. auto.
Qed.
(** the quadrature order is refused or not as by gl_quad *)
Theorem C143_orders f si m ng sh : ~ In ng gl_allowed -> vcosine_transform f si m ng sh = Err ValueError.
Proof. intros H. unfold vcosine_transform, vtransform. rewrite gl_not by auto. reflexivity. Qed.
(** each s on its own *)
Theorem C143_pointwise f si m ng : vcosine_transform f si m ng None = bind (gauss_legendre ng) (fun _ => bind (mapM (fun s => vcosine_transform f [s] m ng None) si) (fun l => Ok (concat l))).
Proof.
  unfold vcosine_transform, vtransform. destruct (gauss_legendre ng) as [xw|e]; [|reflexivity]. cbn [bind].
  assert (K : forall l : list R, mapM (fun s => Ok (map rsum (map (fun s0 => panel_sums (fun x => f x * cos (s0 * x)) xw (panels (cos_zeros m) s0)) [s]))) l
            = Ok (map (fun s => [rsum (panel_sums (fun x => f x * cos (s * x)) xw (panels (cos_zeros m) s))]) l)).
  { induction l as [|s l IH]; [reflexivity|]. cbn [mapM]. rewrite IH. reflexivity. }
  rewrite K. cbn [bind]. f_equal. induction si as [|s l IH]; [reflexivity|]. cbn [map concat app]. f_equal. exact IH.
Qed.
(** *** Extrapolated: where the partial sums for every s settle geometrically, their limits *)
Definition geometric_from (i : nat) (l : list R) (L : R) : Prop :=
  exists a q, a <> 0 /\ q <> 0 /\ q <> 1 /\ forall k, (i <= k < length l)%nat -> nth k l 0 = L + a * q ^ k.
Lemma rows_const (i n fuel : nat) (ls : list (list R)) Ls : (i + 2 <= n)%nat -> ls <> [] -> Forall2 (fun l L => length l = n /\ forall k, (i <= k < n)%nat -> nth k l 0 = L) ls Ls ->
  shanks_rows_loop fuel i n ls = ls.
Proof.
  intros Hi Hne HF. destruct fuel as [|fuel]; [reflexivity|]. cbn [shanks_rows_loop]. destruct (Nat.ltb_spec i (n - 2)); [|reflexivity].
  replace (existsb _ ls) with true; [reflexivity|]. symmetry. destruct HF as [|l L lr Lr [Hl HL] _]; [congruence|]. apply existsb_exists. exists l. split; [left; auto|]. apply existsb_exists.
  exists (nth 0 (triples (skipn i l)) (0, 0, 0)). split.
  - apply nth_In. rewrite triples_length, skipn_length. lia.
  - rewrite triples_nth by (rewrite skipn_length; lia). rewrite !nth_skipn. cbn [denom]. rewrite !HL by lia. apply Reqb_true. ring.
Qed.
Lemma geometric_denoms i l L : geometric_from i l L -> existsb (fun t => Reqb (denom t) 0) (triples (skipn i l)) = false.
Proof.
  intros (a & q & Ha & Hq & Hq1 & H). destruct existsb eqn:E; [exfalso|reflexivity]. apply existsb_exists in E. destruct E as (t & Ht & E). apply Reqb_true in E.
  destruct (In_nth _ _ (0, 0, 0) Ht) as (k & Hk & E2). rewrite triples_length, skipn_length in Hk.
  rewrite triples_nth in E2 by (rewrite skipn_length; lia). rewrite !nth_skipn in E2. rewrite !H in E2 by lia. rewrite <- E2 in E.
  rewrite !Nat.add_assoc in E. rewrite denom_geo in E. apply Rmult_integral in E. destruct E as [E|E]; [|apply pow_nonzero in E; [auto|lra]].
  apply Rmult_integral in E. destruct E as [E|E]; [auto|]. apply (pow_nonzero q (i + k)); auto.
Qed.
Lemma geometric_next i l L : geometric_from i l L -> (i + 3 <= length l)%nat -> let l' := firstn (i + 2) l ++ map shank (triples (skipn i l)) in
  length l' = length l /\ forall k, (i + 2 <= k < length l)%nat -> nth k l' 0 = L.
Proof.
  intros G Hi l'. assert (D := geometric_denoms i l L G). destruct G as (a & q & Ha & Hq & Hq1 & H). split.
  - unfold l'. rewrite app_length, firstn_length, map_length, triples_length, skipn_length. lia.
  - intros k Hk. unfold l'. rewrite app_nth2 by (rewrite firstn_length; lia). rewrite firstn_length, Nat.min_l by lia. set (j := (k - (i + 2))%nat).
    assert (Hj : (j < length (triples (skipn i l)))%nat) by (rewrite triples_length, skipn_length; unfold j; lia).
    rewrite (nth_indep (map shank (triples (skipn i l))) 0 (shank (0, 0, 0))) by (rewrite map_length; auto). rewrite map_nth.
    assert (Dj : denom (nth j (triples (skipn i l)) (0, 0, 0)) <> 0).
    { intros E. apply Bool.not_true_iff_false in D. apply D. apply existsb_exists. exists (nth j (triples (skipn i l)) (0, 0, 0)). split; [apply nth_In; auto|apply Reqb_true; auto]. }
    rewrite triples_nth in * by (rewrite skipn_length; unfold j; lia). rewrite !nth_skipn in *. rewrite !H in * by (unfold j; lia). rewrite !Nat.add_assoc in *. apply shank_geo. exact Dj.
Qed.
Lemma rows_nil fuel : forall i n, shanks_rows_loop fuel i n [] = [].
Proof. induction fuel as [|k IH]; intros i n; [reflexivity|]. cbn [shanks_rows_loop existsb map]. destruct (Nat.ltb i (n - 2)); auto. Qed.
Lemma last_L n l L : (0 < n)%nat -> length l = n -> nth (n - 1) l 0 = L -> get_last l = Ok L.
Proof. intros H1 H2 H3. rewrite (get_last_nth l 0) by (intros ->; cbn in H2; lia). rewrite H2, H3. reflexivity. Qed.
Lemma shanks_rows_geometric (i n : nat) ls Ls : (i + 3 <= n)%nat -> Forall2 (fun l L => length l = n /\ geometric_from i l L) ls Ls -> shanks_rows n ls (Z.of_nat i) = Ok Ls.
Proof.
  intros Hi HF. unfold shanks_rows. destruct (Z.ltb_spec (Z.of_nat i) 0); [lia|]. rewrite Z.max_l, Nat2Z.id by lia.
  assert (Q : exists ls', shanks_rows_loop n i n ls = ls' /\ Forall2 (fun l L => length l = n /\ nth (n - 1) l 0 = L) ls' Ls).
  { destruct n as [|k]; [lia|]. cbn [shanks_rows_loop]. destruct (Nat.ltb_spec i (S k - 2)); [|lia]. replace (existsb _ ls) with false.
    2: { symmetry. clear - HF. induction HF as [|l L lr Lr [_ H] HF IH]; [reflexivity|]. cbn [existsb]. rewrite (geometric_denoms i l L H). exact IH. }
    set (ls2 := map _ ls). assert (F2 : Forall2 (fun l L => length l = S k /\ forall j, (i + 2 <= j < S k)%nat -> nth j l 0 = L) ls2 Ls).
    { unfold ls2. clear - HF Hi. induction HF as [|l L lr Lr [Hl H] HF IH]; [constructor|]. cbn [map]. constructor; [|exact IH].
      destruct (geometric_next i l L H ltac:(lia)) as [N1 N2]. split; [lia|]. intros j Hj. apply N2. lia. }
    exists ls2. split.
    - destruct ls2 as [|u v] eqn:E; [apply rows_nil|]. destruct (Nat.leb_spec (i + 2 + 2) (S k)).
      + apply (rows_const _ _ _ _ Ls); auto. discriminate.
      + destruct k as [|k]; [reflexivity|]. cbn [shanks_rows_loop]. destruct (Nat.ltb_spec (i + 2) (S (S k) - 2)); [lia|reflexivity].
    - clear - F2 Hi. induction F2 as [|l L lr Lr [H1 H2] HF IH]; constructor; auto. split; auto. apply H2. lia. }
  destruct Q as (ls' & -> & F2). clear - F2 Hi. induction F2 as [|l L lr Lr [H1 H2] HF IH]; [reflexivity|]. cbn [mapM]. rewrite (last_L n l L) by (auto; lia). cbn [bind]. rewrite IH. reflexivity.
Qed.
(** the sums over the first k panels *)
Definition partial_sums (f : R -> R) (m : nat) (ng : Z) (s : R) (l : list R) : Prop :=
  length l = m /\ forall k, (k < m)%nat -> vcosine_transform f [s] (S k) ng None = Ok [nth k l 0].
Lemma nth_cums l : forall acc k, (k < length l)%nat -> nth k (cumsum acc l) 0 = acc + rsum (firstn (S k) l).
Proof.
  induction l as [|a l IH]; intros acc k Hk; [cbn in Hk; lia|]. cbn [cumsum]. destruct k as [|k].
  - cbn [nth firstn]. cbn. ring.
  - cbn [nth]. rewrite IH by (cbn in Hk; lia). cbn [firstn]. change (rsum (a :: ?x)) with (a + rsum x). ring.
Qed.
Lemma cumsum_len l : forall acc, length (cumsum acc l) = length l. Proof. induction l; intros; cbn; auto. Qed.
Lemma pairs_firstn {A} (l : list A) : forall k, pairs (firstn (S k) l) = firstn k (pairs l).
Proof.
  induction l as [|a [|b l] IH]; intros k; [destruct k; reflexivity|destruct k; reflexivity|]. destruct k as [|k]; [reflexivity|].
  change (firstn (S (S k)) (a :: b :: l)) with (a :: b :: firstn k l). rewrite !pairs_cons2. cbn [firstn]. f_equal. apply (IH k).
Qed.
Lemma cos_zeros_firstn m k : (k <= m)%nat -> cos_zeros k = firstn (S k) (cos_zeros m).
Proof. intros H. unfold cos_zeros. cbn [firstn]. f_equal. rewrite firstn_map. f_equal. replace m with (k + (m - k))%nat by lia. rewrite seq_app, firstn_app, seq_length, Nat.sub_diag, firstn_O, app_nil_r. symmetry. apply firstn_all2. rewrite seq_length. lia. Qed.
Lemma partial_sums_are f m ng s xw l : gauss_legendre ng = Ok xw -> partial_sums f m ng s l ->
  l = cumsum 0 (panel_sums (fun x => f x * cos (s * x)) xw (panels (cos_zeros m) s)).
Proof.
  intros E [Hl H]. assert (LP : length (panels (cos_zeros m) s) = m).
  { unfold panels. rewrite map_length, <- pairs_combine, combine_length. unfold cos_zeros. cbn [tl]. rewrite map_length, seq_length.
    assert (G : forall (x : R) l, length (removelast (x :: l)) = length l) by (intros x t; revert x; induction t as [|y t IH]; intros x; [reflexivity|]; change (removelast (x :: y :: t)) with (x :: removelast (y :: t)); cbn [length]; rewrite IH; reflexivity).
    rewrite G, map_length, seq_length. lia. }
  apply (nth_ext _ _ 0 0); [rewrite cumsum_len; unfold panel_sums; rewrite map_length; lia|]. intros k Hk. rewrite Hl in Hk. specialize (H k Hk).
  unfold vcosine_transform, vtransform in H. rewrite E in H. rewrite (cos_zeros_firstn m (S k)) in H by lia. cbn [bind map] in H. injection H as <-. rewrite nth_cums by (unfold panel_sums; rewrite map_length; lia). rewrite Rplus_0_l. f_equal.
  unfold panel_sums, panels. rewrite !firstn_map. f_equal. f_equal. exact (pairs_firstn (cos_zeros m) (S k)).
Qed.
Theorem C143_extrapolated (f : R -> R) (si : list R) (m : nat) (ng : Z) (i : nat) (Ls : list R) : In ng gl_allowed -> (i + 3 <= m)%nat ->
  Forall2 (fun s L => exists l, partial_sums f m ng s l /\ geometric_from i l L) si Ls ->
  vcosine_transform f si m ng (Some (Z.of_nat i)) = Ok Ls.
Proof.
  intros Hn Hi HF. destruct (gl_rule ng Hn) as (xw & E & _). unfold vcosine_transform, vtransform. rewrite E. cbn [bind]. replace (length (cos_zeros m) - 1)%nat with m by (unfold cos_zeros; cbn [length]; rewrite map_length, seq_length; lia).
  apply shanks_rows_geometric; auto. rewrite map_map. clear - HF E. induction HF as [|s L sr Lr (l & P & G) HF IH]; [constructor|]. cbn [map]. constructor; [|exact IH].
  rewrite <- (partial_sums_are f m ng s xw l E P). split; [apply P|exact G].
Qed.
(** *** Two dimensions: the transform in y inside the transform in x; so a product of functions gives the product of transforms *)
Theorem C143_iterated (f : R -> R -> R) (s1 s2 : list R) (m : nat) (ng : Z) : In ng gl_allowed ->
  exists rows W, v2dcosine_transform f s1 s2 m ng = Ok rows /\ length rows = length s1 /\
   (forall x, vcosine_transform (f x) s2 m ng None = Ok (W x)) /\
   (forall i j, (i < length s1)%nat -> (j < length s2)%nat -> length (nth i rows []) = length s2 /\
      vcosine_transform (fun x => nth j (W x) 0) [nth i s1 0] m ng None = Ok [nth j (nth i rows []) 0]).
Proof.
  intros Hn. destruct (gl_rule ng Hn) as (xw & E & _). unfold v2dcosine_transform. rewrite E. cbn [bind].
  exists (map (fun s => map (fun t => rsum (map (fun p => rule (fun x => rsum (map (fun q => rule (fun y => f x y * cos (t * y)) (fst q) (snd q) xw) (panels (cos_zeros m) t)) * cos (s * x)) (fst p) (snd p) xw) (panels (cos_zeros m) s))) s2) s1).
  exists (fun x => map (fun t => rsum (map (fun q => rule (fun y => f x y * cos (t * y)) (fst q) (snd q) xw) (panels (cos_zeros m) t))) s2).
  split; [|split; [apply map_length|split]].
  - f_equal. apply map_ext. intros s. apply map_ext. intros t. f_equal. apply map_ext. intros p. unfold rule at 1. cbv zeta. f_equal. apply map_ext. intros e.
    set (bma := (snd p - fst p) / 2). set (x := bma * fst e + (fst p + snd p) / 2).
    replace (bma * (rsum (map (fun q => rule (fun y => f x y * cos (t * y)) (fst q) (snd q) xw) (panels (cos_zeros m) t)) * cos (s * x)) * snd e)
      with ((bma * cos (s * x) * snd e) * rsum (map (fun q => rule (fun y => f x y * cos (t * y)) (fst q) (snd q) xw) (panels (cos_zeros m) t))) by ring.
    rewrite <- rsum_scal, map_map. f_equal. apply map_ext. intros q. unfold rule. cbv zeta. rewrite <- rsum_scal, map_map. f_equal. apply map_ext. intros h. ring.
  - intros x. unfold vcosine_transform. rewrite (vtransform_plain _ _ _ _ _ _ E). f_equal. apply map_ext. intros t. rewrite panels_pairs. reflexivity.
  - intros i j Hi Hj. set (F := fun s : R => map _ s2). assert (EF : nth i (map F s1) [] = F (nth i s1 0)) by (rewrite (nth_indep _ [] (F 0)) by (rewrite map_length; auto); apply map_nth). rewrite EF. split; [apply map_length|].
    set (s := nth i s1 0). unfold F. match goal with |- context [Ok [nth j (map ?G0 s2) 0]] => set (G := G0) end. rewrite (nth_indep (map G s2) 0 (G 0)) by (rewrite map_length; auto). rewrite map_nth.
    unfold vcosine_transform. rewrite (vtransform_plain _ _ _ _ _ _ E). cbn [map]. do 2 f_equal. unfold G. rewrite <- panels_pairs. f_equal. apply map_ext. intros p. apply rule_ext. intros x. f_equal.
    set (K := fun t : R => rsum _). rewrite (nth_indep (map K s2) 0 (K 0)) by (rewrite map_length; auto). rewrite map_nth. reflexivity.
Qed.
Lemma vt_scal kernel zeros f si ng c vs : vtransform kernel zeros f si ng None = Ok vs -> vtransform kernel zeros (fun x => c * f x) si ng None = Ok (map (fun v => c * v) vs).
Proof.
  intros H. destruct (gauss_legendre ng) as [xw|e] eqn:E; [|unfold vtransform in H; rewrite E in H; discriminate]. rewrite (vtransform_plain _ _ f _ _ _ E) in H. rewrite (vtransform_plain _ _ (fun x => c * f x) _ _ _ E). injection H as <-. f_equal. rewrite map_map. apply map_ext. intros s.
  rewrite <- rsum_scal, map_map. f_equal. apply map_ext. intros p. rewrite <- rule_scal. apply rule_ext. intros; ring.
Qed.
Lemma ok_inj {A} (a b : A) : Ok a = Ok b -> a = b. Proof. congruence. Qed.
Theorem C143_product (f g : R -> R) (s1 s2 : list R) (m : nat) (ng : Z) (u v : list R) :
  vcosine_transform f s1 m ng None = Ok u -> vcosine_transform g s2 m ng None = Ok v ->
  v2dcosine_transform (fun x y => f x * g y) s1 s2 m ng = Ok (map (fun a => map (fun b => a * b) v) u).
Proof.
  intros Hu Hv. assert (Hn : In ng gl_allowed). { destruct (in_dec Z.eq_dec ng gl_allowed) as [H|H]; auto. rewrite (C143_orders f s1 m ng None H) in Hu. discriminate. }
  destruct (gl_rule ng Hn) as (xw & E & _). unfold v2dcosine_transform, vcosine_transform in *. rewrite (vtransform_plain _ _ _ _ _ _ E) in Hu. rewrite (vtransform_plain _ _ _ _ _ _ E) in Hv. apply ok_inj in Hu. apply ok_inj in Hv. subst u v. rewrite E. cbn [bind]. f_equal.
  rewrite map_map. apply map_ext. intros s. rewrite map_map. apply map_ext. intros t. rewrite <- (panels_pairs (cos_zeros m) s), <- (panels_pairs (cos_zeros m) t). set (B := rsum (map (fun p : R * R => rule (fun x : R => g x * cos (t * x)) (fst p) (snd p) xw) (panels (cos_zeros m) t))). rewrite (Rmult_comm _ B), <- rsum_scal, map_map. f_equal. apply map_ext. intros p.
  unfold rule at 1. cbv zeta. rewrite <- rsum_scal, map_map. f_equal. apply map_ext. intros e. set (x := (snd p - fst p) / 2 * fst e + (fst p + snd p) / 2).
  rewrite (Rmult_comm B). unfold B. rewrite <- rsum_scal, map_map. f_equal. apply map_ext. intros q. unfold rule. cbv zeta. rewrite <- rsum_scal, map_map. f_equal. apply map_ext. intros h. ring.
Qed.
(** *** Defect: with extrapolation the values for one s depend on the other s asked for in the same call *)
Definition bump (x : R) : R := if Rltb x (15 * PI) then 0 else / cos (1 / 10 * x).
Lemma bump_low a b xw s : List.Forall (fun e => -1 < fst e < 1 /\ 0 < snd e) xw -> a <= b -> b <= 15 * PI -> rule (fun x => bump x * cos (s * x)) a b xw = 0.
Proof.
  intros HF Hab Hb. rewrite (rule_inside _ (fun _ => 0) a b xw); [apply rule_0| |].
  - rewrite List.Forall_forall in *. intros e He. apply HF. auto.
  - intros x Hx. rewrite Rmin_left, Rmax_right in Hx by lra. unfold bump. rewrite (proj2 (Rltb_true x (15 * PI))) by lra. ring.
Qed.
Lemma bump_high xw : List.Forall (fun e => -1 < fst e < 1 /\ 0 < snd e) xw -> moments xw 4 (/ 10 ^ 24) -> rule (fun x => bump x * cos (1 / 10 * x)) (15 * PI) (25 * PI) xw > 0.
Proof.
  intros HF HM. assert (P := PI_RGT_0). rewrite (rule_inside _ (fun _ => 1) _ _ xw).
  - assert (K := rule_const 1 (15 * PI) (25 * PI) xw 4 (/ 10 ^ 24) HM ltac:(lia)). rewrite Rabs_R1, (Rabs_pos_eq ((25 * PI - 15 * PI) / 2)) in K by lra. apply Rabs_le_between in K.
    assert (/ 10 ^ 24 <= 1) by (rewrite <- Rinv_1; apply Rinv_le_contravar; [lra|apply pow_R1_Rle; lra]). set (r := rule _ _ _ _) in *. nra.
  - rewrite List.Forall_forall in *. intros e He. apply HF. auto.
  - intros x Hx. rewrite Rmin_left, Rmax_right in Hx by lra. unfold bump. rewrite (proj2 (Rltb_false x (15 * PI))) by lra. apply Rinv_l.
    apply Rgt_not_eq. replace (cos (1 / 10 * x)) with (cos (1 / 10 * x - 2 * PI)).
    + apply cos_gt_0; lra.
    + rewrite cos_minus, cos_2PI, sin_2PI. ring.
Qed.

Lemma panels3 s : 0 < s -> panels (cos_zeros 3) s = [(0, PI / (2 * s)); (PI / (2 * s), 3 * PI / (2 * s)); (3 * PI / (2 * s), 5 * PI / (2 * s))].
Proof. intros Hs. rewrite panels_pairs, cos_points_eq by auto. unfold cos_points. cbn [seq map INR]. rewrite !pairs_cons2. cbn [pairs]. repeat (apply f_equal2; [apply f_equal2; try reflexivity; field; lra|]). reflexivity. Qed.
Lemma bump_row xw s : List.Forall (fun e => -1 < fst e < 1 /\ 0 < snd e) xw -> 0 < s ->
  cumsum 0 (panel_sums (fun x => bump x * cos (s * x)) xw (panels (cos_zeros 3) s)) =
  [0 + rule (fun x => bump x * cos (s * x)) 0 (PI / (2 * s)) xw; 0 + rule (fun x => bump x * cos (s * x)) 0 (PI / (2 * s)) xw + rule (fun x => bump x * cos (s * x)) (PI / (2 * s)) (3 * PI / (2 * s)) xw;
   0 + rule (fun x => bump x * cos (s * x)) 0 (PI / (2 * s)) xw + rule (fun x => bump x * cos (s * x)) (PI / (2 * s)) (3 * PI / (2 * s)) xw + rule (fun x => bump x * cos (s * x)) (3 * PI / (2 * s)) (5 * PI / (2 * s)) xw].
Proof. intros _ Hs. rewrite panel_rule, panels3 by auto. reflexivity. Qed.
Theorem C143_together_refuted : exists (f : R -> R) (s t v w : R), vcosine_transform f [t] 3 2 (Some 0%Z) = Ok [v] /\ vcosine_transform f [s; t] 3 2 (Some 0%Z) = Ok [0; w] /\ v <> w.
Proof.
  destruct (gl_rule 2 ltac:(cbn; auto)) as (xw & E & Mo & _ & P). change (2 * Z.to_nat 2)%nat with 4%nat in Mo. assert (HP := PI_RGT_0).
  assert (R1 : cumsum 0 (panel_sums (fun x => bump x * cos (1 * x)) xw (panels (cos_zeros 3) 1)) = [0; 0; 0]).
  { rewrite bump_row by (auto; lra). rewrite !bump_low by (auto; lra). repeat (apply f_equal2; [ring|]). reflexivity. }
  set (w := rule (fun x => bump x * cos (1 / 10 * x)) (15 * PI) (25 * PI) xw). assert (W : w > 0) by (apply bump_high; auto).
  assert (R2 : cumsum 0 (panel_sums (fun x => bump x * cos (1 / 10 * x)) xw (panels (cos_zeros 3) (1 / 10))) = [0; 0; w]).
  { rewrite bump_row by (auto; lra). rewrite !(bump_low _ (3 * PI / (2 * (1 / 10)))), !(bump_low _ (PI / (2 * (1 / 10)))) by (auto; lra).
    replace (3 * PI / (2 * (1 / 10))) with (15 * PI) by field. replace (5 * PI / (2 * (1 / 10))) with (25 * PI) by field. fold w. repeat (apply f_equal2; [ring|]). reflexivity. }
  exists bump, 1, (1 / 10), 0, w. unfold vcosine_transform, vtransform. rewrite E. cbn [bind map]. rewrite R1, R2. change (length (cos_zeros 3) - 1)%nat with 3%nat. split; [|split; [|lra]].
  - unfold shanks_rows. cbn -[Reqb denom shank get_last]. rewrite (proj2 (Reqb_false (denom (0, 0, w)) 0)) by (cbn; lra). cbn [orb]. unfold get_last. cbn [rev app bind mapM]. do 2 f_equal. unfold shank, denom. field. lra.
  - unfold shanks_rows. cbn -[Reqb denom shank get_last]. rewrite (proj2 (Reqb_true (denom (0, 0, 0)) 0)) by (cbn; ring). cbn [orb]. unfold get_last. reflexivity.
Qed.
(** ** The hypotheses are met *)
Example C143_witness_value : exists v, vcosine_transform (fun _ => 1) [2] 3 10 None = Ok [v] /\ Rabs (v - sin (5 * PI / 2) / 2) <= (2 + / 10 ^ 24) * ((2 * INR 3 - 1) * PI / (2 * 2)).
Proof.
  destruct (C143_value (fun _ => 1) [2] 3 10) as (vs & E & L & H); [cbn; tauto|lia|intros s [<-|[]]; lra|].
  destruct vs as [|v [|? ?]]; try discriminate. exists v. split; [exact E|]. specialize (H 0%nat ltac:(cbn; lia) 1 0 (sin (5 * PI / 2) / 2)). cbn [nth] in H.
  eapply Rle_trans; [apply H|right; ring].
  - intros p _. exists []. split; [cbn; lia|]. split; [cbn; lra|]. intros x _. cbn [poly]. rewrite Rminus_0_r, Rmult_1_l. apply Rabs_le. apply COS_bound.
  - replace ((2 * INR 3 - 1) * PI / (2 * 2)) with (5 * PI / 4) by (cbn; field).
    assert (D : is_RInt (fun x => 1 * cos (2 * x)) 0 (5 * PI / 4) (minus ((fun x => sin (2 * x) / 2) (5 * PI / 4)) ((fun x => sin (2 * x) / 2) 0))).
    { apply (is_RInt_derive (V := R_CompleteNormedModule) (fun x => sin (2 * x) / 2)); intros x _; [auto_derive; auto; field|]. apply (ex_derive_continuous (K := R_AbsRing) (V := R_NormedModule)). auto_derive. auto. }
    assert (Z : minus ((fun x => sin (2 * x) / 2) (5 * PI / 4)) ((fun x => sin (2 * x) / 2) 0) = sin (5 * PI / 2) / 2).
    { unfold minus, plus, opp; cbn. rewrite Rmult_0_r, sin_0. replace (2 * (5 * PI / 4)) with (5 * PI / 2) by field. lra. }
    apply (eq_ind _ (fun v => is_RInt (fun x => 1 * cos (2 * x)) 0 (5 * PI / 4) v) D). exact Z.
Qed.
Lemma rule_c c a b xw : rule (fun _ => c) a b xw = c * ((b - a) / 2 * rsum (map snd xw)).
Proof. unfold rule. cbv zeta. rewrite <- !rsum_scal, map_map. f_equal. rewrite map_map. apply map_ext. intros; ring. Qed.
Definition steps_f (x : R) : R := (if Rltb x (3 * PI / 2) then 1 else 2) / cos x.
Example C143_witness_extrapolated : exists L l, partial_sums steps_f 3 2 1 l /\ geometric_from 0 l L /\ vcosine_transform steps_f [1] 3 2 (Some 0%Z) = Ok [L].
Proof.
  destruct (gl_rule 2 ltac:(cbn; auto)) as (xw & E & Mo & _ & P). assert (HP := PI_RGT_0).
  assert (P1 : List.Forall (fun e : R * R => -1 < fst e < 1) xw) by (rewrite List.Forall_forall in *; intros e He; apply P; auto).
  set (W := PI / 2 * rsum (map snd xw)). assert (W0 : W > 0).
  { unfold W. assert (K := Mo 0%nat ltac:(cbn; lia)). replace (map (fun e : R * R => snd e * fst e ^ 0) xw) with (map snd xw) in K by (apply map_ext; intros; cbn; ring). unfold exact in K. cbn in K. apply Rabs_le_between in K.
    assert (/ (10 * (10 * (10 * (10 * (10 * (10 * (10 * (10 * (10 * (10 * (10 * (10 * (10 * (10 * (10 * (10 * (10 * (10 * (10 * (10 * (10 * (10 * (10 * (10 * 1)))))))))))))))))))))))) <= 1) by (rewrite <- Rinv_1; apply Rinv_le_contravar; lra).
    apply Rmult_lt_0_compat; lra. }
  set (g := fun x => steps_f x * cos (1 * x)). set (p0 := rule g 0 (PI / (2 * 1)) xw).
  assert (C : forall x, PI / 2 < x < 5 * PI / 2 -> x <> 3 * PI / 2 -> cos x <> 0).
  { intros x Hx Hn. destruct (Rlt_le_dec x (3 * PI / 2)); [apply Rlt_not_eq; apply cos_lt_0; lra|]. apply Rgt_not_eq. replace (cos x) with (cos (x - 2 * PI)) by (rewrite cos_minus, cos_2PI, sin_2PI; ring). apply cos_gt_0; lra. }
  assert (G1 : rule g (PI / (2 * 1)) (3 * PI / (2 * 1)) xw = W).
  { rewrite (rule_inside g (fun _ => 1) _ _ xw P1); [rewrite rule_c; unfold W; field|]. intros x Hx. rewrite Rmin_left, Rmax_right in Hx by lra. unfold g, steps_f. rewrite (proj2 (Rltb_true x (3 * PI / 2))) by lra. rewrite Rmult_1_l. field. apply C; lra. }
  assert (G2 : rule g (3 * PI / (2 * 1)) (5 * PI / (2 * 1)) xw = 2 * W).
  { rewrite (rule_inside g (fun _ => 2) _ _ xw P1); [rewrite rule_c; unfold W; field|]. intros x Hx. rewrite Rmin_left, Rmax_right in Hx by lra. unfold g, steps_f. rewrite (proj2 (Rltb_false x (3 * PI / 2))) by lra. rewrite Rmult_1_l. field. apply C; lra. }
  assert (PS : partial_sums steps_f 3 2 1 [p0; p0 + W; p0 + W + 2 * W]).
  { split; [reflexivity|]. intros k Hk. unfold vcosine_transform. rewrite (vtransform_plain _ _ _ _ _ _ E). cbn [map]. do 2 f_equal. fold g. rewrite <- panels_pairs.
    rewrite (cos_zeros_firstn 3 (S k)) by lia. unfold panels. rewrite pairs_firstn, <- firstn_map. fold (panels (cos_zeros 3) 1). rewrite panels3 by lra.
    destruct k as [|[|[|k]]]; [| | |lia]; cbn [firstn map fst snd nth rsum fold_right]; fold p0; rewrite ?G1, ?G2; unfold rsum; cbn [fold_right]; ring. }
  assert (GG : geometric_from 0 [p0; p0 + W; p0 + W + 2 * W] (p0 - W)).
  { exists W, 2. split; [lra|]. split; [lra|]. split; [lra|]. intros k Hk. cbn [length] in Hk. destruct k as [|[|[|k]]]; [| | |lia]; cbn [nth pow]; ring. }
  exists (p0 - W), [p0; p0 + W; p0 + W + 2 * W]. split; [exact PS|]. split; [exact GG|]. apply (C143_extrapolated steps_f [1] 3 2 0 [p0 - W]); [cbn; auto|lia|]. constructor; [|constructor]. eexists. split; [exact PS|exact GG].
Qed.

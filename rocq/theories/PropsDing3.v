(** * C147: DingEtAl2012 with clamped or free ends, and its output *)
From Coq Require Import Reals List Arith ZArith Bool Lia Lra.
From Coquelicot Require Import Coquelicot.
From Verif Require Import Base DingModel DingProofs PropsDing PropsDing2.
Import ListNotations.
Local Open Scope R_scope.

Lemma ok_inj {A} (a b : A) : Ok a = Ok b -> a = b. Proof. congruence. Qed.
Lemma set_at_ok l i v r : set_at l i v = Ok r -> (i < length l)%nat /\ length r = length l /\ nth i r 0 = v /\ forall j, j <> i -> nth j r 0 = nth j l 0.
Proof.
  unfold set_at. destruct (i <? length l)%nat eqn:E; [|discriminate]. apply Nat.ltb_lt in E. intros H. apply ok_inj in H. subst r. split; auto.
  assert (LF : length (firstn i l) = i) by (rewrite firstn_length; lia).
  split; [rewrite app_length; change (length (v :: ?t)) with (S (length t)); rewrite skipn_length; lia|]. split; [rewrite app_nth2 by lia; rewrite LF, Nat.sub_diag; reflexivity|].
  intros j Hj. destruct (Nat.lt_ge_cases j i) as [H|H].
  - rewrite app_nth1 by lia. rewrite <- (firstn_skipn i l) at 2. rewrite app_nth1 by lia. reflexivity.
  - rewrite app_nth2 by lia. rewrite LF. destruct (j - i)%nat as [|m] eqn:EM; [lia|]. cbn [nth]. rewrite <- (firstn_skipn (S i) l) at 2. rewrite app_nth2 by (rewrite firstn_length; lia). rewrite firstn_length. f_equal. lia.
Qed.
Lemma set_back_ok l k v r : set_back l k v = Ok r -> (0 < k <= length l)%nat /\ length r = length l /\ nth (length l - k) r 0 = v /\ forall j, j <> (length l - k)%nat -> nth j r 0 = nth j l 0.
Proof.
  unfold set_back. destruct (k <=? length l)%nat eqn:E; [|discriminate]. apply Nat.leb_le in E. intros H. apply set_at_ok in H. destruct H as (A & B & C & D). split; [lia|auto].
Qed.
Lemma points_CC_ends n xs : (3 <= n)%nat -> points_CC n = Ok xs -> nth 0 xs 0 = 0 /\ nth (n - 1) xs 0 = 0 /\ length xs = n.
Proof.
  intros Hn. unfold points_CC. set (x := map _ _). assert (Lx : length x = n) by apply len_map_seq. clearbody x.
  destruct (set_at x 0 0) as [x1|] eqn:E1; [|discriminate]. cbn [bind]. destruct (set_at x1 1 _) as [x2|] eqn:E2; [|discriminate]. cbn [bind]. destruct (set_back x2 2 _) as [x3|] eqn:E3; [|discriminate]. cbn [bind]. intros E4.
  apply set_at_ok in E1, E2. apply set_back_ok in E3, E4. destruct E1 as (_ & L1 & V1 & O1). destruct E2 as (_ & L2 & V2 & O2). destruct E3 as (_ & L3 & V3 & O3). destruct E4 as (_ & L4 & V4 & O4).
  repeat split; [|replace (n - 1)%nat with (length x3 - 1)%nat by lia; exact V4|lia]. rewrite O4 by lia. rewrite O3 by lia. rewrite O2 by lia. exact V1.
Qed.
Lemma points_CC_ok n : (2 <= n)%nat -> exists xs, points_CC n = Ok xs.
Proof.
  intros Hn. unfold points_CC. set (x := map _ _). assert (Lx : length x = n) by apply len_map_seq. clearbody x.
  assert (A : forall l i v, (i < length l)%nat -> exists r, set_at l i v = Ok r /\ length r = length l).
  { intros l i v H. destruct (set_at l i v) as [r|] eqn:E; [exists r; split; auto; apply set_at_ok in E; tauto|]. unfold set_at in E. apply Nat.ltb_lt in H. rewrite H in E. discriminate. }
  assert (B : forall l k v, (0 < k <= length l)%nat -> exists r, set_back l k v = Ok r /\ length r = length l).
  { intros l k v H. unfold set_back. replace (k <=? length l)%nat with true by (symmetry; apply Nat.leb_le; lia). apply A. lia. }
  destruct (A x 0%nat 0 ltac:(lia)) as (x1 & -> & L1). cbn [bind]. destruct (A x1 1%nat (1 / 10000) ltac:(lia)) as (x2 & -> & L2). cbn [bind]. destruct (B x2 2%nat (1 / 10000) ltac:(lia)) as (x3 & -> & L3). cbn [bind]. destruct (B x3 1%nat 0 ltac:(lia)) as (x4 & -> & L4). eauto.
Qed.
Lemma split_ends (l : list R) n : (2 <= n)%nat -> length l = n -> exists m, l = nth 0 l 0 :: m ++ [nth (n - 1) l 0] /\ length m = (n - 2)%nat.
Proof.
  intros Hn HL. destruct l as [|a l]; [cbn in HL; lia|]. destruct (exists_last (l := l)) as (m & b & ->); [intros ->; cbn in HL; lia|]. exists m. cbn [length] in HL. rewrite app_length in HL. cbn [length] in HL.
  split; [|lia]. cbn [nth]. f_equal. f_equal. replace (n - 1)%nat with (S (length m)) by lia. cbn [nth]. rewrite app_nth2 by lia. rewrite Nat.sub_diag. reflexivity.
Qed.
Lemma comb_app (m k m' k' : list R) : length m = length k -> combine (m ++ m') (k ++ k') = combine m k ++ combine m' k'.
Proof. revert k. induction m as [|a m IH]; intros [|b k] H; try discriminate; [reflexivity|]. cbn [app combine]. rewrite IH by (cbn in H; lia). reflexivity. Qed.
Lemma dot_ends a b u v (m k : list R) : length m = length k -> dot (a :: m ++ [b]) (u :: k ++ [v]) = a * u + dot m k + b * v.
Proof.
  intros H. unfold dot. cbn [combine map fst snd]. change (sumR (?a :: ?l)) with (a + sumR l). rewrite (comb_app m k [b] [v]) by auto. rewrite map_app, sumR_app. cbn. ring.
Qed.
Section S.
Variable roots : (R -> R) -> nat -> result (list R).
Variable solve : list (list R) -> list R -> result (list R).
Hypothesis HS : solves solve.
Lemma weights_repeated xj n Ij : (3 <= n)%nat -> length xj = n -> nth 0 xj 0 = nth (n - 1) xj 0 -> weights solve xj = Ok Ij -> False.
Proof.
  intros Hn HL HE HW. unfold weights in HW. destruct (HS _ _ _ HW) as (L1 & E & U). rewrite map_length, seq_length in L1.
  destruct (split_ends xj n ltac:(lia) HL) as (m & EX & Lm). destruct (split_ends Ij n ltac:(lia) ltac:(lia)) as (k & EI & Lk). rewrite <- HE in EX. set (a := nth 0 xj 0) in *. set (u := nth 0 Ij 0) in *. set (v := nth (n - 1) Ij 0) in *.
  specialize (U ((u + 1) :: k ++ [v - 1])). rewrite map_length, seq_length in U. cbn [length] in U. rewrite app_length in U. cbn [length] in U. specialize (U ltac:(lia)).
  assert (X : map (fun row => dot row ((u + 1) :: k ++ [v - 1])) (map (fun k0 => map (fun x => x ^ k0) xj) (seq 0 (length xj))) = map (fun k0 => / (INR k0 + 1)) (seq 0 (length xj))).
  { rewrite <- E. rewrite !map_map. apply map_ext. intros p. rewrite EX, EI. cbn [map]. rewrite map_app. cbn [map]. rewrite !dot_ends by (rewrite map_length; lia). ring. }
  specialize (U X). apply (f_equal (fun l => nth 0 l 0)) in U. cbn [nth] in U. fold u in U. lra.
Qed.
(** *** Defect: with clamped or free ends and three or more quadrature points (the default is 30) the first and the last point coincide,
    the equations for the weights are singular, and the constructor always fails. *)
Theorem C147_constructor_refuted i N : (i_BC i = CC \/ i_BC i = FF) -> i_nquad i = Some N -> (3 <= N)%nat -> exists e, init roots solve i = Err e.
Proof.
  intros HB HN HN3. destruct (init roots solve i) as [o|e] eqn:H; [exfalso|eauto]. unfold init in H.
  repeat (match type of H with bind ?m _ = Ok _ => let E := fresh "Q" in destruct m eqn:E; [cbn [bind] in H|discriminate] end).
  destruct a5 as [[[phi beta] xs] c]. rewrite HN in Q5.
  assert (X : xs = Some (points_CC N)).
  { destruct HB as [HB|HB]; rewrite HB in Q5; destruct (roots (fun b : R => 1 - cos b * cosh b) (i_nterms i)); try discriminate; cbn [bind option_map] in Q5; injection Q5; intros; subst; reflexivity. }
  subst xs. destruct (points_CC N) as [xj|] eqn:EP; [|discriminate]. cbn [bind] in H. destruct (weights solve xj) as [Ij|] eqn:EW; [|discriminate].
  destruct (points_CC_ends N xj HN3 EP) as (E1 & E2 & E3). apply (weights_repeated xj N Ij HN3 E3 ltac:(congruence) EW).
Qed.
(** *** Defect: without quadrature points (nquad=None, documented to integrate with quad) the object is made, but the equations for odeint cannot be evaluated *)
Theorem C147_no_quadrature_refuted i o q T : i_nquad i = None -> (0 < i_nterms i)%nat -> init roots solve i = Ok o -> vectorfield o q T = Err AttributeError.
Proof.
  intros HN Ht H. assert (A : o_in o = i /\ o_quad o = None).
  { unfold init in H. repeat (match type of H with bind ?m _ = Ok _ => let E := fresh "Q" in destruct m eqn:E; [cbn [bind] in H|discriminate] end). destruct a5 as [[[phi beta] xs] c]. rewrite HN in Q5.
    assert (X : xs = None). { destruct (i_BC i); try discriminate; try (destruct (roots (fun b : R => 1 - cos b * cosh b) (i_nterms i)); try discriminate); cbn [bind option_map] in Q5; injection Q5; intros; subst; reflexivity. }
    subst xs. cbn [bind] in H. injection H as <-. split; reflexivity. }
  destruct A as [A1 A2]. unfold vectorfield. rewrite A2, A1. destruct (i_nterms i); [lia|reflexivity].
Qed.
End S.
(** *** The mode shapes: with a positive root of cos b cosh b = 1 they satisfy phi'''' = b^4 phi and the conditions at both ends *)
Definition mode_of (f : R -> R) (b : R) (f1 f2 f3 : R -> R) : Prop :=
  (forall x, is_derive f x (f1 x)) /\ (forall x, is_derive f1 x (f2 x)) /\ (forall x, is_derive f2 x (f3 x)) /\ forall x, is_derive f3 x (b ^ 4 * f x).
Lemma d_cosh x : is_derive cosh x (sinh x).
Proof. apply (is_derive_ext (fun x => (exp x + exp (- x)) / 2)); [reflexivity|]. unfold sinh. auto_derive; auto. field. Qed.
Lemma d_sinh x : is_derive sinh x (cosh x).
Proof. apply (is_derive_ext (fun x => (exp x - exp (- x)) / 2)); [reflexivity|]. unfold cosh. auto_derive; auto. field. Qed.
Lemma cosh_ge x : 1 <= cosh x.
Proof.
  unfold cosh. assert (E : exp x * exp (- x) = 1) by (rewrite <- exp_plus, Rplus_opp_r; apply exp_0). assert (P := exp_pos x). assert (P2 := exp_pos (- x)). assert (S := pow2_ge_0 (exp x - exp (- x))). nra.
Qed.
Lemma sinh_ge x : 0 < x -> x <= sinh x.
Proof.
  intros H. assert (D : forall t, is_derive (fun t => sinh t - t) t (cosh t - 1)) by (intros t; apply (is_derive_minus (V := R_NormedModule) sinh (fun t => t)); [apply d_sinh|apply (is_derive_id (K := R_AbsRing))]).
  destruct (MVT_gen (fun t => sinh t - t) 0 x (fun t => cosh t - 1)) as (c & Hc & E).
  - intros t _. apply D.
  - intros t _. apply continuity_pt_filterlim. apply (ex_derive_continuous (K := R_AbsRing) (V := R_NormedModule) (fun t => sinh t - t)). exists (cosh t - 1). apply D.
  - rewrite sinh_0 in E. assert (C := cosh_ge c). assert (0 <= (cosh c - 1) * (x - 0)) by (apply Rmult_le_pos; lra). lra.
Qed.
Lemma gap b : 0 < b -> 0 < sinh b - sin b.
Proof. intros H. assert (A := sin_lt_x b H). assert (B := sinh_ge b H). lra. Qed.
Lemma cosh_sinh x : cosh x ^ 2 - sinh x ^ 2 = 1.
Proof. unfold cosh, sinh. assert (E : exp x * exp (- x) = 1) by (rewrite <- exp_plus, Rplus_opp_r; apply exp_0). nra. Qed.
Lemma trig2 x : cos x ^ 2 + sin x ^ 2 = 1. Proof. assert (H := sin2_cos2 x). unfold Rsqr in H. lra. Qed.
Lemma d_lin f f' b x : (forall x, is_derive f x (f' x)) -> is_derive (fun x => f (b * x)) x (b * f' (b * x)).
Proof. intros H. apply (is_derive_comp (V := R_NormedModule) f (fun x => b * x)); [apply H|]. auto_derive; auto. ring. Qed.
(** a combination of the four functions and its derivative *)
Definition four (c1 c2 c3 c4 b x : R) : R := c1 * cosh (b * x) + c2 * cos (b * x) + c3 * sin (b * x) + c4 * sinh (b * x).
Lemma d_four c1 c2 c3 c4 b x : is_derive (four c1 c2 c3 c4 b) x (four (b * c4) (b * c3) (- b * c2) (b * c1) b x).
Proof.
  unfold four. assert (D : is_derive (fun x => plus (plus (plus (c1 * cosh (b * x)) (c2 * cos (b * x))) (c3 * sin (b * x))) (c4 * sinh (b * x))) x (plus (plus (plus (c1 * (b * sinh (b * x))) (c2 * (b * - sin (b * x)))) (c3 * (b * cos (b * x)))) (c4 * (b * cosh (b * x))))).
  { repeat apply (is_derive_plus (V := R_NormedModule)).
    - apply (is_derive_scal (fun x => cosh (b * x))). apply (d_lin cosh sinh). apply d_cosh.
    - apply (is_derive_scal (fun x => cos (b * x))). apply (d_lin cos (fun x => - sin x)). apply is_derive_cos.
    - apply (is_derive_scal (fun x => sin (b * x))). apply (d_lin sin cos). apply is_derive_sin.
    - apply (is_derive_scal (fun x => sinh (b * x))). apply (d_lin sinh cosh). apply d_sinh. }
  apply (eq_ind _ (fun v => is_derive _ x v) D). unfold plus; cbn. ring.
Qed.
Lemma is_mode f c1 c2 c3 c4 b : (forall x, f x = four c1 c2 c3 c4 b x) ->
  mode_of f b (four (b * c4) (b * c3) (- b * c2) (b * c1) b) (four (b ^ 2 * c1) (- b ^ 2 * c2) (- b ^ 2 * c3) (b ^ 2 * c4) b) (four (b ^ 3 * c4) (- b ^ 3 * c3) (b ^ 3 * c2) (b ^ 3 * c1) b).
Proof.
  intros Hf. split; [|split; [|split]]; intros x.
  - apply (is_derive_ext (four c1 c2 c3 c4 b)); [intros; symmetry; apply Hf|]. apply d_four.
  - assert (D := d_four (b * c4) (b * c3) (- b * c2) (b * c1) b x). apply (eq_ind _ (fun v => is_derive _ x v) D). unfold four. match goal with |- ?u = ?v => change (@eq R u v) end. ring.
  - assert (D := d_four (b ^ 2 * c1) (- b ^ 2 * c2) (- b ^ 2 * c3) (b ^ 2 * c4) b x). apply (eq_ind _ (fun v => is_derive _ x v) D). unfold four. match goal with |- ?u = ?v => change (@eq R u v) end. ring.
  - assert (D := d_four (b ^ 3 * c4) (- b ^ 3 * c3) (b ^ 3 * c2) (b ^ 3 * c1) b x). apply (eq_ind _ (fun v => is_derive _ x v) D). rewrite Hf. unfold four. match goal with |- ?u = ?v => change (@eq R u v) end. ring.
Qed.
Lemma four_0 c1 c2 c3 c4 b : four c1 c2 c3 c4 b 0 = c1 + c2.
Proof. unfold four. rewrite Rmult_0_r, cosh_0, cos_0, sin_0, sinh_0. ring. Qed.
Theorem C147_clamped_modes b : 0 < b -> cos b * cosh b = 1 -> exists f1 f2 f3, mode_of (fun x => phiCC x b) b f1 f2 f3 /\
  phiCC 0 b = 0 /\ f1 0 = 0 /\ phiCC 1 b = 0 /\ f1 1 = 0.
Proof.
  intros Hb Hr. assert (G := gap b Hb). set (xi := xiCC b). do 3 eexists. split; [apply (is_mode _ 1 (-1) xi (- xi)); intros x; unfold phiCC, four; fold xi; ring|].
  assert (X : xi * (sinh b - sin b) = cosh b - cos b) by (unfold xi, xiCC; field; lra). assert (H1 := cosh_sinh b). assert (H2 := trig2 b).
  split; [unfold phiCC; rewrite Rmult_0_r, cosh_0, cos_0, sin_0, sinh_0; ring|]. split; [rewrite four_0; ring|]. split; [unfold phiCC; fold xi; rewrite Rmult_1_r; lra|].
  unfold four. rewrite !(Rmult_1_r b). assert (Z : (sinh b - sin b) * ((sinh b + sin b) - xi * (cosh b - cos b)) = 0).
  { replace ((sinh b - sin b) * (sinh b + sin b - xi * (cosh b - cos b))) with ((sinh b - sin b) * (sinh b + sin b) - (xi * (sinh b - sin b)) * (cosh b - cos b)) by ring. rewrite X. nra. }
  apply Rmult_integral in Z. destruct Z as [Z|Z]; [lra|]. transitivity (b * (sinh b + sin b - xi * (cosh b - cos b))); [ring|]. rewrite Z. ring.
Qed.
Theorem C147_free_modes b : 0 < b -> cos b * cosh b = 1 -> exists f1 f2 f3, mode_of (fun x => phiFF x b) b f1 f2 f3 /\
  f2 0 = 0 /\ f3 0 = 0 /\ f2 1 = 0 /\ f3 1 = 0.
Proof.
  intros Hb Hr. assert (G := gap b Hb). set (xi := xiFF b). do 3 eexists. split; [apply (is_mode _ 1 1 xi xi); intros x; unfold phiFF, four; fold xi; ring|].
  assert (X : xi * (sinh b - sin b) = cos b - cosh b) by (unfold xi, xiFF; field; lra). assert (H1 := cosh_sinh b). assert (H2 := trig2 b).
  split; [rewrite four_0; ring|]. split; [rewrite four_0; ring|]. split.
  - unfold four. rewrite !(Rmult_1_r b). transitivity (b ^ 2 * (cosh b - cos b + xi * (sinh b - sin b))); [ring|]. rewrite X. ring.
  - unfold four. rewrite !(Rmult_1_r b). assert (Z : (sinh b - sin b) * ((sinh b + sin b) + xi * (cosh b - cos b)) = 0).
    { replace ((sinh b - sin b) * (sinh b + sin b + xi * (cosh b - cos b))) with ((sinh b - sin b) * (sinh b + sin b) + (xi * (sinh b - sin b)) * (cosh b - cos b)) by ring. rewrite X. nra. }
    apply Rmult_integral in Z. destruct Z as [Z|Z]; [lra|]. transitivity (b ^ 3 * (sinh b + sin b + xi * (cosh b - cos b))); [ring|]. rewrite Z. ring.
Qed.
(** *** Defect: with free ends the first root is replaced by 0, where the mode shape divides 0 by 0 *)
Theorem C147_free_first_refuted roots solve i o : i_BC i = FF -> (0 < i_nterms i)%nat -> (forall f n l, roots f n = Ok l -> length l = n) -> init roots solve i = Ok o ->
  nth 0 (o_beta o) 1 = 0 /\ sin 0 - sinh 0 = 0 /\ cos 0 - cosh 0 = 0.
Proof.
  intros HB Ht HR H. split; [|rewrite sin_0, sinh_0, cos_0, cosh_0; split; ring]. unfold init in H.
  repeat (match type of H with bind ?m _ = Ok _ => let E := fresh "Q" in destruct m eqn:E; [cbn [bind] in H|discriminate] end).
  destruct a5 as [[[phi beta] xs] c]. rewrite HB in Q5. destruct (roots (fun b : R => 1 - cos b * cosh b) (i_nterms i)) as [l|] eqn:ER; [|discriminate]. cbn [bind] in Q5. injection Q5 as <- <- <- <-.
  apply HR in ER. match type of H with bind ?m _ = Ok _ => destruct m; [cbn [bind] in H|discriminate] end. injection H as <-. cbn [o_beta]. destruct l; [cbn in ER; lia|reflexivity].
Qed.
(** *** Output *)
(** one row per x, one number per time: the deflection normalised by L *)
Theorem C147_rows o qsol xs r : wofx o qsol None (Some xs) None = Ok r -> length xs <> 1%nat ->
  exists l, r = Rows l /\ length l = length xs /\ forall j k, (j < length xs)%nat -> (k < length qsol)%nat -> length (nth j l []) = length qsol /\ nth k (nth j l []) 0 = w o (firstn (i_nterms (o_in o)) (nth k qsol [])) (nth j xs 0).
Proof.
  unfold wofx. cbn [bind]. set (v := map _ xs). intros H HL. assert (LV : length v = length xs) by (unfold v; apply map_length). assert (E : r = Rows v). { injection H as <-. destruct v as [|a [|b v']]; auto. cbn in LV. lia. }
  exists v. split; auto. split; auto. intros j k Hj Hk. unfold v. rewrite (nth_indep _ [] (map (fun qq => w o (firstn (i_nterms (o_in o)) qq) 0) qsol)) by (rewrite map_length; auto). rewrite (map_nth (fun xx => map (fun qq => w o (firstn (i_nterms (o_in o)) qq) xx) qsol)).
  split; [apply map_length|]. rewrite (nth_indep _ 0 (w o (firstn (i_nterms (o_in o)) []) (nth j xs 0))) by (rewrite map_length; auto). rewrite (map_nth (fun qq => w o (firstn (i_nterms (o_in o)) qq) (nth j xs 0))). reflexivity.
Qed.
Theorem C147_one_row o qsol x r : wofx o qsol None (Some [x]) None = Ok r -> r = Row (map (fun q => w o (firstn (i_nterms (o_in o)) q) x) qsol).
Proof. cbn. intros H. injection H as <-. reflexivity. Qed.
(** x is divided by L *)
Theorem C147_physical_x o qsol xs L nw : i_L (o_in o) = Some L -> wofx o qsol (Some xs) None nw = wofx o qsol None (Some (map (fun x => x / L) xs)) nw.
Proof. intros HL. unfold wofx. rewrite HL. cbn [need bind]. reflexivity. Qed.
(** *** Defect: normalise_w=True and normalise_w=False do the same: both multiply by L *)
Theorem C147_normalise_refuted o qsol x xn L : i_L (o_in o) = Some L -> L <> 1 ->
  wofx o qsol x xn (Some true) = wofx o qsol x xn (Some false) /\
  forall r, wofx o qsol x xn None = Ok (Row r) -> wofx o qsol x xn (Some true) = Ok (Row (map (fun y => y * L) r)).
Proof.
  intros HL H1. split; [reflexivity|]. intros r. unfold wofx. rewrite HL. cbn [need bind]. destruct xn as [xn|]; [|destruct x as [x|]]; cbn [bind]; intros H; try discriminate; set (v := map _ _) in *; clearbody v; (destruct v as [|a [|b v]]; try discriminate; injection H as <-; reflexivity).
Qed.

(** * av_from_stress of PwiseLinearSoilModel *)
From Coq Require Import Reals List ZArith Lia Lra Bool.
From Coquelicot Require Import Coquelicot.
From Verif Require Import Base LnBounds ConstitutiveModel SpecConstitutive ConstitutiveProofs ConstitutiveProofs2 ConstitutiveProofs3.
Import ListNotations.
Open Scope R_scope.

Lemma searchsorted_at xs l1 a b l2 v : strictly_up xs -> xs = l1 ++ a :: b :: l2 -> a < v <= b ->
  searchsorted xs v = S (length l1).
Proof.
  revert xs. induction l1 as [|c l1 IH]; intros xs U E Hv; subst xs; cbn [app searchsorted].
  - rewrite Rltb_true by lra. rewrite Rltb_false by lra. reflexivity.
  - assert (Hc : c < a).
    { clear IH Hv. revert c U. induction l1 as [|d l1 IHq]; intros c U; [apply (U [] c a (b :: l2)); auto|].
      assert (H := U [] c d _ eq_refl). apply Rlt_trans with d; auto. apply IHq. apply (up_tail _ _ U). }
    rewrite Rltb_true by lra. f_equal. apply (IH _ (up_tail _ _ U) eq_refl Hv).
Qed.
Lemma get_at {A} (l1 l2 : list A) a : get (l1 ++ a :: l2) (length l1) = Ok a.
Proof. unfold get. rewrite nth_error_app2 by lia. rewrite Nat.sub_diag. reflexivity. Qed.
Lemma get_at1 {A} (l1 l2 : list A) a b : get (l1 ++ a :: b :: l2) (S (length l1)) = Ok b.
Proof. unfold get. rewrite nth_error_app2 by lia. replace (S (length l1) - length l1)%nat with 1%nat by lia. reflexivity. Qed.

Lemma combine_split_at' (xs ys : list R) l1 a b l2 : combine xs ys = l1 ++ a :: b :: l2 -> length xs = length ys ->
  exists x1 x2 y1 y2, xs = x1 ++ fst a :: fst b :: x2 /\ ys = y1 ++ snd a :: snd b :: y2 /\ length x1 = length l1 /\ length y1 = length l1.
Proof.
  revert ys l1. induction xs as [|x xs IH]; intros [|y ys] [|c l1] E L; try discriminate.
  - cbn in E. destruct xs as [|x' xs]; [discriminate|]. destruct ys as [|y' ys]; [discriminate|].
    cbn in E. injection E as <- <- E. exists [], xs, [], ys. auto.
  - cbn in E. injection E as Ec E. destruct (IH ys l1 E ltac:(injection L; auto)) as (x1 & x2 & y1 & y2 & -> & -> & H1 & H2).
    exists (x :: x1), x2, (y :: y1), y2. cbn. auto.
Qed.
(** the sorted arrays of the model *)
Lemma pwise_arrays m : pwise_ok m -> exists xs ys, length xs = length ys /\ strictly_up xs /\ strictly_down ys /\
  slice_of (pw_siga m) (pw_xs m) = xs /\ slice_of (pw_siga m) (pw_ys m) = ys /\
  (combine xs ys = combine (pw_xs m) (pw_ys m) \/ combine xs ys = rev (combine (pw_xs m) (pw_ys m))) /\
  (forall v, np_interp v xs ys = Ok (interp1 v (combine xs ys))).
Proof.
  intros [L Hne F X Y].
  assert (L' : length (pw_xs m) = length (pw_ys m)) by (unfold pw_xs, pw_ys; rewrite !map_length; auto).
  assert (Hne' : combine (pw_xs m) (pw_ys m) <> []).
  { unfold pw_xs, pw_ys. destruct (pw_siga m); [contradiction|]. destruct (pw_ea m); discriminate. }
  destruct F as [(U & D)|(D & U)].
  - exists (pw_xs m), (pw_ys m). rewrite !slice_up by auto.
    split; auto. split; [apply up_lg; auto|]. split; [apply down_lg; auto|]. split; auto. split; auto. split; auto.
    intros. apply np_interp_ok. auto.
  - exists (rev (pw_xs m)), (rev (pw_ys m)).
    rewrite !slice_down by (auto; unfold pw_xs, pw_ys; rewrite !map_length; auto).
    split; [rewrite !rev_length; auto|]. split; [apply up_rev, down_lg; auto|]. split; [apply down_rev, up_lg; auto|].
    split; auto. split; auto. split; [right; apply combine_rev; auto|].
    intros. apply np_interp_ok. rewrite combine_rev by auto. intros E. apply Hne'.
    rewrite <- (rev_involutive (combine _ _)), E. reflexivity.
Qed.
Definition DX (b : bool) (s : R) : R := if b then ln 10 * s else 1.
Definition DY (b : bool) (e : R) : R := if b then ln 10 * e else 1.
Lemma lg_derive b s : (b = true -> 0 < s) -> is_derive (lg b) s (1 / DX b s).
Proof.
  intros H. destruct b; cbn; unfold DX.
  - specialize (H eq_refl). pose proof ln10_pos. change (is_derive (fun x : R => ln x / ln 10) s (1 / (ln 10 * s))). auto_derive; auto. match goal with |- ?a = ?b => change (@eq R a b) end. field. lra.
  - change (is_derive (fun x : R => x) s (1 / 1)). auto_derive; auto. field.
Qed.
Lemma unlg_derive b y : is_derive (unlg b) y (DY b (unlg b y)).
Proof.
  destruct b; cbn; unfold DY.
  - change (is_derive (fun x : R => exp (ln 10 * x)) y (ln 10 * exp (ln 10 * y))). auto_derive; auto. ring.
  - change (is_derive (fun x : R => x) y 1). auto_derive; auto.
Qed.
Lemma line_derive xb yb Y0 c X0 s : (xb = true -> 0 < s) ->
  is_derive (fun x => unlg yb (Y0 - c * (lg xb x - X0))) s
    (- (c * DY yb (unlg yb (Y0 - c * (lg xb s - X0))) / DX xb s)).
Proof.
  intros H. set (f := fun x => Y0 - c * (lg xb x - X0)).
  assert (Df : is_derive f s (- (c * (1 / DX xb s)))).
  { unfold f. replace (- (c * (1 / DX xb s))) with (0 - c * (1 / DX xb s - 0)) by ring.
    apply (is_derive_minus (K := R_AbsRing) (V := R_NormedModule)); [apply (is_derive_const (K := R_AbsRing) (V := R_NormedModule))|].
    apply (is_derive_scal (fun x => lg xb x - X0)).
    apply (is_derive_minus (K := R_AbsRing) (V := R_NormedModule)); [apply lg_derive; auto|apply (is_derive_const (K := R_AbsRing) (V := R_NormedModule))]. }
  pose proof (is_derive_comp (unlg yb) f s _ _ (unlg_derive yb (f s)) Df) as G.
  replace (- (c * DY yb (unlg yb (Y0 - c * (lg xb s - X0))) / DX xb s)) with (scal (- (c * (1 / DX xb s))) (DY yb (unlg yb (f s)))).
  - exact G.
  - change (- (c * (1 / DX xb s)) * DY yb (unlg yb (f s)) = - (c * DY yb (unlg yb (f s)) / DX xb s)). unfold Rdiv. ring.
Qed.
Lemma fact_ratio : Rabs (ln 10 / fact - 1) <= 2 / 10^16.
Proof.
  pose proof ln10_bounds. assert (0 < fact) by apply fact_pos.
  replace (ln 10 / fact - 1) with ((ln 10 - fact) / fact) by (field; lra).
  unfold fact in *. apply Rabs_le. lra.
Qed.
(** the model's slope against the exact one *)
Lemma av_err (xb yb : bool) (c e s : R) : (xb = true -> 0 < s) -> 
  let Dm := (c * (if yb then fact * e else 1)) / (if xb then fact * s else 1) in
  let De := c * DY yb e / DX xb s in
  Rabs (Dm - De) <= 2 / 10^16 * Rabs De.
Proof.
  intros Hs. pose proof ln10_pos. assert (Hf := fact_pos). cbv zeta. unfold DX, DY.
  destruct xb, yb; try specialize (Hs eq_refl).
  - replace (c * (fact * e) / (fact * s) - c * (ln 10 * e) / (ln 10 * s)) with 0 by (field; lra).
    rewrite Rabs_R0. apply Rmult_le_pos; [lra|apply Rabs_pos].
  - replace (c * 1 / (fact * s) - c * 1 / (ln 10 * s)) with ((ln 10 / fact - 1) * (c * 1 / (ln 10 * s))) by (field; lra).
    rewrite Rabs_mult. apply Rmult_le_compat_r; [apply Rabs_pos|apply fact_ratio].
  - replace (c * (fact * e) / 1 - c * (ln 10 * e) / 1) with ((fact / ln 10 - 1) * (c * (ln 10 * e) / 1)) by (field; lra).
    rewrite Rabs_mult. apply Rmult_le_compat_r; [apply Rabs_pos|apply fact_err].
  - rewrite Rminus_eq_0, Rabs_R0. apply Rmult_le_pos; [lra|apply Rabs_pos].
Qed.
Lemma seg_value (l l1 l2 : list pt) a b x : upx l -> l = l1 ++ a :: b :: l2 -> fst a <= x <= fst b ->
  interp1 x l = snd a - (snd a - snd b) / (fst b - fst a) * (x - fst a).
Proof.
  intros U E Hx. assert (Hab : fst a < fst b) by (rewrite upx_iff in U; apply (U _ _ _ _ E)).
  apply interp1_on; auto. right. exists l1, a, b, l2, ((x - fst a) / (fst b - fst a)).
  split; auto. split; [|split; field; lra].
  split.
  - apply Rmult_le_pos; [lra|]. left. apply Rinv_0_lt_compat. lra.
  - apply Rmult_le_reg_r with (fst b - fst a); [lra|]. unfold Rdiv. rewrite Rmult_assoc, Rinv_l by lra. lra.
Qed.
(** preimage of an open interval under lg *)
Lemma near_lg b s u v : (b = true -> 0 < s) -> u < lg b s < v -> locally s (fun x => (b = true -> 0 < x) /\ u < lg b x < v).
Proof.
  intros Hs H.
  assert (C : continuous (lg b) s).
  { apply (ex_derive_continuous (V := R_NormedModule)). eexists. apply lg_derive; auto. }
  assert (L1 : locally s (fun x => b = true -> 0 < x)).
  { destruct b; [|exists (mkposreal 1 Rlt_0_1); intros; discriminate].
    generalize (near_gt s 0 (Hs eq_refl)). apply filter_imp. auto. }
  assert (L2 : locally s (fun x => u < lg b x < v)).
  { apply (C (fun y => u < y < v)). apply (filter_and (fun y => u < y) (fun y => y < v)); [apply near_gt|apply near_lt]; lra. }
  apply (filter_and _ _ L1 L2).
Qed.
Lemma unlg_pow (b : bool) (y : R) : (if b then fact * pow10 y else 1) = (if b then fact * unlg b y else 1).
Proof. destruct b; auto. Qed.
Lemma unlg_pow' b s : (b = true -> 0 < s) -> (if b then fact * pow10 (lg b s) else 1) = (if b then fact * s else 1).
Proof. destruct b; auto. intros H. cbn. rewrite pow10_log10; auto. Qed.
Lemma seg_of_pts v b yb l0 : upx l0 -> (exists a' y', In (a', y') l0 /\ a' < v) -> In (b, yb) l0 -> v <= b ->
  exists l1 a b l2, l0 = l1 ++ a :: b :: l2 /\ fst a < v <= fst b.
Proof.
  induction l0 as [|c l0 IH]; intros U (a' & y' & Ha & H) Hb Hv; [destruct Ha|].
  destruct l0 as [|d l0].
  - destruct Ha as [->|[]]. destruct Hb as [E|[]]. injection E as -> _. lra.
  - assert (U0 : fst c < fst d) by (cbn in U; tauto). assert (U1 := upx_tail _ _ U).
    destruct (Rlt_dec (fst d) v) as [Hd|Hd].
    + destruct Hb as [->|Hb]; [cbn in *; lra|].
      destruct IH as (l1 & p & q & l2 & E & Hpq); auto.
      { exists (fst d), (snd d). split; auto. left; destruct d; auto. }
      exists (c :: l1), p, q, l2. rewrite E. auto.
    + exists [], c, d, l0. split; auto. split; [|lra].
      destruct Ha as [->|Ha]; [auto|]. assert (In (a', y') (d :: l0)) as Hi by auto.
      destruct Hi as [->|Hi]; [cbn in *; lra|]. pose proof (upx_head _ _ U1 _ Hi). cbn in *. lra.
Qed.
Lemma seg_of (xs ys : list R) v : upx (combine xs ys) -> length xs = length ys ->
  (exists a b, In a xs /\ In b xs /\ a < v <= b) ->
  exists l1 a b l2, combine xs ys = l1 ++ a :: b :: l2 /\ fst a < v <= fst b.
Proof.
  intros U L (a & b & Ha & Hb & H).
  destruct (in_combine_x xs ys a L Ha) as (ya & Ha'). destruct (in_combine_x xs ys b L Hb) as (yb & Hb').
  apply (seg_of_pts v b yb); auto; [|lra]. exists a, ya. split; auto. lra.
Qed.

(** what the model computes, and the curve near the stress *)
Lemma pw_av_value m mp es : pwise_ok m -> forall xs ys, length xs = length ys -> strictly_up xs ->
  slice_of (pw_siga m) (pw_xs m) = xs -> slice_of (pw_siga m) (pw_ys m) = ys ->
  forall l1 a b l2, combine xs ys = l1 ++ a :: b :: l2 -> fst a < lg (pw_xlog m) mp <= fst b ->
  (pw_xlog m = true -> 0 < es) ->
  forall p, Rmax (get_pstress p es) es = mp ->
  let Cc := (snd a - snd b) / (fst b - fst a) in
  let X := lg (pw_xlog m) in
  let e := snd a - Cc * (X mp - fst a) + pw_Cr m * (X mp - X es) in
  let Cx := if Rltb (X es) (X mp) then pw_Cr m else Cc in
  pw_av_from_stress m es p =
    Ok (Cx * (if pw_ylog m then fact * unlg (pw_ylog m) e else 1) / (if pw_xlog m then fact * es else 1)).
Proof.
  intros Hm xs ys L U Ex Ey l1 a b l2 E Hv Hes p Hp. cbv zeta.
  destruct (combine_split_at' _ _ _ _ _ _ E L) as (x1 & x2 & y1 & y2 & Hx & Hy & Lx & Ly).
  unfold pw_av_from_stress. cbv zeta. rewrite Hp, Ex, Ey.
  rewrite (searchsorted_at xs x1 (fst a) (fst b) x2) by auto.
  rewrite Lx. cbn [get_pred]. rewrite Hx, Hy.
  rewrite <- Ly at 1. rewrite get_at. cbn [bind]. rewrite <- Ly at 1. rewrite get_at1. cbn [bind].
  rewrite <- Lx at 1. rewrite get_at1. cbn [bind]. rewrite <- Lx at 1. rewrite get_at. cbn [bind].
  assert (Hab : fst a < fst b) by (apply (U _ _ _ _ Hx)).
  unfold fdiv at 1. rewrite Reqb_false by lra. cbn [bind].
  rewrite unlg_pow, unlg_pow' by auto. unfold fdiv. rewrite Reqb_false; [reflexivity|].
  destruct (pw_xlog m); [|lra]. specialize (Hes eq_refl). pose proof fact_pos. nra.
Qed.

(** near a stress strictly inside a segment of the curve *)
Lemma pw_derive_nc m s p xs ys : pwise_ok m -> length xs = length ys -> strictly_up xs ->
  slice_of (pw_siga m) (pw_xs m) = xs -> slice_of (pw_siga m) (pw_ys m) = ys ->
  (forall v, np_interp v xs ys = Ok (interp1 v (combine xs ys))) ->
  forall l1 a b l2, combine xs ys = l1 ++ a :: b :: l2 -> fst a < lg (pw_xlog m) s < fst b ->
  (pw_xlog m = true -> 0 < s) -> (match p with Some q => q < s /\ (pw_xlog m = true -> 0 < q) | None => True end) ->
  let Cc := (snd a - snd b) / (fst b - fst a) in
  let e := unlg (pw_ylog m) (snd a - Cc * (lg (pw_xlog m) s - fst a)) in
  exists f, locally s (fun x => pw_e_from_stress m x p = Ok (f x)) /\
    f s = e /\ is_derive f s (- (Cc * DY (pw_ylog m) e / DX (pw_xlog m) s)).
Proof.
  intros Hm L U Ex Ey Hi l1 a b l2 E Hv Hs Hp Cc e.
  assert (Ux : upx (combine xs ys)) by (apply upx_combine; auto).
  exists (fun x => unlg (pw_ylog m) (snd a - Cc * (lg (pw_xlog m) x - fst a))).
  split; [|split; [reflexivity|apply line_derive; auto]].
  assert (N := near_lg (pw_xlog m) s (fst a) (fst b) Hs Hv).
  assert (N2 : locally s (fun x => match p with Some q => q < x | None => True end)).
  { destruct p as [q|]; [apply near_gt; tauto|]. exists (mkposreal 1 Rlt_0_1). auto. }
  generalize (filter_and _ _ N N2). apply filter_imp. intros x ((Hx0 & Hx) & Hq).
  assert (Em : Rmax (get_pstress p x) x = x) by (destruct p; cbn; apply Rmax_right; lra).
  unfold pw_e_from_stress. cbv zeta. rewrite Em, Ex, Ey, Hi. cbn [bind]. f_equal. f_equal.
  rewrite (seg_value (combine xs ys) l1 l2 a b); auto; [|lra]. unfold Cc. ring.
Qed.
(** below the preconsolidation stress *)
Lemma pw_derive_oc m s q xs ys : pwise_ok m -> length xs = length ys -> strictly_up xs ->
  slice_of (pw_siga m) (pw_xs m) = xs -> slice_of (pw_siga m) (pw_ys m) = ys ->
  (forall v, np_interp v xs ys = Ok (interp1 v (combine xs ys))) ->
  s < q -> (pw_xlog m = true -> 0 < s) ->
  let ep := interp1 (lg (pw_xlog m) q) (combine xs ys) in
  let e := unlg (pw_ylog m) (ep - pw_Cr m * (lg (pw_xlog m) s - lg (pw_xlog m) q)) in
  exists f, locally s (fun x => pw_e_from_stress m x (Some q) = Ok (f x)) /\
    f s = e /\ is_derive f s (- (pw_Cr m * DY (pw_ylog m) e / DX (pw_xlog m) s)).
Proof.
  intros Hm L U Ex Ey Hi Hsq Hs ep e.
  exists (fun x => unlg (pw_ylog m) (ep - pw_Cr m * (lg (pw_xlog m) x - lg (pw_xlog m) q))).
  split; [|split; [reflexivity|apply line_derive; auto]].
  generalize (near_lt s q Hsq). apply filter_imp. intros x Hx.
  unfold pw_e_from_stress. cbv zeta. cbn [get_pstress]. rewrite Rmax_left by lra. rewrite Ex, Ey, Hi. cbn [bind].
  f_equal. f_equal. unfold ep. ring.
Qed.
Definition not_a_point (m : Pwise) (s : R) : Prop := ~ In s (pw_siga m).
Lemma lg_inj b x y : (b = true -> 0 < x) -> (b = true -> 0 < y) -> lg b x = lg b y -> x = y.
Proof. intros Hx Hy E. rewrite <- (unlg_lg b x), <- (unlg_lg b y) by auto. rewrite E. auto. Qed.
Lemma pw_av_derivative m s p : pwise_ok m -> (pw_xlog m = true -> 0 < s) ->
  (exists a b, In a (pw_siga m) /\ In b (pw_siga m) /\ a < Rmax (get_pstress p s) s <= b) ->
  (match p with Some q => s < q \/ q < s /\ (pw_xlog m = true -> 0 < q) /\ not_a_point m s | None => not_a_point m s end) ->
  exists f d av, locally s (fun x => pw_e_from_stress m x p = Ok (f x)) /\ is_derive f s (- d) /\
    pw_av_from_stress m s p = Ok av /\ Rabs (av - d) <= 2 / 10^16 * Rabs d.
Proof.
  intros Hm Hs Hr Hp. destruct (pwise_arrays m Hm) as (xs & ys & L & U & D & Ex & Ey & Hc & Hi).
  assert (Ux : upx (combine xs ys)) by (apply upx_combine; auto).
  set (mp := Rmax (get_pstress p s) s) in *.
  assert (Hxs : forall x, In x (pw_siga m) -> In (lg (pw_xlog m) x) xs).
  { intros x Hx. assert (In (lg (pw_xlog m) x) (pw_xs m)) by (apply in_map; auto).
    rewrite <- Ex. unfold slice_of. destruct (any_diff_le _); auto. apply -> in_rev; auto. }
  assert (Hxs' : forall y, In y xs -> exists x, In x (pw_siga m) /\ y = lg (pw_xlog m) x).
  { intros y Hy. rewrite <- Ex in Hy. unfold slice_of in Hy.
    assert (In y (pw_xs m)) by (destruct (any_diff_le _); auto; apply in_rev; auto).
    apply in_map_iff in H. destruct H as (x & <- & H). exists x. auto. }
  assert (Hmp : pw_xlog m = true -> 0 < mp).
  { intros Hx. unfold mp. apply Rlt_le_trans with s; auto. apply Rmax_r. }
  destruct (seg_of xs ys (lg (pw_xlog m) mp) Ux L) as (l1 & a & b & l2 & E & Hab).
  { destruct Hr as (a & b & Ha & Hb & H). exists (lg (pw_xlog m) a), (lg (pw_xlog m) b).
    split; auto. split; auto. split.
    - apply lg_lt; [|lra]. intros Hx. apply (pwo_x m Hm Hx a Ha).
    - apply lg_le; [auto|lra]. }
  assert (Hstrict : not_a_point m s -> mp = s -> fst a < lg (pw_xlog m) s < fst b).
  { intros Hn Em. rewrite Em in Hab. split; [lra|]. destruct Hab as (_ & [H|H]); auto. exfalso.
    destruct (Hxs' (fst b)) as (x & Hx & Exb).
    { destruct (combine_split_at _ _ _ _ _ _ E) as (x1 & x2 & y1 & y2 & -> & _). apply in_or_app. right; right; left; auto. }
    apply Hn. replace s with x; auto. apply (lg_inj (pw_xlog m)); auto.
    - intros Hl. apply (pwo_x m Hm Hl x Hx).
    - congruence. }
  pose proof (pw_av_value m mp s Hm xs ys L U Ex Ey l1 a b l2 E Hab Hs p eq_refl) as Hav. cbv zeta in Hav.
  set (Cc := (snd a - snd b) / (fst b - fst a)) in *.
  assert (Cases : (mp = s /\ (match p with Some q => q < s /\ (pw_xlog m = true -> 0 < q) | None => True end) /\ not_a_point m s) \/
                  exists q, p = Some q /\ s < q /\ mp = q).
  { destruct p as [q|]; unfold mp; cbn [get_pstress].
    - destruct Hp as [Hq|(Hq & Hq0 & Hn)]; [right; exists q; rewrite Rmax_left by lra; auto|left; rewrite Rmax_right by lra; auto].
    - left. rewrite Rmax_left by lra. auto. }
  destruct Cases as [(Em & Hq & Hn)|(q & -> & Hsq & Em)].
  - destruct (pw_derive_nc m s p xs ys Hm L U Ex Ey Hi l1 a b l2 E (Hstrict Hn Em) Hs Hq) as (f & F1 & F2 & F3).
    fold Cc in F2, F3. rewrite Em in Hav. rewrite Rltb_false in Hav by lra.
    rewrite Rminus_eq_0, Rmult_0_r, Rplus_0_r in Hav.
    exists f. eexists. eexists. split; [exact F1|]. split; [exact F3|]. split; [exact Hav|]. apply av_err. auto.
  - destruct (pw_derive_oc m s q xs ys Hm L U Ex Ey Hi Hsq Hs) as (f & F1 & F2 & F3).
    rewrite Em in *. rewrite Rltb_true in Hav by (apply lg_lt; auto).
    rewrite (seg_value (combine xs ys) l1 l2 a b) in F3 by (auto; lra). fold Cc in F3.
    replace (snd a - Cc * (lg (pw_xlog m) q - fst a) + pw_Cr m * (lg (pw_xlog m) q - lg (pw_xlog m) s))
      with (snd a - Cc * (lg (pw_xlog m) q - fst a) - pw_Cr m * (lg (pw_xlog m) s - lg (pw_xlog m) q)) in Hav by ring.
    exists f. eexists. eexists. split; [exact F1|]. split; [exact F3|]. split; [exact Hav|]. apply av_err. auto.
Qed.

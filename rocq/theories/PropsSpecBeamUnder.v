(** * C172: the deflections under the axles *)
From Coq Require Import Reals List Arith ZArith Bool Lia Lra.
From Coquelicot Require Import Coquelicot.
From Verif Require Import Base ConstitutiveModel PiecewiseModel PolyLineModel SpectralModel WrapModel BeamModel DingModel PropsBeam6 SpecGalerkin SpecBeamModel SpecBeamMotion SpecBeamUnderModel PropsSmearBack SpecBeamSpec PropsGalerkin PropsSpecBeam PropsSpecBeam2.
Import ListNotations.
Local Open Scope list_scope.
Local Open Scope R_scope.

(** *** specification *)
Definition rising (xs : list R) : Prop := forall i, (S i < length xs)%nat -> nth i xs 0 < nth (S i) xs 0.
(** y is what a straight line between the table's neighbouring points gives at p, the end values beyond the ends *)
Definition reads (xs : list R) (f : nat -> R) (p y : R) : Prop :=
  (exists i, (S i < length xs)%nat /\ nth i xs 0 <= p <= nth (S i) xs 0 /\ (y - f i) * (nth (S i) xs 0 - nth i xs 0) = (f (S i) - f i) * (p - nth i xs 0)) \/
  (p < nth 0 xs 0 /\ y = f 0%nat) \/
  (nth (length xs - 1) xs 0 <= p /\ y = f (length xs - 1)%nat).
(** the entry for a vehicle, an axle and a time; None is nan *)
Definition entry (w : list (list (list (option R)))) (c a j : nat) : option R := nth j (nth a (nth c w []) []) None.
(** steps of the grid at most h *)
Definition steps_within (xs : list R) (h : R) : Prop := forall i, (S i < length xs)%nat -> nth (S i) xs 0 - nth i xs 0 <= h.
Definition deflection (o : sb) (c : nat -> R) (x : R) : R := sum (b_nterms (s_in o)) (fun k => c k * modeshape o k x).
Definition curvature (o : sb) (c : nat -> R) : R := sum (b_nterms (s_in o)) (fun k => Rabs (c k) * nth k (s_beta o) 0 ^ 2).

(** *** np.interp *)
Lemma interp_from_reads : forall xs ys x0 y0 p, length xs = length ys -> x0 <= p -> rising (x0 :: xs) -> reads (x0 :: xs) (fun i => nth i (y0 :: ys) 0) p (interp_from p x0 y0 (combine xs ys)).
Proof.
  induction xs as [|x1 xs IH]; intros ys x0 y0 p Hl Hp HR.
  - right. right. cbn. split; [exact Hp|reflexivity].
  - destruct ys as [|y1 ys]; [discriminate|]. cbn [combine interp_from]. assert (H01 : x0 < x1) by (apply (HR 0%nat); cbn; lia). destruct (Rltb p x1) eqn:E.
    + apply Rltb_true in E. left. exists 0%nat. cbn [nth length]. split; [lia|]. split; [lra|]. field. lra.
    + apply Rltb_false in E. cbn in Hl. assert (HR' : rising (x1 :: xs)) by (intros i Hi; apply (HR (S i)); cbn in *; lia). assert (E' : x1 <= p) by lra.
      destruct (IH ys x1 y1 p ltac:(lia) E' HR') as [(i & H1 & H2 & H3)|[(H1 & H2)|(H1 & H2)]].
      * left. exists (S i). cbn [length] in *. split; [lia|]. exact (conj H2 H3).
      * cbn in H1. lra.
      * right. right. cbn [length] in *. replace (S (length xs) - 1)%nat with (length xs) in * by lia. replace (S (S (length xs)) - 1)%nat with (S (length xs)) by lia. split; [exact H1|exact H2].
Qed.
Lemma interp_col_reads xs col p y : rising xs -> interp_col xs col p = Ok y -> length col = length xs /\ (0 < length xs)%nat /\ reads xs (fun i => nth i col 0) p y.
Proof.
  intros HR H. unfold interp_col in H. destruct (length xs =? length col)%nat eqn:E; [|discriminate]. apply Nat.eqb_eq in E. unfold np_interp in H.
  destruct xs as [|x0 xs]; [discriminate|]. destruct col as [|y0 col]; [discriminate|]. cbn [combine] in H. cbn in E. split; [cbn; lia|]. split; [cbn; lia|].
  destruct (Rltb p x0) eqn:E0; assert (HX : forall a b : R, Ok a = Ok b -> a = b) by (intros; congruence); apply HX in H; subst y.
  - apply Rltb_true in E0. right. left. cbn. split; [exact E0|reflexivity].
  - apply Rltb_false in E0. apply interp_from_reads; auto; lia.
Qed.
Lemma interp_col_total xs col p : length xs = length col -> (0 < length xs)%nat -> exists y, interp_col xs col p = Ok y.
Proof.
  intros H1 H2. unfold interp_col. rewrite (proj2 (Nat.eqb_eq _ _)) by auto. unfold np_interp. destruct xs; [cbn in H2; lia|]. destruct col; [discriminate|]. cbn [combine]. eexists. reflexivity.
Qed.

(** *** a chord and a curve *)
Lemma below_chord (g g' g'' : R -> R) a b p : (forall x, a <= x <= b -> is_derive g x (g' x)) -> (forall x, a <= x <= b -> is_derive g' x (g'' x)) -> (forall x, a <= x <= b -> 0 <= g'' x) -> a <= p <= b ->
  g p * (b - a) <= g a * (b - p) + g b * (p - a).
Proof.
  intros D1 D2 P Hp.
  destruct (MVT_gen g a p g') as (c1 & Hc1 & E1). { intros t Ht. rewrite Rmin_left, Rmax_right in Ht by lra. apply D1. lra. }
  { intros t Ht. rewrite Rmin_left, Rmax_right in Ht by lra. apply continuity_pt_filterlim, (ex_derive_continuous (V := R_NormedModule)). exists (g' t). apply D1. lra. }
  destruct (MVT_gen g p b g') as (c2 & Hc2 & E2). { intros t Ht. rewrite Rmin_left, Rmax_right in Ht by lra. apply D1. lra. }
  { intros t Ht. rewrite Rmin_left, Rmax_right in Ht by lra. apply continuity_pt_filterlim, (ex_derive_continuous (V := R_NormedModule)). exists (g' t). apply D1. lra. }
  rewrite Rmin_left, Rmax_right in Hc1, Hc2 by lra.
  assert (M : g' c1 <= g' c2) by (apply (mono_le g' g''); [intros; apply D2; lra|intros; apply P; lra|lra]).
  assert (X : (g p - g a) * (b - p) <= (g b - g p) * (p - a)).
  { rewrite E1, E2. replace (g' c1 * (p - a) * (b - p)) with (g' c1 * ((p - a) * (b - p))) by ring. replace (g' c2 * (b - p) * (p - a)) with (g' c2 * ((p - a) * (b - p))) by ring. apply Rmult_le_compat_r; auto. apply Rmult_le_pos; lra. }
  lra.
Qed.
Lemma near_chord (f f' f'' : R -> R) M a b p y : (forall x, is_derive f x (f' x)) -> (forall x, is_derive f' x (f'' x)) -> (forall x, Rabs (f'' x) <= M) -> a < b -> a <= p <= b ->
  (y - f a) * (b - a) = (f b - f a) * (p - a) -> Rabs (y - f p) <= M * (b - a) ^ 2 / 8.
Proof.
  intros D1 D2 HM Hab Hp Hy. assert (M0 : 0 <= M) by (apply Rle_trans with (Rabs (f'' 0)); [apply Rabs_pos|auto]).
  assert (U : forall x, - M <= f'' x <= M) by (intros x; apply Rabs_le_between; auto).
  pose proof (below_chord (fun x => f x + M * x ^ 2 / 2) (fun x => f' x + M * x) (fun x => f'' x + M) a b p) as B1.
  pose proof (below_chord (fun x => M * x ^ 2 / 2 - f x) (fun x => M * x - f' x) (fun x => M - f'' x) a b p) as B2.
  assert (Q : forall x, is_derive (fun x => M * x ^ 2 / 2) x (M * x)) by (intros x; auto_derive; auto; field). assert (L : forall x, is_derive (fun x => M * x) x M) by (intros x; auto_derive; auto; ring).
  assert (C1 : (f p + M * p ^ 2 / 2) * (b - a) <= (f a + M * a ^ 2 / 2) * (b - p) + (f b + M * b ^ 2 / 2) * (p - a)).
  { apply B1; auto; intros x _; [apply (is_derive_plus (V := R_NormedModule)); auto|apply (is_derive_plus (V := R_NormedModule)); auto|specialize (U x); lra]. }
  assert (C2 : (M * p ^ 2 / 2 - f p) * (b - a) <= (M * a ^ 2 / 2 - f a) * (b - p) + (M * b ^ 2 / 2 - f b) * (p - a)).
  { apply B2; auto; intros x _; [apply (is_derive_minus (V := R_NormedModule)); auto|apply (is_derive_minus (V := R_NormedModule)); auto|specialize (U x); lra]. }
  clear B1 B2. assert (Y : y * (b - a) = f a * (b - p) + f b * (p - a)) by lra.
  assert (K : M * a ^ 2 / 2 * (b - p) + M * b ^ 2 / 2 * (p - a) - M * p ^ 2 / 2 * (b - a) = M * ((p - a) * (b - p)) / 2 * (b - a)) by field.
  assert (Z : - (M * ((p - a) * (b - p)) / 2) <= y - f p <= M * ((p - a) * (b - p)) / 2).
  { split; apply (Rmult_le_reg_r (b - a)); lra. }
  assert (G : (p - a) * (b - p) <= (b - a) ^ 2 / 4). { assert (S0 := pow2_ge_0 ((p - a) - (b - p))). replace ((p - a) * (b - p)) with ((b - a) ^ 2 / 4 - ((p - a) - (b - p)) ^ 2 / 4) by field. lra. }
  assert (G' : M * ((p - a) * (b - p)) <= M * ((b - a) ^ 2 / 4)) by (apply Rmult_le_compat_l; auto). apply Rabs_le. lra.
Qed.
Lemma sum_derive n (c : nat -> R) (f f' : nat -> R -> R) x : (forall k, (k < n)%nat -> is_derive (f k) x (f' k x)) -> is_derive (fun x => sum n (fun k => c k * f k x)) x (sum n (fun k => c k * f' k x)).
Proof.
  unfold sum. intros H. assert (G : forall l, (forall k, In k l -> (k < n)%nat) -> is_derive (fun x => fold_right Rplus 0 (map (fun k => c k * f k x) l)) x (fold_right Rplus 0 (map (fun k => c k * f' k x) l))).
  { induction l as [|k l IH]; intros Hl; cbn [map fold_right]; [apply (is_derive_const (V := R_NormedModule))|]. apply (is_derive_plus (V := R_NormedModule)); [apply (is_derive_scal (f k)), H, Hl; left; auto|apply IH; intros; apply Hl; right; auto]. }
  apply G. intros k Hk. apply in_seq in Hk. lia.
Qed.
Lemma sum_bound n (f g : nat -> R) : (forall k, (k < n)%nat -> Rabs (f k) <= g k) -> Rabs (sum n f) <= sum n g.
Proof.
  unfold sum. intros H. assert (G : forall l, (forall k, In k l -> (k < n)%nat) -> Rabs (fold_right Rplus 0 (map f l)) <= fold_right Rplus 0 (map g l)).
  { induction l as [|k l IH]; intros Hl; cbn [map fold_right]; [rewrite Rabs_R0; lra|]. eapply Rle_trans; [apply Rabs_triang|]. apply Rplus_le_compat; [apply H, Hl; left; auto|apply IH; intros; apply Hl; right; auto]. }
  apply G. intros k Hk. apply in_seq in Hk. lia.
Qed.
Lemma deflection_chord o c a b p y : a < b -> a <= p <= b -> (y - deflection o c a) * (b - a) = (deflection o c b - deflection o c a) * (p - a) -> Rabs (y - deflection o c p) <= curvature o c * (b - a) ^ 2 / 8.
Proof.
  intros H1 H2 H3. set (be k := nth k (s_beta o) 0).
  apply (near_chord (deflection o c) (fun x => sum (b_nterms (s_in o)) (fun k => c k * (be k * cos (be k * x)))) (fun x => sum (b_nterms (s_in o)) (fun k => c k * (- be k ^ 2 * sin (be k * x)))) (curvature o c) a b p y); auto; intros x.
  - unfold deflection, modeshape. apply (sum_derive _ c (fun k x => sin (be k * x)) (fun k x => be k * cos (be k * x))). intros k _. auto_derive; auto. ring.
  - apply (sum_derive _ c (fun k x => be k * cos (be k * x)) (fun k x => - be k ^ 2 * sin (be k * x))). intros k _. auto_derive; auto. ring.
  - unfold curvature. apply sum_bound. intros k _. fold (be k). rewrite Rabs_mult. apply Rmult_le_compat_l; [apply Rabs_pos|]. rewrite Rabs_mult, Rabs_Ropp, (Rabs_pos_eq (be k ^ 2)) by apply pow2_ge_0.
    assert (Rabs (sin (be k * x)) <= 1) by (apply Rabs_le, SIN_bound). assert (0 <= be k ^ 2) by apply pow2_ge_0. nra.
Qed.

(** *** the vehicles of a SpecBeam *)
Definition placed (u : mpl) : Prop := exists v L, mv_ u = Some v /\ mL u = Some L /\ length (mxt u) = length (mx u).
Lemma init_placed x p off v L t0 x0 u : mpl_init x p off (Some v) (Some L) t0 x0 = Ok u -> placed u.
Proof.
  unfold mpl_init, setv. cbn [mL mx mp moffset mxt mt0 mx0 xnow pnow]. intros H. assert (HX : forall a b : mpl, Ok a = Ok b -> a = b) by (intros; congruence). apply HX in H. subst u. exists v, L. cbn. rewrite map_length. auto.
Qed.
Lemma mapM_nth {A B} (f : A -> result B) l r da db : mapM f l = Ok r -> length r = length l /\ forall i, (i < length l)%nat -> f (nth i l da) = Ok (nth i r db).
Proof.
  intros H. apply mapM_Ok_Forall2 in H. induction H as [|a b l r H1 H2 [IH1 IH2]]; cbn; [split; [auto|intros; lia]|]. split; [lia|]. intros [|i] Hi; auto. apply IH2. lia.
Qed.
Lemma moving_placed i m raw u : moving i = Ok (Some m, raw) -> In u m -> placed u.
Proof.
  unfold moving. destruct (_ && _)%bool; [discriminate|]. intros H Hu.
  repeat match type of H with (x <- ?r ;; _) = _ => let E := fresh "E" in destruct r as [?|] eqn:E; cbn [bind] in H; [|discriminate] end.
  match goal with X : mapM _ (zip7 _ _ _ _ _ _ _) = Ok ?mm |- _ => assert (mm = m) by congruence; subst mm; rename X into EM end.
  apply mapM_Ok_Forall2 in EM. clear - EM Hu. induction EM as [|q v l r H1 H2 IH]; [destruct Hu|]. destruct Hu as [->|Hu]; [|auto]. destruct q as [[[[[[x p] o] v] t] L] x0]. apply init_placed in H1. exact H1.
Qed.
Lemma sb_placed solve i o u : sb_init solve i = Ok o -> In u (vehicles o) -> placed u.
Proof.
  intros H. unfold sb_init in H. cbn zeta in H. match type of H with (if ?b then _ else _) = _ => destruct b; [discriminate|] end.
  destruct (match b_kf i with Some x => _ | None => _ end) as [kf|]; [|discriminate]. cbn [bind] in H. destruct (moving i) as [[mv raw]|] eqn:EM; [|discriminate]. cbn [bind] in H.
  repeat match type of H with (x <- ?r ;; _) = _ => let E := fresh "E" in destruct r as [?|] eqn:E; cbn [bind] in H; [|discriminate] end.
  destruct (b_BC i); try discriminate. repeat match type of H with (x <- ?r ;; _) = _ => let E := fresh "E" in destruct r as [?|] eqn:E; cbn [bind] in H; [|discriminate] end.
  assert (HX : forall a b : sb, Ok a = Ok b -> a = b) by (intros; congruence). apply HX in H. subst o. unfold vehicles. cbn [s_moving fst]. destruct mv as [m|]; [|intros []]. apply (moving_placed i m raw u EM).
Qed.
Lemma axles_now_ok u t : placed u -> exists ps, axles_now u t = Ok ps /\ length ps = length (mxt u) /\ forall a, (a < length (mxt u))%nat -> nth a ps 0 = axle u (nth a (mxt u) 0) t.
Proof.
  intros (v & L & E1 & E2 & _). unfold axles_now. rewrite E1, E2. cbn [need bind]. destruct (Rltb v 0) eqn:E; cbn [bind]; eexists; (split; [reflexivity|]); unfold positions; (split; [apply map_length|]); intros a Ha;
    unfold axle; rewrite E1, E2; unfold axle_at; rewrite E;
    match goal with |- nth a (map ?f _) 0 = _ => rewrite (nth_indep _ 0 (f 0)) by (rewrite map_length; auto); rewrite (map_nth f) end; ring.
Qed.
Lemma column_ok o d j col : column o d j = Ok col -> length col = length d /\ forall i, (i < length d)%nat -> nth i col 0 = nth j (nth i d []) 0.
Proof.
  unfold column. destruct (_ && _)%bool; [discriminate|]. intros H. destruct (mapM_nth _ _ _ [] 0 H) as [H1 H2]. split; auto. intros i Hi. specialize (H2 i Hi). unfold get in H2. destruct (nth_error (nth i d []) j) as [v|] eqn:E; [|discriminate]. rewrite (nth_error_nth _ _ 0 E). congruence.
Qed.
Lemma nth_within lim (ps ws : list R) a : (a < length ps)%nat -> length ws = length ps -> nth a (map (fun q => within lim (fst q) (snd q)) (combine ps ws)) None = within lim (nth a ps 0) (nth a ws 0).
Proof.
  intros H1 H2. rewrite (nth_indep _ None (within lim (fst (0, 0)) (snd (0, 0)))) by (rewrite map_length, combine_length; lia). rewrite (map_nth (fun q => within lim (fst q) (snd q))). rewrite combine_nth by auto. reflexivity.
Qed.
Lemma nth_seq_times (l : list R) j : (j < length l)%nat -> nth j (combine (seq 0 (length l)) l) (0%nat, 0) = (j, nth j l 0).
Proof. intros H. rewrite combine_nth by apply seq_length. rewrite seq_nth by auto. reflexivity. Qed.
Lemma under_at_ok o d lim u j t col : placed u -> rising (s_x o) -> under_at o d lim u j t = Ok col -> forall a, (a < length (mx u))%nat -> let p := axle u (nth a (mxt u) 0) t in
  (0 < length d)%nat /\ length d = length (s_x o) /\ (p < fst lim \/ snd lim < p -> nth a col None = None) /\ (fst lim <= p <= snd lim -> exists y, nth a col None = Some y /\ reads (s_x o) (fun i => nth j (nth i d []) 0) p y).
Proof.
  intros HP HR H a Ha p. assert (HL : length (mxt u) = length (mx u)) by (destruct HP as (? & ? & _ & _ & E); exact E). unfold under_at in H. destruct (axles_now_ok u t HP) as (ps & EP & LP & NP). rewrite EP in H. cbn [bind] in H.
  destruct (column o d j) as [cl|] eqn:EC; [|discriminate]. cbn [bind] in H. destruct (mapM (interp_col (s_x o) cl) ps) as [ws|] eqn:EW; [|discriminate]. cbn [bind] in H. assert (E : map (fun q => within lim (fst q) (snd q)) (combine ps ws) = col) by congruence. subst col.
  destruct (mapM_nth _ _ _ 0 0 EW) as [L1 N1]. assert (HA : (a < length ps)%nat) by lia. rewrite (nth_within lim ps ws a HA L1). specialize (N1 a HA). rewrite (NP a) in * by lia. fold p in N1 |- *. destruct (interp_col_reads _ _ _ _ HR N1) as (L2 & L3 & RD). destruct (column_ok _ _ _ _ EC) as [L4 N4].
  split; [lia|]. split; [lia|]. unfold within. split; intros Hp.
  - destruct Hp as [Hp|Hp]; [rewrite (proj2 (Rltb_true p (fst lim)) Hp); reflexivity|]. rewrite (proj2 (Rltb_true (snd lim) p) Hp), orb_true_r. reflexivity.
  - rewrite (proj2 (Rltb_false p (fst lim))) by lra. rewrite (proj2 (Rltb_false (snd lim) p)) by lra. cbn [orb]. eexists. split; [reflexivity|].
    destruct RD as [(i & Q1 & Q2 & Q3)|[(Q1 & Q2)|(Q1 & Q2)]].
    + left. exists i. rewrite !N4 in Q3 by lia. auto.
    + right. left. rewrite N4 in Q2 by lia. auto.
    + right. right. rewrite N4 in Q2 by lia. auto.
Qed.
Lemma nth_rows (cols : list (list (option R))) a n : (a < n)%nat -> nth a (map (fun a => map (fun c => nth a c None) cols) (seq 0 n)) [] = map (fun c => nth a c None) cols.
Proof.
  intros H. set (f := fun a : nat => map (fun c : list (option R) => nth a c None) cols). rewrite (nth_indep _ [] (f 0%nat)) by (rewrite map_length, seq_length; auto). rewrite (map_nth f). rewrite seq_nth by auto. reflexivity.
Qed.
Lemma nth_col (cols : list (list (option R))) a j : nth j (map (fun c => nth a c None) cols) None = nth a (nth j cols []) None.
Proof. assert (E : nth a (@nil (option R)) None = None) by (destruct a; reflexivity). rewrite <- E at 1. rewrite (map_nth (fun c => nth a c None)). reflexivity. Qed.
(** the entry of each axle at each time *)
Theorem C172_read : forall solve i o d lim w w', sb_init solve i = Ok o -> rising (s_x o) -> defl_under o d lim = Ok (w, w') ->
  length w = length (vehicles o) /\ forall c u, nth_error (vehicles o) c = Some u ->
    length (nth c w []) = length (mx u) /\ forall a, (a < length (mx u))%nat -> length (nth a (nth c w []) []) = length (s_t o) /\
      forall j, (j < length (s_t o))%nat -> let p := axle u (nth a (mxt u) 0) (nth j (s_t o) 0) in
        (0 < length d)%nat /\ length d = length (s_x o) /\ (p < fst lim \/ snd lim < p -> entry w c a j = None) /\
        (fst lim <= p <= snd lim -> exists y, entry w c a j = Some y /\ reads (s_x o) (fun k => nth j (nth k d []) 0) p y).
Proof.
  intros solve i o d lim w w' HO HR H. assert (PL : forall u, In u (vehicles o) -> placed u) by (intros u; apply (sb_placed solve i o u HO)). unfold defl_under in H. unfold vehicles in *. destruct (s_moving o) as [l|]; [|discriminate].
  destruct (mapM (under_vehicle o d lim) l) as [w0|] eqn:EW; [|discriminate]. cbn [bind] in H. assert (w0 = w) by congruence. subst w0. clear H.
  split; [apply (mapM_nth _ _ _ (mkM [] [] 0 [] None 0 None 0 None None [] []) [] EW)|]. intros c u Hu. assert (Hc : (c < length l)%nat) by (apply nth_error_Some; congruence). destruct (mapM_nth _ _ _ u [] EW) as [L1 N1]. specialize (N1 c Hc). rewrite (nth_error_nth _ _ u Hu) in N1.
  assert (HP : placed u) by (apply PL; apply nth_error_In in Hu; auto). unfold under_vehicle in N1. destruct (mapM _ (combine (seq 0 (length (s_t o))) (s_t o))) as [cols|] eqn:EC; [|discriminate]. cbn [bind] in N1.
  assert (N2 : nth c w [] = map (fun a => map (fun c => nth a c None) cols) (seq 0 (length (mx u)))) by congruence. clear N1. rewrite N2. split; [rewrite map_length, seq_length; reflexivity|]. intros a Ha. rewrite nth_rows by auto.
  destruct (mapM_nth _ _ _ (0%nat, 0) [] EC) as [L3 N3]. rewrite combine_length, seq_length, Nat.min_id in L3, N3. rewrite map_length. split; [auto|]. intros j Hj. cbn zeta. unfold entry. rewrite N2, nth_rows by auto. rewrite nth_col.
  specialize (N3 j Hj). rewrite nth_seq_times in N3 by auto. cbn [fst snd] in N3. apply (under_at_ok _ _ _ _ _ _ _ HP HR N3 a Ha).
Qed.
(** in metres: every entry times L *)
Theorem C172_scaled : forall o d lim w w', defl_under o d lim = Ok (w, w') -> match b_L (s_in o), w' with
  | None, None => True
  | Some L, Some wl => length wl = length w /\ forall c a j, entry wl c a j = match entry w c a j with Some y => Some (y * L) | None => None end
  | _, _ => False end.
Proof.
  intros o d lim w w' H. unfold defl_under in H. destruct (s_moving o) as [l|]; [|discriminate]. destruct (mapM _ l) as [w0|]; [|discriminate]. cbn [bind] in H. destruct (b_L (s_in o)) as [L|]; cbn in H.
  - assert (Some (map (map (map (option_map (fun v => v * L)))) w0) = w' /\ w0 = w) as [<- ->] by (split; congruence). split; [apply map_length|]. intros c a j. unfold entry.
    change (@nil (list (option R))) with (map (map (option_map (fun v : R => v * L))) []) at 1. rewrite map_nth. change (@nil (option R)) with (map (option_map (fun v : R => v * L)) []) at 1. rewrite map_nth. change (@None R) with (option_map (fun v : R => v * L) None) at 1. rewrite map_nth. reflexivity.
  - assert (w' = None) by congruence. subst w'. exact Logic.I.
Qed.
(** how far from the deflection at the axle itself, when the table holds the deflections at the grid *)
Theorem C172_accuracy : forall solve i o d lim w w' h q, sb_init solve i = Ok o -> rising (s_x o) -> steps_within (s_x o) h -> defl_under o d lim = Ok (w, w') ->
  (forall k j, (k < length (s_x o))%nat -> (j < length (s_t o))%nat -> nth j (nth k d []) 0 = deflection o (q j) (nth k (s_x o) 0)) ->
  forall c u a j, nth_error (vehicles o) c = Some u -> (a < length (mx u))%nat -> (j < length (s_t o))%nat -> let p := axle u (nth a (mxt u) 0) (nth j (s_t o) 0) in
    fst lim <= p <= snd lim -> nth 0 (s_x o) 0 <= p <= nth (length (s_x o) - 1) (s_x o) 0 ->
    exists y, entry w c a j = Some y /\ Rabs (y - deflection o (q j) p) <= curvature o (q j) * h ^ 2 / 8.
Proof.
  intros solve i o d lim w w' h q HO HR Hh H HD c u a j Hu Ha Hj p Hl Hp. destruct (C172_read solve i o d lim w w' HO HR H) as [_ X]. destruct (X c u Hu) as [_ Y]. destruct (Y a Ha) as [_ Z]. destruct (Z j Hj) as (L0 & L & _ & W). fold p in W. destruct (W Hl) as (y & E & RD). exists y. split; auto. clear X Y Z W.
  assert (C0 : 0 <= curvature o (q j)). { unfold curvature, sum. induction (seq 0 (b_nterms (s_in o))) as [|k l IH]; cbn [map fold_right]; [lra|]. assert (0 <= Rabs (q j k) * nth k (s_beta o) 0 ^ 2) by (apply Rmult_le_pos; [apply Rabs_pos|apply pow2_ge_0]). lra. }
  assert (C1 : 0 <= curvature o (q j) * h ^ 2 / 8). { assert (0 <= h ^ 2) by apply pow2_ge_0. assert (0 <= curvature o (q j) * h ^ 2) by (apply Rmult_le_pos; auto). lra. }
  destruct RD as [(k & Q1 & Q2 & Q3)|[(Q1 & Q2)|(Q1 & Q2)]].
  - rewrite !HD in Q3 by lia. assert (S1 := HR k Q1). assert (S2 := Hh k Q1). eapply Rle_trans; [apply (deflection_chord o (q j) _ _ p y S1 Q2 Q3)|].
    set (t := nth (S k) (s_x o) 0 - nth k (s_x o) 0) in *. assert (t ^ 2 <= h ^ 2) by (apply pow_incr; unfold t in *; lra). assert (curvature o (q j) * t ^ 2 <= curvature o (q j) * h ^ 2) by (apply Rmult_le_compat_l; auto). lra.
  - lra.
  - rewrite HD in Q2 by lia. assert (p = nth (length (s_x o) - 1) (s_x o) 0) by lra. rewrite Q2. replace (nth (length (s_x o) - 1) (s_x o) 0) with p. rewrite Rminus_eq_0, Rabs_R0. exact C1.
Qed.

(** it returns whenever the table fits and there are moving loads *)
Theorem C172_gives : forall solve i o d lim, sb_init solve i = Ok o -> s_moving o <> None -> (0 < length (s_x o))%nat -> length d = length (s_x o) -> (b_analytical (s_in o) = false -> length d <> 1%nat) ->
  (forall row, In row d -> length row = length (s_t o)) -> exists w w', defl_under o d lim = Ok (w, w').
Proof.
  intros solve i o d lim HO HM H0 HL HA HR. unfold defl_under. assert (PL : forall u, In u (vehicles o) -> placed u) by (intros u; apply (sb_placed solve i o u HO)). unfold vehicles in PL. destruct (s_moving o) as [l|]; [|contradiction].
  assert (T : forall {A B} (f : A -> result B) l, (forall a, In a l -> exists b, f a = Ok b) -> exists r, mapM f l = Ok r).
  { clear. intros A B f l. induction l as [|a l IH]; intros H; cbn; [eauto|]. destruct (H a (or_introl eq_refl)) as [b ->]. destruct IH as [r ->]; [intros; apply H; right; auto|]. cbn. eauto. }
  destruct (T _ _ (under_vehicle o d lim) l) as [w ->]; [|cbn [bind]; eauto]. intros u Hu. unfold under_vehicle.
  destruct (T _ _ (fun q => under_at o d lim u (fst q) (snd q)) (combine (seq 0 (length (s_t o))) (s_t o))) as [cols ->]; [|cbn [bind]; eauto]. intros [j t] Hj. apply in_combine_l in Hj. apply in_seq in Hj. cbn [fst snd]. unfold under_at.
  destruct (axles_now_ok u t (PL u Hu)) as (ps & -> & _). cbn [bind]. unfold column. replace (negb (b_analytical (s_in o)) && (length d =? 1)%nat)%bool with false.
  2: { symmetry. destruct (b_analytical (s_in o)); cbn; auto. apply Nat.eqb_neq. auto. }
  destruct (T _ _ (fun row : list R => get row j) d) as [col EC]. { intros row Hrow. rewrite (get_lt row j 0); [eauto|]. rewrite (HR row Hrow). lia. }
  rewrite EC. cbn [bind]. destruct (mapM_nth _ _ _ [] 0 EC) as [LC _]. destruct (T _ _ (interp_col (s_x o) col) ps) as [ws ->]; [|cbn [bind]; eauto]. intros p _. apply interp_col_total; auto. rewrite LC. auto.
Qed.
(** without moving loads it raises, and so it does for the single x value runme accepts *)
Theorem C172_refused : forall solve i o d lim, sb_init solve i = Ok o ->
  (vehicles o = [] -> s_moving o = None -> defl_under o d lim = Err TypeError) /\
  (vehicles o <> [] -> s_t o <> [] -> length d = 1%nat -> b_analytical (s_in o) = false -> defl_under o d lim = Err IndexError).
Proof.
  intros solve i o d lim HO. split; [intros _ H; unfold defl_under; rewrite H; reflexivity|]. intros HV HT HD HA. unfold defl_under. assert (PL : forall u, In u (vehicles o) -> placed u) by (intros u; apply (sb_placed solve i o u HO)). unfold vehicles in *.
  destruct (s_moving o) as [[|u l]|]; try contradiction. cbn [mapM]. unfold under_vehicle. destruct (s_t o) as [|t ts]; [contradiction|]. cbn [length seq combine mapM fst snd]. unfold under_at at 1. destruct (axles_now_ok u t (PL u (or_introl eq_refl))) as (ps & -> & _). cbn [bind].
  unfold column. rewrite HA, HD. reflexivity.
Qed.
(** a vehicle that starts late: in the equations its load acts at the far support while the deflection is read at midspan *)
Theorem C172_late_start_refuted : exists u o', mpl_init [0] [1] 0 (Some 1) (Some 1) (/ 2) 0 = Ok u /\ point_loads_on_beam u 1 = Ok o' /\
  nth 0 (pnow o') 0 = 1 /\ nth 0 (xnow o') 0 = 1 /\ axle u (nth 0 (mxt u) 0) 1 = / 2.
Proof.
  eexists. eexists. split; [reflexivity|]. split; [reflexivity|]. cbn. rewrite (proj2 (Rltb_true 0 1)) by lra. rewrite (proj2 (Rltb_false 1 0)) by lra. rewrite (proj2 (Rleb_true 0 1)) by lra. cbn.
  replace (Rltb 1 (/ 2 + (0 - (0 + 0)) / 1)) with false by (symmetry; apply Rltb_false; lra). replace (Rltb (/ 2 + (1 - (0 + 0)) / 1) 1) with false by (symmetry; apply Rltb_false; lra). cbn. split; [reflexivity|]. split; [lra|].
  unfold axle. cbn. unfold axle_at. rewrite (proj2 (Rltb_false 1 0)) by lra. lra.
Qed.
(** *** the hypotheses are met: a load moving over a beam with three grid points *)
Definition ex_under : sb_in :=
  mkB SS 1 (Some 1) (Some 1) (Some 1) (Some 1) (Some 1) (Some 3) (Some 0) (Some 0)
    (Some [[0]]) (Some [[1]]) (Some [1]) None None None None (Some [0; / 4]) (Some [0; / 2; 1]) None None None None None None None None None
    None None None None None None None None None None (Some 2%nat) flat flat flat flat flat flat flat vectorized false true.
Theorem C172_example : exists o w w', sb_init solve12 ex_under = Ok o /\ rising (s_x o) /\ steps_within (s_x o) (/ 2) /\ defl_under o [[0; 0]; [0; 1]; [0; 0]] (0, 1) = Ok (w, w') /\ entry w 0 0 1 = Some (/ 2) /\
  exists q, forall k j, (k < 3)%nat -> (j < 2)%nat -> nth j (nth k [[0; 0]; [0; 1]; [0; 0]] []) 0 = deflection o (q j) (nth k (s_x o) 0).
Proof.
  assert (HO : exists o, sb_init solve12 ex_under = Ok o). { unfold sb_init, ex_under, moving, stationary, mpl_init, setv. cbn -[points_SS weights sqrt]. rewrite weights2. rewrite andb_false_r. eexists. reflexivity. }
  destruct HO as (o & HO). assert (HX := HO). exists o. unfold sb_init, ex_under, moving, stationary, mpl_init, setv in HX. cbn -[points_SS weights sqrt INR] in HX. rewrite weights2, andb_false_r in HX. cbn -[INR sqrt] in HX. assert (HE : forall a b : sb, Ok a = Ok b -> a = b) by (intros; congruence). apply HE in HX.
  assert (EX : s_x o = [0; / 2; 1]) by (subst o; cbn; repeat (apply f_equal2; [lra|]); reflexivity).
  assert (ET : s_t o = [0; / 4]) by (subst o; cbn; replace (1 / 1) with 1 by field; rewrite sqrt_1; repeat (apply f_equal2; [lra|]); reflexivity).
  assert (EU : exists u, s_moving o = Some [u] /\ mx u = [0 / 1] /\ forall t, axle u (nth 0 (mxt u) 0) t = t).
  { subst o. cbn. eexists. split; [reflexivity|]. split; [reflexivity|]. intros t. unfold axle. cbn. replace (1 / 1) with 1 by field. rewrite sqrt_1. unfold axle_at. rewrite (proj2 (Rltb_false (1 * 1) 0)) by lra. lra. }
  assert (EB : s_beta o = [PI] /\ b_nterms (s_in o) = 1%nat /\ b_analytical (s_in o) = false). { subst o. cbn. split; [|auto]. f_equal. ring. } clear HX HE.
  destruct EU as (u & EM & EMX & EA). destruct EB as (EB & EN & EAN).
  assert (HR : rising (s_x o)). { rewrite EX. intros [|[|k]] Hk; cbn in *; try lra. lia. }
  destruct (C172_gives solve12 ex_under o [[0; 0]; [0; 1]; [0; 0]] (0, 1) HO) as (w & w' & H); [rewrite EM; discriminate|rewrite EX; cbn; lia|rewrite EX; reflexivity|cbn; lia|rewrite ET; intros row [<-|[<-|[<-|[]]]]; reflexivity|].
  exists w, w'. split; auto. split; auto. split; [rewrite EX; intros [|[|k]] Hk; cbn in *; try lra; lia|]. split; auto. split.
  - destruct (C172_read _ _ _ _ _ _ _ HO HR H) as [_ X]. destruct (X 0%nat u) as [_ Y]; [unfold vehicles; rewrite EM; reflexivity|]. destruct (Y 0%nat) as [_ Z]; [rewrite EMX; cbn; lia|]. destruct (Z 1%nat) as (_ & _ & _ & W); [rewrite ET; cbn; lia|]. rewrite EA, ET in W. cbn [nth fst snd] in W. destruct W as (y & E & RD); [lra|]. rewrite E. f_equal.
    rewrite EX in RD. destruct RD as [([|[|k]] & Q1 & Q2 & Q3)|[(Q1 & Q2)|(Q1 & Q2)]]; cbn in *; try lra; lia.
  - exists (fun j _ => match j with 1%nat => 1 | _ => 0 end). intros k j Hk Hj. unfold deflection, sum, modeshape. rewrite EN, EX, EB. cbn [seq map fold_right nth]. destruct k as [|[|[|k]]]; [| | |lia]; destruct j as [|[|j]]; try lia; cbn [nth].
    + ring. + rewrite Rmult_0_r, sin_0. ring. + ring. + replace (PI * / 2) with (PI / 2) by field. rewrite sin_PI2. ring. + ring. + rewrite Rmult_1_r, sin_PI. ring.
Qed.
Print Assumptions C172_accuracy.
Print Assumptions C172_example.

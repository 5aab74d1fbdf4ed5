(** * The loads of SpecBeam as driven modes *)
From Coq Require Import Reals List Arith Lia Lra Bool.
From Coquelicot Require Import Coquelicot.
From Verif Require Import Base PiecewiseModel SpecPiecewise PolyLineModel SpectralModel SpectralProofs LoadModel SpecLoad BeamModel DingModel LoadComplexModel PropsBeam6
  SpecComplex ComplexCalc SpecGalerkin SpecModal SpecBeamModel SpecBeamModalModel SpecBeamMotion ModalProofs1 ModalProofs2.
Import ListNotations.
Local Open Scope R_scope.
Local Notation at_ := SpecPiecewise.at_.

Lemma mapM_tab {X Y} (f : X -> result Y) (P : X -> Y -> Prop) l : (forall x, In x l -> exists y, f x = Ok y /\ P x y) -> exists r, mapM f l = Ok r /\ Forall2 P l r.
Proof.
  induction l as [|x l IH]; intros H; [exists []; split; [reflexivity|constructor]|]. destruct (H x (or_introl eq_refl)) as (y & Ey & Py). destruct IH as (r & Er & Pr); [intros; apply H; right; auto|].
  exists (y :: r). cbn [mapM]. rewrite Ey. cbn [bind]. rewrite Er. cbn [bind]. split; [reflexivity|constructor; auto].
Qed.
Lemma map_tab {X Y Z} (P : X -> Y -> Prop) (g : Y -> Z) (h : X -> Z) l r : Forall2 P l r -> (forall x y, In x l -> P x y -> g y = h x) -> map g r = map h l.
Proof. induction 1 as [|x y l r Pxy Hlr IH]; intros H; [reflexivity|]. cbn [map]. f_equal; [apply H; auto; left; auto|]. apply IH. intros; apply H; auto; right; auto. Qed.
Lemma seq_tab {Y} (P : nat -> Y -> Prop) d : forall n a r, Forall2 P (seq a n) r -> forall i, (i < n)%nat -> P (a + i)%nat (nth i r d).
Proof.
  induction n as [|n IH]; intros a r H i Hi; [lia|]. cbn [seq] in H. inversion H as [|x y l' r' Pxy Hlr E1 E2]; subst. destruct i as [|i]; cbn [nth]; [rewrite Nat.add_0_r; auto|].
  replace (a + S i)%nat with (S a + i)%nat by lia. apply IH; auto. lia.
Qed.
Lemma nth_map_seq0 {A} (f : nat -> A) n i d : (i < n)%nat -> nth i (map f (seq 0 n)) d = f i.
Proof. intros H. rewrite (nth_indep _ d (f 0%nat)) by (rewrite map_length, seq_length; auto). rewrite map_nth, seq_nth by auto. reflexivity. Qed.
Lemma table_length {A} n m (f : nat -> nat -> A) : length (table n m f) = n. Proof. unfold table. rewrite map_length, seq_length. reflexivity. Qed.
Lemma rat_table n m f i j : (i < n)%nat -> (j < m)%nat -> rat (table n m f) i j = f i j.
Proof. intros Hi Hj. unfold rat, table. rewrite nth_map_seq0 by auto. apply nth_map_seq0; auto. Qed.
Lemma cat_table n m f i j : (i < n)%nat -> (j < m)%nat -> cat (table n m f) i j = f i j.
Proof. intros Hi Hj. unfold cat, table. rewrite nth_map_seq0 by auto. apply nth_map_seq0; auto. Qed.
Lemma cat_nil i j : cat [] i j = RtoC 0. Proof. unfold cat. destruct i, j; reflexivity. Qed.
Lemma isum_csum n f : isum (seq 0 n) f = csum n f. Proof. reflexivity. Qed.
Lemma sumC_R {X} (f : X -> R) l : sumC (map (fun q => RtoC (f q)) l) = RtoC (fold_right Rplus 0 (map f l)).
Proof. induction l as [|x l IH]; [reflexivity|]. cbn [map sumC fold_right]. unfold sumC in IH. rewrite IH. apply C_eq; cbn; ring. Qed.
Lemma csum_R n (f : nat -> R) : csum n (fun k => RtoC (f k)) = RtoC (sum n f).
Proof. exact (sumC_R f (seq 0 n)). Qed.
Lemma csum_app n m f : csum (n + m) f = Cplus (csum n f) (csum m (fun k => f (n + k)%nat)).
Proof. induction n as [|n IH] in f |- *; [change (csum 0 f) with (RtoC 0); rewrite Cplus_0_l; reflexivity|]. cbn [Nat.add]. rewrite !Cg_S, IH. cbn [Nat.add]. ring. Qed.
Lemma sumC_csum {X} n (f : X -> nat -> C) l : sumC (map (fun q => csum n (f q)) l) = csum n (fun i => sumC (map (fun q => f q i) l)).
Proof. induction l as [|x l IH]; [symmetry; apply Cg_zero|]. cbn [map sumC fold_right]. unfold sumC in IH. rewrite IH. rewrite <- Cg_plus. reflexivity. Qed.

(** *** one axle *)
Definition axle_line (v L t0 x0 : R) (q : R * R) : (list R * list R) * (R * R) := let '(xi, p) := q in
  if Rltb 0 v then let s := t0 + (0 - xi) / v in let e := t0 + (L - xi) / v in (([s; s; e; e], [0; p; p; 0]), (v, xi + x0 - v * t0))
  else let xi := xi * -1 in let s := t0 - xi / v in let e := t0 - (L + xi) / v in (([s; s; e; e], [0; p; p; 0]), (v, x0 + L + xi - v * t0)).
Lemma axle_line_facts v L t0 x0 a p : v <> 0 -> 0 < L -> exists s e ph, axle_line v L t0 x0 (a, p) = (([s; s; e; e], [0; p; p; 0]), (v, ph)) /\ s < e /\
  (forall t, v * t + ph = axle_at v L t0 x0 a t) /\ (forall t, x0 <= axle_at v L t0 x0 a t <= x0 + L <-> s <= t <= e) /\
  (axle_at v L t0 x0 a s = x0 \/ axle_at v L t0 x0 a s = x0 + L) /\ (axle_at v L t0 x0 a e = x0 \/ axle_at v L t0 x0 a e = x0 + L).
Proof.
  intros EV HL. unfold axle_line, axle_at. destruct (Rltb 0 v) eqn:E1.
  - apply Rltb_true in E1. assert (V0 : Rltb v 0 = false) by (apply Rltb_false; lra). rewrite V0. exists (t0 + (0 - a) / v), (t0 + (L - a) / v), (a + x0 - v * t0). split; auto.
    split. { assert (0 < L / v) by (apply Rdiv_lt_0_compat; auto). replace (t0 + (L - a) / v) with (t0 + (0 - a) / v + L / v) by (field; auto). lra. }
    split; [intros; ring|]. split.
    { intros t. assert (D1 := div_ge t0 (0 - a) v t EV). assert (D2 := div_le t0 (L - a) v t EV). rewrite V0 in D1, D2. rewrite <- D1, <- D2. lra. }
    split; [left|right]; field; auto.
  - assert (V1 : v < 0) by (apply Rltb_false in E1; lra). assert (V0 : Rltb v 0 = true) by (apply Rltb_true; auto). rewrite V0. exists (t0 - a * -1 / v), (t0 - (L + a * -1) / v), (x0 + L + a * -1 - v * t0). split; auto.
    split. { assert (0 < L / - v) by (apply Rdiv_lt_0_compat; lra). replace (t0 - (L + a * -1) / v) with (t0 - a * -1 / v + L / - v) by (field; auto). lra. }
    split; [intros; ring|]. split.
    { intros t. replace (t0 - a * -1 / v) with (t0 + a / v) by (field; auto). replace (t0 - (L + a * -1) / v) with (t0 + (a - L) / v) by (field; auto). assert (D1 := div_ge t0 a v t EV). assert (D2 := div_le t0 (a - L) v t EV). rewrite V0 in D1, D2. rewrite <- D1, <- D2. lra. }
    split; [right|left]; field; auto.
Qed.
Definition line_F (a : (list R * list R) * (R * R)) (t : R) : R :=
  if (Rleb (nth 0 (fst (fst a)) 0) t && Rleb t (nth 2 (fst (fst a)) 0))%bool then nth 1 (snd (fst a)) 0 else 0.
Definition line_S (b : R) (a : (list R * list R) * (R * R)) (t : R) : R := line_F a t * sin (fst (snd a) * b * t + snd (snd a) * b).
(** a line belongs to an axle of a vehicle of l *)
Definition line_of (l : list mpl) (a : (list R * list R) * (R * R)) : Prop := exists v x s e p, In v l /\ In x (mxt v) /\ fst a = ([s; s; e; e], [0; p; p; 0]) /\ p <> 0 /\ s < e /\ fst (snd a) = speed v /\
  (forall t, mx0 v <= axle v x t <= mx0 v + span v <-> s <= t <= e) /\
  (axle v x s = mx0 v \/ axle v x s = mx0 v + span v) /\ (axle v x e = mx0 v \/ axle v x e = mx0 v + span v).
Lemma vehicle_lines v : ready v -> exists ls, (lo <- convert_to_specbeam v None None None None ;; Ok (combine (fst lo) (snd lo))) = Ok ls /\ (forall a, In a ls -> line_of [v] a) /\
  forall b t, fold_right Rplus 0 (map (fun a => line_S b a t) ls) = pressing (fun x => sin (b * x)) t v.
Proof.
  intros (s & L & EV & HS & EL & HL & HLen & HP). exists (map (axle_line s L (mt0 v) (mx0 v)) (combine (mxt v) (mp v))).
  assert (EC : convert_to_specbeam v None None None None = Ok (split (map (axle_line s L (mt0 v) (mx0 v)) (combine (mxt v) (mp v))))).
  { unfold convert_to_specbeam. rewrite EV, EL. destruct (Reqb s 0) eqn:E0; [apply Reqb_true in E0; contradiction|]. reflexivity. }
  assert (AX : forall x t, axle v x t = axle_at s L (mt0 v) (mx0 v) x t) by (intros; unfold axle; rewrite EV, EL; reflexivity).
  assert (SP : span v = L) by (unfold span; rewrite EL; reflexivity).
  split; [|split].
  - rewrite EC. cbn [bind]. f_equal. destruct (split _) as [l1 l2] eqn:E. cbn [fst snd]. apply split_combine. exact E.
  - intros a Ha. apply in_map_iff in Ha as ([x p] & <- & Hq). destruct (axle_line_facts s L (mt0 v) (mx0 v) x p HS HL) as (s1 & e1 & ph & E & H1 & H2 & H3 & H4 & H5).
    exists v, x, s1, e1, p. rewrite E, SP. cbn [fst snd]. split; [left; auto|]. split; [eapply in_combine_l; eauto|]. split; auto. split; [apply HP; eapply in_combine_r; eauto|]. split; auto.
    split; [unfold speed; rewrite EV; auto|]. split; [intros t; rewrite AX; apply H3|]. rewrite !AX. auto.
  - intros b t. unfold pressing. rewrite map_map. f_equal. apply map_ext. intros [x p]. cbn [fst snd]. destruct (axle_line_facts s L (mt0 v) (mx0 v) x p HS HL) as (s1 & e1 & ph & E & H1 & H2 & H3 & _).
    unfold line_S, line_F. rewrite E, SP. cbn [fst snd nth]. rewrite !AX. specialize (H3 t). specialize (H2 t). set (z := axle_at s L (mt0 v) (mx0 v) x t) in *.
    replace (s * b * t + ph * b) with (b * z) by (rewrite <- H2; ring).
    assert (EB : (Rleb s1 t && Rleb t e1 = Rleb (mx0 v) z && Rleb z (mx0 v + L))%bool).
    { apply Bool.eq_iff_eq_true. rewrite !andb_true_iff, !Rleb_true. tauto. }
    rewrite EB. destruct (Rleb (mx0 v) z && Rleb z (mx0 v + L))%bool; ring.
Qed.
Lemma axle_loads_ok l : (forall v, In v l -> ready v) -> exists ls, axle_loads l = Ok ls /\ (forall a, In a ls -> line_of l a) /\
  forall b t, fold_right Rplus 0 (map (fun a => line_S b a t) ls) = fold_right Rplus 0 (map (pressing (fun x => sin (b * x)) t) l).
Proof.
  intros H. unfold axle_loads. destruct (mapM_tab _ (fun v ls => (forall a, In a ls -> line_of [v] a) /\ forall b t, fold_right Rplus 0 (map (fun a => line_S b a t) ls) = pressing (fun x => sin (b * x)) t v) l (fun v Hv => vehicle_lines v (H v Hv))) as (r & Er & Hr).
  exists (concat r). rewrite Er. cbn [bind]. split; [reflexivity|]. clear Er H. induction Hr as [|v ls l r [P1 P2] _ [I1 I2]]; [split; [intros a []|reflexivity]|].
  split.
  - intros a Ha. cbn [concat] in Ha. apply in_app_or in Ha as [Ha|Ha].
    + destruct (P1 a Ha) as (v' & x & s & e & p & [<-|[]] & Q). exists v, x, s, e, p. split; [left; auto|exact Q].
    + destruct (I1 a Ha) as (v' & x & s & e & p & Hv' & Q). exists v', x, s, e, p. split; [right; auto|exact Q].
  - intros b t. cbn [concat map fold_right]. rewrite map_app, fold_right_app, <- I2, <- P2. generalize (fold_right Rplus 0 (map (fun a => line_S b a t) (concat r))). intros c. generalize (map (fun a => line_S b a t) ls). intros m. induction m as [|y m IH]; cbn [fold_right]; [ring|rewrite IH; ring].
Qed.
(** its table *)
Lemma line_driven im l a b T0 B eigs : line_of l a -> (forall v x t, In v l -> In x (mxt v) -> t < T0 -> ~ mx0 v <= axle v x t <= mx0 v + span v) -> (forall t, In t (fst (fst a)) -> In t B) ->
  (forall lam, In lam eigs -> lam <> RtoC 0) -> (forall lam v, In lam eigs -> In v l -> lam <> (0, speed v * b) /\ lam <> (0, - (speed v * b))) ->
  (forall lam, In lam eigs -> driven T0 B lam (duh T0 (line_S b a) lam) (fun t => RtoC (line_S b a t))) /\
  tabulated (fun tv => CEload_sinlinear im (fst (fst a)) (snd (fst a)) (fst (snd a) * b) (snd (snd a) * b) eigs tv 1) eigs (duh T0 (line_S b a)).
Proof.
  intros (v & x & s & e & p & Hv & Hx & E & HP & HSE & EO & HON & _) HT HB HZ HR. destruct a as [[tx ty] [om ph]]. cbn [fst snd] in E, EO, HB |- *. injection E as -> ->. subst om.
  apply (sinlinear_driven im [s; s; e; e] [0; p; p; 0] (line_F (([s; s; e; e], [0; p; p; 0]), (speed v, ph))) (speed v * b) (ph * b)); auto.
  - intros i Hi. cbn in Hi. destruct i as [|[|[|i]]]; cbn; try lra. lia.
  - cbn; lia.
  - intros i Hi. cbn in Hi. destruct i as [|[|[|i]]]; cbn; try lra. lia.
  - split.
    + intros k t Hk. cbn in Hk. destruct k as [|[|[|k]]]; unfold chord; cbn; intros Ht; try lra; try lia. unfold line_F. cbn [fst snd nth].
      replace (Rleb s t) with true by (symmetry; apply Rleb_true; lra). replace (Rleb t e) with true by (symmetry; apply Rleb_true; lra). cbn. field. lra.
    + intros t Ht. cbn in Ht. unfold line_F. cbn [fst snd nth]. destruct (Rleb s t && Rleb t e)%bool eqn:X; auto. apply andb_true_iff in X as [X1 X2]. apply Rleb_true in X1, X2. lra.
  - cbn. destruct (Rle_dec T0 s) as [?|N]; auto. exfalso. apply (HT v x s Hv Hx ltac:(lra)). apply HON. lra.
Qed.

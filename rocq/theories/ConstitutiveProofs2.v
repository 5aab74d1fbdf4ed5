(** * np.interp on a falling curve and its inverse; PwiseLinearSoilModel, PwiseLinearPermeabilityModel *)
From Coq Require Import Reals List ZArith Lia Lra Bool.
From Coquelicot Require Import Coquelicot.
From Verif Require Import Base ConstitutiveModel SpecConstitutive ConstitutiveProofs.
Import ListNotations.
Open Scope R_scope.

Definition pt : Type := (R * R)%type.
Definition interp1 (v : R) (l : list pt) : R :=
  match l with [] => 0 | (x0, y0) :: t => if Rltb v x0 then y0 else interp_from v x0 y0 t end.
Lemma np_interp_ok v xs ys : combine xs ys <> [] -> np_interp v xs ys = Ok (interp1 v (combine xs ys)).
Proof. unfold np_interp, interp1. destruct (combine xs ys) as [|[x y] t]; auto. contradiction. Qed.

Fixpoint upx (l : list pt) : Prop :=
  match l with a :: ((b :: _) as t) => fst a < fst b /\ upx t | _ => True end.
Lemma upx_tail a l : upx (a :: l) -> upx l.
Proof. destruct l; cbn; tauto. Qed.
Lemma upx_head a l : upx (a :: l) -> forall b, In b l -> fst a < fst b.
Proof.
  revert a. induction l as [|c l IH]; intros a H b Hb; [destruct Hb|].
  destruct H as [H1 H2]. destruct Hb as [<-|Hb]; auto. apply Rlt_trans with (fst c); auto.
Qed.
Lemma on_first_le a l x y : upx (a :: l) -> on_polyline (a :: l) x y -> fst a <= x.
Proof.
  intros H [Hin | (l1 & b & c & l2 & t & E & Ht & Hx & Hy)].
  - destruct Hin as [->|Hin]; [cbn; lra|]. left. apply (upx_head a l H (x, y) Hin).
  - assert (Hb : fst a <= fst b /\ fst b < fst c).
    { clear Hx Hy. revert a l H E. induction l1 as [|d l1 IH]; intros a l H E; cbn in E.
      - injection E as -> ->. cbn in H. lra.
      - injection E as -> E. subst l. split.
        + left. apply (upx_head d _ H). apply in_or_app. right. left. auto.
        + destruct l1 as [|d' l1'].
          * cbn in H. tauto.
          * apply (IH d' (l1' ++ b :: c :: l2)); auto. apply upx_tail in H. exact H. }
    nra.
Qed.
Lemma on_cons a l x y : on_polyline l x y -> on_polyline (a :: l) x y.
Proof.
  intros [H | (l1 & b & c & l2 & t & -> & H)]; [left; right; auto|].
  right. exists (a :: l1), b, c, l2, t. auto.
Qed.
Lemma on_inv x0 y0 x1 y1 l x y : on_polyline ((x0, y0) :: (x1, y1) :: l) x y ->
  (exists t, 0 <= t <= 1 /\ x = x0 + t * (x1 - x0) /\ y = y0 + t * (y1 - y0)) \/ on_polyline ((x1, y1) :: l) x y.
Proof.
  intros [H | (l1 & b & c & l2 & t & E & Ht & Hx & Hy)].
  - destruct H as [H|H]; [|right; left; auto]. injection H as -> ->. left. exists 0. lra.
  - destruct l1 as [|d l1]; cbn in E.
    + injection E as <- <- <-. left. exists t. auto.
    + injection E as _ E. right. right. exists l1, b, c, l2, t. auto.
Qed.
Lemma interp_from_on x0 y0 l x y : upx ((x0, y0) :: l) -> on_polyline ((x0, y0) :: l) x y -> interp_from x x0 y0 l = y.
Proof.
  revert x0 y0. induction l as [|[x1 y1] l IH]; intros x0 y0 U H.
  - destruct H as [[H|[]] | (l1 & b & c & l2 & t & E & _)].
    + injection H as -> ->. reflexivity.
    + destruct l1 as [|? [|? ?]]; discriminate.
  - cbn [interp_from]. assert (U' := upx_tail _ _ U). assert (Hlt : x0 < x1) by (cbn in U; tauto).
    destruct (on_inv _ _ _ _ _ _ _ H) as [(t & Ht & Hx & Hy)|H'].
    + unfold Rltb. destruct (Rlt_dec x x1) as [Hl|Hl].
      * subst. field. lra.
      * assert (t = 1) by nra. subst t. apply IH; auto. left. left. f_equal; lra.
    + assert (x1 <= x) by (apply (on_first_le (x1, y1) l x y); auto). rewrite Rltb_false by auto. apply IH; auto.
Qed.
Lemma interp1_on l x y : upx l -> on_polyline l x y -> interp1 x l = y.
Proof.
  intros U H. destruct l as [|[x0 y0] l].
  - destruct H as [[] | (l1 & b & c & l2 & t & E & _)]. destruct l1; discriminate.
  - cbn [interp1]. assert (x0 <= x) by (apply (on_first_le (x0, y0) l x y); auto). rewrite Rltb_false by auto. apply interp_from_on; auto.
Qed.
Lemma on_interp_from x0 y0 l x : upx ((x0, y0) :: l) -> x0 <= x -> (exists b, In b ((x0, y0) :: l) /\ x <= fst b) ->
  on_polyline ((x0, y0) :: l) x (interp_from x x0 y0 l).
Proof.
  revert x0 y0. induction l as [|[x1 y1] l IH]; intros x0 y0 U Hx (b & Hb & Hxb).
  - destruct Hb as [<-|[]]. cbn in *. assert (x = x0) by lra. subst. left. left. auto.
  - cbn [interp_from]. assert (Hlt : x0 < x1) by (cbn in U; tauto). unfold Rltb. destruct (Rlt_dec x x1) as [Hl|Hl].
    + right. exists [], (x0, y0), (x1, y1), l, ((x - x0) / (x1 - x0)). split; [reflexivity|]. cbn [fst snd].
      split; [|split; field; lra].
      split.
      * apply Rmult_le_pos; [lra|]. left. apply Rinv_0_lt_compat. lra.
      * apply Rmult_le_reg_r with (x1 - x0); [lra|]. unfold Rdiv. rewrite Rmult_assoc, Rinv_l by lra. lra.
    + apply on_cons. apply IH; [apply (upx_tail _ _ U)|lra|]. exists b. split; auto.
      destruct Hb as [<-|Hb]; auto. cbn in Hxb. lra.
Qed.
Lemma on_interp1 l x : upx l -> (exists a b, In a l /\ In b l /\ fst a <= x <= fst b) -> on_polyline l x (interp1 x l).
Proof.
  intros U (a & b & Ha & Hb & H). destruct l as [|[x0 y0] l]; [destruct Ha|]. cbn [interp1].
  assert (x0 <= x). { destruct Ha as [<-|Ha]; [cbn in H; lra|]. pose proof (upx_head _ _ U a Ha). cbn in *. lra. }
  rewrite Rltb_false by auto. apply on_interp_from; auto. exists b. split; auto; lra.
Qed.
(** clamping *)
Lemma interp1_low l x : upx l -> (forall a, In a l -> x <= fst a) -> forall a, hd_error l = Some a -> interp1 x l = snd a.
Proof.
  intros U H a Ha. destruct l as [|[x0 y0] l]; [discriminate|]. injection Ha as <-. cbn [interp1 snd].
  specialize (H (x0, y0) (or_introl eq_refl)) as H0. cbn in H0.
  unfold Rltb. destruct (Rlt_dec x x0); auto. assert (x = x0) by lra. subst.
  apply interp_from_on; auto. left; left; auto.
Qed.
Lemma interp_from_high x x0 y0 l : upx ((x0, y0) :: l) -> (forall a, In a ((x0, y0) :: l) -> fst a <= x) ->
  interp_from x x0 y0 l = snd (last ((x0, y0) :: l) (x0, y0)).
Proof.
  revert x0 y0. induction l as [|[x1 y1] l IH]; intros x0 y0 U H; [reflexivity|].
  cbn [interp_from]. rewrite Rltb_false.
  - rewrite IH; [|apply (upx_tail _ _ U)|intros; apply H; right; auto].
    cbn [last]. destruct l; auto. clear. revert p. induction l; intros; auto. cbn [last] in *. destruct l; auto.
  - apply (H (x1, y1)). right; left; auto.
Qed.
(** swapping the coordinates *)
Definition swap (p : pt) : pt := (snd p, fst p).
Lemma rev_split {A} (l l1 l2 : list A) a b : l = l1 ++ a :: b :: l2 -> rev l = rev l2 ++ b :: a :: rev l1.
Proof. intros ->. rewrite rev_app_distr. cbn [rev]. rewrite <- !app_assoc. reflexivity. Qed.
Lemma on_rev l x y : on_polyline l x y -> on_polyline (rev l) x y.
Proof.
  intros [H | (l1 & a & b & l2 & t & E & Ht & Hx & Hy)]; [left; apply -> in_rev; auto|].
  right. exists (rev l2), b, a, (rev l1), (1 - t). split; [apply rev_split; auto|]. split; [lra|]. lra.
Qed.
Lemma on_swap l x y : on_polyline l x y -> on_polyline (map swap l) y x.
Proof.
  intros [H | (l1 & a & b & l2 & t & E & Ht & Hx & Hy)].
  - left. apply in_map_iff. exists (x, y). auto.
  - right. exists (map swap l1), (swap a), (swap b), (map swap l2), t. subst l. rewrite map_app. cbn. auto.
Qed.
Lemma swap_swap l : map swap (map swap l) = l.
Proof. rewrite map_map. rewrite <- (map_id l) at 2. apply map_ext. intros []; auto. Qed.
Definition flip (l : list pt) : list pt := rev (map swap l).
Lemma flip_flip l : flip (flip l) = l.
Proof. unfold flip. rewrite map_rev, rev_involutive. apply swap_swap. Qed.
Lemma on_flip l x y : on_polyline l x y -> on_polyline (flip l) y x.
Proof. intros. apply on_rev, on_swap; auto. Qed.
Lemma on_flip' l x y : on_polyline (flip l) y x -> on_polyline l x y.
Proof. intros. rewrite <- (flip_flip l). apply on_flip; auto. Qed.
(** strict falls *)
Definition down (l : list pt) : Prop := forall l1 a b l2, l = l1 ++ a :: b :: l2 -> snd b < snd a.
Lemma upx_iff l : upx l <-> (forall l1 a b l2, l = l1 ++ a :: b :: l2 -> fst a < fst b).
Proof.
  induction l as [|a l IH].
  - split; [intros _ l1 a b l2 E; destruct l1; discriminate|cbn; auto].
  - destruct l as [|b l].
    + split; [intros _ l1 c d l2 E; destruct l1 as [|? [|? ?]]; discriminate|cbn; auto].
    + split.
      * intros (H & U) l1 c d l2 E. destruct l1 as [|e l1]; cbn in E; [injection E as -> -> _; auto|].
        injection E as _ E. apply (proj1 IH U l1 c d l2 E).
      * intros H. split; [apply (H [] a b l); auto|]. apply IH. intros l1 c d l2 E. apply (H (a :: l1) c d l2). cbn. rewrite E. auto.
Qed.
Lemma upx_flip l : down l -> upx (flip l).
Proof.
  intros D. apply upx_iff. intros l1 a b l2 E. unfold flip in E.
  apply rev_split in E. rewrite rev_involutive in E.
  assert (E' : l = map swap (rev l2) ++ swap b :: swap a :: map swap (rev l1)).
  { rewrite <- (swap_swap l), E, map_app. reflexivity. }
  apply D in E'. exact E'.
Qed.
Lemma down_tail a l : down (a :: l) -> down l.
Proof. intros D l1 b c l2 E. apply (D (a :: l1) b c l2). rewrite E. auto. Qed.

(** Along a curve whose segments fall at least at rate c, two points of the curve do as well. *)
Definition steep (c : R) (l : list pt) : Prop :=
  forall l1 a b l2, l = l1 ++ a :: b :: l2 -> c * (fst b - fst a) <= snd a - snd b.
Lemma steep_tail c a l : steep c (a :: l) -> steep c l.
Proof. intros D l1 b d l2 E. apply (D (a :: l1) b d l2). rewrite E. auto. Qed.
Lemma steep_from c x0 y0 l x y : upx ((x0, y0) :: l) -> steep c ((x0, y0) :: l) ->
  on_polyline ((x0, y0) :: l) x y -> c * (x - x0) <= y0 - y.
Proof.
  revert x0 y0. induction l as [|[x1 y1] l IH]; intros x0 y0 U D H.
  - destruct H as [[H|[]] | (l1 & b & d & l2 & t & E & _)]; [injection H as -> ->; lra|destruct l1 as [|? [|? ?]]; discriminate].
  - assert (D0 := D [] _ _ _ eq_refl). cbn in D0.
    destruct (on_inv _ _ _ _ _ _ _ H) as [(t & Ht & -> & ->)|H'].
    + nra.
    + specialize (IH x1 y1 (upx_tail _ _ U) (steep_tail _ _ _ D) H'). lra.
Qed.
Lemma steep_on c l x y x' y' : upx l -> steep c l -> on_polyline l x y -> on_polyline l x' y' -> x <= x' ->
  c * (x' - x) <= y - y'.
Proof.
  intros U D H H' Hx. destruct l as [|[x0 y0] l].
  { destruct H as [[] | (l1 & b & d & l2 & t & E & _)]. destruct l1; discriminate. }
  revert x0 y0 U D H H'. induction l as [|[x1 y1] l IH]; intros x0 y0 U D H H'.
  - destruct H as [[H|[]] | (l1 & b & d & l2 & t & E & _)]; [|destruct l1 as [|? [|? ?]]; discriminate].
    destruct H' as [[H'|[]] | (l1 & b & d & l2 & t & E & _)]; [|destruct l1 as [|? [|? ?]]; discriminate].
    injection H as -> ->. injection H' as -> ->. lra.
  - assert (D0 := D [] _ _ _ eq_refl). cbn in D0. assert (U0 : x0 < x1) by (cbn in U; tauto).
    assert (U1 := upx_tail _ _ U). assert (D1 := steep_tail _ _ _ D).
    destruct (on_inv _ _ _ _ _ _ _ H) as [(t & Ht & Ex & Ey)|G].
    + destruct (on_inv _ _ _ _ _ _ _ H') as [(t' & Ht' & Ex' & Ey')|G'].
      * subst. assert (0 <= t' - t) by nra. nra.
      * pose proof (steep_from c x1 y1 l x' y' U1 D1 G'). subst x y. nra.
    + destruct (on_inv _ _ _ _ _ _ _ H') as [(t' & Ht' & Ex' & Ey')|G'].
      * pose proof (on_first_le _ _ _ _ U1 G) as F. cbn in F.
        assert (t' = 1) by nra. subst t'. assert (x = x1) by nra.
        assert (y = y1). { rewrite <- (interp1_on _ _ _ U1 G). rewrite (interp1_on _ x y1 U1); auto. left. left. f_equal; auto. }
        subst. lra.
      * apply (IH x1 y1); auto.
Qed.
Lemma down_steep l : down l -> upx l -> steep 0 l.
Proof. intros D _ l1 a b l2 E. specialize (D _ _ _ _ E). lra. Qed.

(** ** The two maps in plotting coordinates *)
Definition EE (c : R) (l : list pt) (p s : R) : R := interp1 (Rmax p s) l + c * (Rmax p s - s).
Definition SS (c : R) (l : list pt) (p e : R) : R := p + Rmin (interp1 e (flip l) - p) ((interp1 p l - e) / c).
Definition inx (l : list pt) (x : R) : Prop := exists a b, In a l /\ In b l /\ fst a <= x <= fst b.
Definition iny (l : list pt) (y : R) : Prop := exists a b, In a l /\ In b l /\ snd a <= y <= snd b.
Lemma inx_flip l y : iny l y -> inx (flip l) y.
Proof.
  intros (a & b & Ha & Hb & H). exists (swap a), (swap b). unfold flip.
  repeat split; try apply -> in_rev; try apply in_map; auto; cbn; lra.
Qed.
Lemma interp_inverse l x : upx l -> down l -> inx l x -> interp1 (interp1 x l) (flip l) = x.
Proof. intros U D H. apply interp1_on; [apply upx_flip; auto|]. apply on_flip. apply on_interp1; auto. Qed.
Lemma interp_inverse' l y : upx l -> down l -> iny l y -> interp1 (interp1 y (flip l)) l = y.
Proof.
  intros U D H. apply interp1_on; auto. apply on_flip'. apply on_interp1; [apply upx_flip; auto|apply inx_flip; auto].
Qed.
Lemma hd_in {A} (l : list A) x : In x l -> exists a, hd_error l = Some a.
Proof. destruct l; [intros []|cbn; eauto]. Qed.
Lemma upx_hd l a b : upx l -> hd_error l = Some a -> In b l -> fst a <= fst b.
Proof. intros U Ha Hb. destruct l as [|c l]; [destruct Hb|]. injection Ha as <-. destruct Hb as [<-|Hb]; [lra|]. left. apply (upx_head _ _ U b Hb). Qed.
Lemma down_hd l a b : down l -> hd_error l = Some a -> In b l -> snd b <= snd a.
Proof.
  intros D Ha Hb. pose proof (upx_flip l D) as U.
  destruct l as [|c l]; [destruct Hb|]. injection Ha as <-.
  destruct Hb as [<-|Hb]; [lra|]. clear U. revert c D. induction l as [|d l IH]; intros c D; [destruct Hb|].
  assert (D0 := D [] _ _ _ eq_refl). destruct Hb as [<-|Hb]; [lra|]. specialize (IH Hb d (down_tail _ _ D)). lra.
Qed.
(** the inverse clamps at the lowest stress for void ratios above the curve *)
Lemma flip_high l a e : down l -> hd_error l = Some a -> snd a <= e -> interp1 e (flip l) = fst a.
Proof.
  intros D Ha He. assert (U := upx_flip l D). destruct l as [|c l]; [discriminate|]. injection Ha as ->.
  assert (A : forall b, In b (flip (a :: l)) -> fst b <= e).
  { intros b Hb. unfold flip in Hb. rewrite <- in_rev in Hb. apply in_map_iff in Hb. destruct Hb as (b' & <- & Hb').
    cbn. pose proof (down_hd (a :: l) a b' D eq_refl Hb'). lra. }
  assert (Hl : flip (a :: l) = flip l ++ [swap a]) by reflexivity.
  destruct (flip (a :: l)) as [|[x0 y0] f] eqn:E; [destruct (flip l); discriminate|].
  cbn [interp1]. rewrite Rltb_false by (apply (A (x0, y0)); left; auto).
  rewrite interp_from_high by auto.
  apply (f_equal (fun q => snd (last q (x0, y0)))) in Hl. rewrite last_last in Hl. exact Hl.
Qed.
(** a point on or above the curve, to the left of the given point on the reload line *)
Lemma SS_reload c l p s : 0 < c -> upx l -> down l -> steep c l -> inx l p -> s <= p ->
  s <= interp1 (interp1 p l + c * (p - s)) (flip l).
Proof.
  intros Hc U D Sp Hp Hs. set (e := interp1 p l + c * (p - s)).
  assert (Op := on_interp1 l p U Hp).
  destruct Hp as (a0 & b0 & Ha0 & Hb0 & Hab). destruct (hd_in l a0 Ha0) as (a & Ha).
  assert (Ina : In a l) by (destruct l; [discriminate|injection Ha as ->; left; auto]).
  assert (Oa : on_polyline l (fst a) (snd a)) by (left; destruct a; auto).
  assert (fst a <= p) by (pose proof (upx_hd l a a0 U Ha Ha0); lra).
  destruct (Rle_dec (snd a) e) as [Hge|Hlt].
  - rewrite (flip_high l a e) by auto.
    assert (S1 := steep_on c l _ _ _ _ U Sp Oa Op H). unfold e in Hge.
    apply Rnot_lt_le. intros F. assert (c * (p - s) < c * (p - fst a)) by nra. lra.
  - apply Rnot_le_lt in Hlt.
    assert (Iy : iny l e).
    { destruct Op as [Op|(l1 & u & v & l2 & t & E & Ht & Hx & Hy)].
      - exists (p, interp1 p l), a. cbn. repeat split; auto; try (destruct Ina; auto). unfold e. nra. lra.
      - exists v, a. assert (Inv : In v l) by (subst l; apply in_or_app; right; right; left; auto).
        repeat split; auto; [|lra]. assert (Dv := D _ _ _ _ E). unfold e.
        assert (snd v <= interp1 p l) by (rewrite Hy; nra). nra. }
    set (x := interp1 e (flip l)).
    assert (Ox : on_polyline l x e) by (apply on_flip', on_interp1; [apply upx_flip; auto|apply inx_flip; auto]).
    apply Rnot_lt_le. intros F.
    assert (S1 := steep_on c l _ _ _ _ U Sp Ox Op ltac:(lra)). unfold e in S1. nra.
Qed.
Lemma SS_EE c l p s : 0 < c -> upx l -> down l -> steep c l -> inx l p -> (p <= s -> inx l s) ->
  SS c l p (EE c l p s) = s.
Proof.
  intros Hc U D Sp Hp Hs. unfold SS, EE. destruct (Rle_dec s p) as [H|H].
  - rewrite Rmax_left by lra. pose proof (SS_reload c l p s Hc U D Sp Hp H).
    replace ((interp1 p l - (interp1 p l + c * (p - s))) / c) with (s - p) by (field; lra).
    rewrite Rmin_right by lra. lra.
  - apply Rnot_le_lt in H. rewrite Rmax_right by lra. replace (c * (s - s)) with 0 by ring. rewrite Rplus_0_r.
    specialize (Hs ltac:(lra)). rewrite interp_inverse by auto.
    assert (S1 := steep_on c l _ _ _ _ U Sp (on_interp1 l p U Hp) (on_interp1 l s U Hs) ltac:(lra)).
    rewrite Rmin_left; [lra|]. apply Rmult_le_reg_r with c; auto. unfold Rdiv. rewrite Rmult_assoc, Rinv_l by lra. lra.
Qed.
Lemma EE_SS c l p e : 0 < c -> upx l -> down l -> steep c l -> inx l p -> (e <= interp1 p l -> iny l e) ->
  EE c l p (SS c l p e) = e.
Proof.
  intros Hc U D Sp Hp He. unfold SS, EE. destruct (Rle_dec (interp1 p l) e) as [H|H].
  - set (s := p + (interp1 p l - e) / c).
    assert (Es : c * (p - s) = e - interp1 p l) by (unfold s; field; lra).
    assert (Hs : s <= p). { apply Rnot_lt_le. intros F. nra. }
    assert (F := SS_reload c l p s Hc U D Sp Hp Hs). rewrite Es in F. replace (interp1 p l + (e - interp1 p l)) with e in F by ring.
    replace ((interp1 p l - e) / c) with (s - p) by (unfold s; ring).
    rewrite Rmin_right by lra. replace (p + (s - p)) with s by ring. rewrite Rmax_left by lra. lra.
  - apply Rnot_le_lt in H. specialize (He ltac:(lra)). set (x := interp1 e (flip l)).
    assert (Ox : on_polyline l x e) by (apply on_flip', on_interp1; [apply upx_flip; auto|apply inx_flip; auto]).
    assert (Op := on_interp1 l p U Hp).
    assert (Hx : p <= x).
    { apply Rnot_lt_le. intros F. assert (S1 := steep_on c l _ _ _ _ U Sp Ox Op ltac:(lra)). nra. }
    assert (S1 := steep_on c l _ _ _ _ U Sp Op Ox Hx).
    rewrite Rmin_left.
    + replace (p + (x - p)) with x by ring. rewrite Rmax_right by lra. rewrite (interp1_on l x e) by auto. ring.
    + apply Rmult_le_reg_r with c; auto. unfold Rdiv. rewrite Rmult_assoc, Rinv_l by lra. lra.
Qed.

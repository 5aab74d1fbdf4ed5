(** * Values of loads, and the three outputs *)
From Coq Require Import Reals List Arith ZArith Lia Lra Bool Sorted.
From Coquelicot Require Import Coquelicot.
From Verif Require Import Base PiecewiseModel LayersModel SpecPiecewise SpecPiecewiseApi PiecewiseProofs PiecewiseProofs2 PiecewiseProofs4 LayersProofs PropsLayers
  PolyLineModel SpecPolyLine SpecSuper PolyLineProofs2 PolyLineProofs3 PolyLineProofs4 PolyLineProofs5 PolyLineProofs6 PolyLineProofs7
  SpectralModel SpecSpectral PropsSpectral WrapModel SpecWrap WrapProofs PropsWrap LoadProofs2 SpecLoad TimeProofs TimeProofs2 SpecSpeccon SpecconModel SpecconProofs.
Import ListNotations.
Open Scope R_scope.
Local Notation at_ := SpecPiecewise.at_.
Local Notation entry := SpecSpectral.entry.

(** ** Sums *)
Lemma sumn_fold (l : list R) : sumn l = fold_right Rplus 0 l.
Proof. induction l as [|a l IH]; [reflexivity|]. cbn [sumn fold_right nadd NumR]. rewrite IH. reflexivity. Qed.
Lemma fold_ext {T} (f g : T -> R) l : (forall x, In x l -> f x = g x) -> fold_right Rplus 0 (map f l) = fold_right Rplus 0 (map g l).
Proof. intros H. induction l as [|a l IH]; auto. cbn. rewrite H, IH; auto; [|left; auto]. intros; apply H; right; auto. Qed.
Lemma fold_plus {T} (f g : T -> R) l : fold_right Rplus 0 (map (fun x => f x + g x) l) = fold_right Rplus 0 (map f l) + fold_right Rplus 0 (map g l).
Proof. induction l as [|a l IH]; cbn; [ring|]. rewrite IH. ring. Qed.
Lemma fold_scal {T} (c : R) (f : T -> R) l : fold_right Rplus 0 (map (fun x => c * f x) l) = c * fold_right Rplus 0 (map f l).
Proof. induction l as [|a l IH]; cbn; [ring|]. rewrite IH. ring. Qed.
Lemma fold_zero {T} (l : list T) : fold_right Rplus 0 (map (fun _ => 0) l) = 0.
Proof. induction l as [|a l IH]; cbn; [ring|]. rewrite IH. ring. Qed.
Lemma fold_swap {T U} (f : T -> U -> R) l l' :
  fold_right Rplus 0 (map (fun x => fold_right Rplus 0 (map (f x) l')) l) = fold_right Rplus 0 (map (fun y => fold_right Rplus 0 (map (fun x => f x y) l)) l').
Proof.
  induction l as [|a l IH]; cbn.
  - induction l' as [|b l' IH']; cbn; [ring|]. rewrite <- IH'. ring.
  - rewrite IH, <- fold_plus. reflexivity.
Qed.
Lemma is_RInt_fold {T} (f : T -> R -> R) (I : T -> R) l a b : (forall x, In x l -> is_RInt (f x) a b (I x)) ->
  is_RInt (fun s => fold_right Rplus 0 (map (fun x => f x s) l)) a b (fold_right Rplus 0 (map I l)).
Proof.
  intros H. induction l as [|x l IH]; cbn [map fold_right].
  - eapply (eq_ind _ (fun v => is_RInt (fun _ => 0) a b v)); [apply (is_RInt_const (V := R_NormedModule))|].
    unfold scal; cbn; unfold mult; cbn. match goal with |- ?u = ?v => change (@eq R u v) end. ring.
  - apply (is_RInt_plus (V := R_NormedModule)); [apply H; left; auto|apply IH; intros; apply H; right; auto].
Qed.

(** ** Matrices *)
Lemma nth_map_seq {T} (f : nat -> T) n k d : (k < n)%nat -> nth k (map f (seq 0 n)) d = f k.
Proof.
  intros H. rewrite (nth_indep _ d (f 0%nat)) by (rewrite map_length, seq_length; auto). rewrite map_nth, seq_nth by auto. reflexivity.
Qed.
Lemma nth_map_in {T U} (f : T -> U) l k d d' : (k < length l)%nat -> nth k (map f l) d = f (nth k l d').
Proof. intros H. rewrite (nth_indep _ d (f d')) by (rewrite map_length; auto). apply map_nth. Qed.
Lemma cell_table n k f i j : (i < n)%nat -> (j < k)%nat -> cell (table n k f) i j = f i j.
Proof. intros Hi Hj. unfold cell, table. rewrite nth_map_seq by auto. apply nth_map_seq; auto. Qed.
Lemma table_shape n k f : shape (table n k f) n k.
Proof.
  split; [unfold table; rewrite map_length, seq_length; auto|]. intros row H. unfold table in H. apply in_map_iff in H.
  destruct H as (i & <- & _). rewrite map_length, seq_length. auto.
Qed.
Lemma cell_dot_mm A B i j : (i < length A)%nat -> (j < length (hd [] B))%nat ->
  cell (dot_mm A B) i j = fold_right Rplus 0 (map (fun k => cell A i k * cell B k j) (seq 0 (length B))).
Proof.
  intros Hi Hj. unfold cell at 1, dot_mm. rewrite (nth_map_in _ _ _ _ []) by auto. rewrite nth_map_seq by auto. rewrite sumn_fold. reflexivity.
Qed.
Lemma dot_mm_shape A B : shape (dot_mm A B) (length A) (length (hd [] B)).
Proof.
  split; [unfold dot_mm; apply map_length|]. intros row H. unfold dot_mm in H. apply in_map_iff in H. destruct H as (r & <- & _).
  rewrite map_length, seq_length; auto.
Qed.
Lemma item_dot_mv A v i : (i < length A)%nat -> item (dot_mv A v) i = fold_right Rplus 0 (map (fun k => cell A i k * item v k) (seq 0 (length v))).
Proof. intros Hi. unfold item at 1, dot_mv. rewrite (nth_map_in _ _ _ _ []) by auto. rewrite sumn_fold. reflexivity. Qed.
Lemma tab_hd A n tvals a : tabulates A n tvals a -> (1 <= n)%nat -> length (hd [] A) = length tvals.
Proof. intros (L & H & _) Hn. destruct A as [|r A]; [cbn in L; lia|]. apply H. left; auto. Qed.

(** ** Value of a load at a time *)
Definition value (p : points) (t : R) : R := match interp1 (px p) (py p) true t with Ok v => v | Err _ => 0 end.
Lemma px_ne p : (1 <= length p)%nat -> px p <> [].
Proof. intros H C. unfold px in C. apply map_eq_nil in C. subst. cbn in H. lia. Qed.
Lemma value_ok p t : (1 <= length p)%nat -> interp1 (px p) (py p) true t = Ok (value p t).
Proof.
  intros H. unfold value. destruct (interp1_ok (px p) (py p) true t) as (r & ->); auto; [rewrite px_len, py_len; auto|apply px_ne; auto].
Qed.
Lemma values_ok p tvals : (1 <= length p)%nat -> interp_x_y (px p) (py p) tvals true = Ok (map (value p) tvals).
Proof.
  intros H. unfold interp_x_y. rewrite px_len, py_len, Nat.eqb_refl. cbn [negb]. apply mapM_map. intros; apply value_ok; auto.
Qed.
Lemma value_course T0 p om F t : is_load T0 p om F -> before_end p t -> value p t * modulation om t = F t.
Proof.
  intros ((Hn & Hl & Hd) & Hlt & _ & (HF1 & HF2)) He.
  assert (HL : length (px p) = length (py p)) by (rewrite px_len, py_len; auto).
  destruct (interp_x_y_polyline (px p) (py p) [t] true HL Hn) as (ys & E & Ly & H); [apply px_ne; lia|].
  rewrite values_ok in E by lia. injection E as <-. specialize (H 0%nat ltac:(cbn; lia)). cbn [SpecPiecewise.at_ nth map] in H.
  destruct H as (H1 & H2 & _). unfold at_ in H1, H2. cbn [nth map] in H1, H2. fold (at_ (px p)) in *.
  destruct (Rlt_dec t (at_ (px p) 0)) as [L|L].
  - rewrite (HF2 t L). f_equal. apply H2; [exact L|]. rewrite px_len. exact Hlt.
  - destruct (find_segment p (conj Hn (conj Hl Hd)) t ltac:(lra) He) as (k & Hk & Hkt). rewrite (HF1 k t Hk Hkt). f_equal.
    destruct (Req_EM_T (at_ (px p) k) t) as [Ek|Nk].
    + assert (A := interp_after_step (px p) (py p) t k HL Hn ltac:(rewrite px_len; auto) ltac:(lra) Ek).
      rewrite values_ok in A by lia. injection A as ->. unfold chord. rewrite <- Ek. field. lra.
    + apply H1; [rewrite px_len; auto|]. unfold at_ in *. lra.
Qed.

(** ** Adding the contributions of the boundary loads *)
Lemma by_mult_shape om tvals A r : shape A r (length tvals) -> shape (by_mult om tvals A) r (length tvals).
Proof.
  intros [L H]. split; [unfold by_mult; rewrite map_length; auto|]. intros row Hr. unfold by_mult in Hr. apply in_map_iff in Hr.
  destruct Hr as (q & <- & Hq). rewrite map_length, combine_length, (H q Hq). lia.
Qed.
Lemma by_mult_entry om tvals A r i j : shape A r (length tvals) -> (i < r)%nat -> (j < length tvals)%nat ->
  entry (by_mult om tvals A) i j = entry A i j * modulation om (nth j tvals 0).
Proof.
  intros S Hi Hj. unfold SpecSpectral.entry, by_mult. rewrite (nth_map_in _ _ _ _ []) by (destruct S as [-> _]; auto).
  pose proof (shape_row _ _ _ _ S Hi) as Lr.
  rewrite (nth_map_in _ _ _ _ (0, 0)) by (rewrite combine_length, Lr; lia). rewrite combine_nth by auto. cbn [fst snd]. reflexivity.
Qed.
Section Contribs.
Variables (T0 : R) (tvals : list R) (nz : nat) (contrib : points -> result (list (list R))) (g : nat -> R).
Hypothesis HC : forall p, (1 <= length p)%nat -> exists A, contrib p = Ok A /\ shape A nz (length tvals) /\
  forall i j, (i < nz)%nat -> (j < length tvals)%nat -> entry A i j = g i * value p (nth j tvals 0).
Lemma add_contribs_ok l Fs out : List.Forall2 (fun q F => is_load T0 (fst q) (snd q) F) l Fs -> shape out nz (length tvals) ->
  exists A, add_contribs contrib tvals l out = Ok A /\ shape A nz (length tvals) /\
   forall i j, (i < nz)%nat -> (j < length tvals)%nat -> (forall q, In q l -> before_end (fst q) (nth j tvals 0)) ->
     entry A i j = entry out i j + total Fs (nth j tvals 0) * g i.
Proof.
  intros F. revert out. induction F as [|[p om] F l Fs H FF IH]; intros out So.
  - exists out. split; [reflexivity|]. split; auto. intros. unfold total. cbn. ring.
  - destruct (HC p) as (A & EA & SA & HA); [destruct H as ((_ & L & _) & _); cbn in L; lia|].
    destruct (IH (madd out (by_mult om tvals A))) as (M & EM & SM & HM); [apply madd_shape; auto; apply by_mult_shape; auto|].
    exists M. cbn [add_contribs]. rewrite EA. cbn [bind]. split; auto. split; auto.
    intros i j Hi Hj He. rewrite HM by (auto; intros; apply He; right; auto).
    change SpecSpectral.entry with PolyLineProofs7.entry at 1. rewrite (madd_entry out _ nz (length tvals)) by (auto; apply by_mult_shape; auto).
    change PolyLineProofs7.entry with SpecSpectral.entry. rewrite (by_mult_entry om tvals A nz) by auto. rewrite HA by auto.
    pose proof (value_course T0 p om F (nth j tvals 0) H (He (p, om) (or_introl eq_refl))) as V.
    unfold total. cbn [map fold_right]. rewrite <- V. ring.
Qed.
End Contribs.
Lemma in_combine_before l (om : list (option (R * R))) t : before_ends l t -> forall q, In q (combine l om) -> before_end (fst q) t.
Proof. intros H [p o] Hq. apply in_combine_l in Hq. apply H; auto. Qed.
Lemma add_both_ok T0 tvals nz ctop cbot gt gb top bot tom bom Ts Bs out :
  (forall p, (1 <= length p)%nat -> exists A, ctop p = Ok A /\ shape A nz (length tvals) /\
     forall i j, (i < nz)%nat -> (j < length tvals)%nat -> entry A i j = gt i * value p (nth j tvals 0)) ->
  (forall p, (1 <= length p)%nat -> exists A, cbot p = Ok A /\ shape A nz (length tvals) /\
     forall i j, (i < nz)%nat -> (j < length tvals)%nat -> entry A i j = gb i * value p (nth j tvals 0)) ->
  are_loads T0 (listed top) tom Ts -> are_loads T0 (listed bot) bom Bs -> shape out nz (length tvals) ->
  exists A, add_both ctop cbot tvals top bot tom bom out = Ok A /\ shape A nz (length tvals) /\
   forall i j, (i < nz)%nat -> (j < length tvals)%nat -> before_ends (listed top) (nth j tvals 0) -> before_ends (listed bot) (nth j tvals 0) ->
     entry A i j = entry out i j + total Ts (nth j tvals 0) * gt i + total Bs (nth j tvals 0) * gb i.
Proof.
  intros Ht Hb (LT & FT) (LB & FB) So.
  assert (X : exists A, match top with None => Ok out | Some l => add_contribs ctop tvals (combine l (om_list (length l) tom)) out end = Ok A /\
    shape A nz (length tvals) /\ forall i j, (i < nz)%nat -> (j < length tvals)%nat -> before_ends (listed top) (nth j tvals 0) ->
      entry A i j = entry out i j + total Ts (nth j tvals 0) * gt i).
  { destruct top as [l|]; cbn [listed] in *.
    - destruct (add_contribs_ok T0 tvals nz ctop gt Ht _ _ out FT So) as (A & E & SA & HA). exists A. split; [exact E|]. split; auto.
      intros i j Hi Hj He. apply HA; auto. apply in_combine_before; auto.
    - cbn in FT. inversion FT; subst. exists out. split; auto. split; auto. intros. unfold total; cbn. ring. }
  destruct X as (A & EA & SA & HA). unfold add_both. rewrite EA. cbn [bind].
  destruct bot as [l|]; cbn [listed] in *.
  - destruct (add_contribs_ok T0 tvals nz cbot gb Hb _ _ A FB SA) as (B & E & SB & HB). exists B. split; [exact E|]. split; auto.
    intros i j Hi Hj Het Heb. rewrite HB, HA; auto. apply in_combine_before; auto.
  - cbn in FB. inversion FB; subst. exists A. split; auto. split; auto. intros. rewrite HA by auto. unfold total; cbn. ring.
Qed.

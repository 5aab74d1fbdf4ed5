(** * The pressure in the drain, as make_porwell reports it *)
From Coq Require Import Reals List Arith ZArith Lia Lra Bool Sorted.
From Coquelicot Require Import Coquelicot.
From Verif Require Import Base PiecewiseModel LayersModel SpecPiecewise SpecPiecewiseApi PiecewiseProofs PiecewiseProofs4 PolyLineModel SpecPolyLine PolyLineProofs2 PolyLineProofs6 PolyLineProofs7 PolyLineProofs4 SpectralModel SpecSpectral
  WrapModel SpecWrap PropsWrap LoadModel LoadTrigModel SpecLoad TimeProofs2 SpecSpeccon SpecconModel SpecconProofs SpecconProofs2 PropsSpeccon SpecconProofs3 SpecconProofs4 SpecconProofs5 SpecGalerkin SpecconProofs6 SpecconProofs7 SpecconProofs8 SpecconProofs9 SpecconProofs10
  WellModel SpecWell WellProofs WellProofs2 WellProofs3 WellProofs4.
Import ListNotations.
Open Scope R_scope.
Local Notation entry := SpecSpectral.entry.
Local Notation at_ := SpecPiecewise.at_.
Local Notation RI f := (RInt f 0 1).

Definition value0 (p : points) (t : R) : R := match interp1 (px p) (py p) false t with Ok v => v | Err _ => 0 end.
Lemma value0_ok p t : (1 <= length p)%nat -> interp1 (px p) (py p) false t = Ok (value0 p t).
Proof.
  intros H. unfold value0. destruct (interp1_ok (px p) (py p) false t) as (r & ->); auto; [rewrite px_len, py_len; auto|apply px_ne; auto].
Qed.
Lemma values0_ok p tvals : (1 <= length p)%nat -> interp_x_y (px p) (py p) tvals false = Ok (map (value0 p) tvals).
Proof.
  intros H. unfold interp_x_y. rewrite px_len, py_len, Nat.eqb_refl. cbn [negb]. apply mapM_map. intros; apply value0_ok; auto.
Qed.
Lemma value0_course T0 p om F t : is_load T0 p om F -> before_end p t -> no_jump p t -> value0 p t * modulation om t = F t.
Proof.
  intros ((Hn & Hl & Hd) & Hlt & _ & (HF1 & HF2)) He Hj.
  assert (HL : length (px p) = length (py p)) by (rewrite px_len, py_len; auto).
  assert (V : forall r, interp1 (px p) (py p) false t = Ok r -> value0 p t = r) by (intros r E; unfold value0; rewrite E; reflexivity).
  destruct (Rlt_dec t (at_ (px p) 0)) as [L|L].
  - rewrite (HF2 t L). f_equal. apply V. apply interp1_left; auto; try (rewrite px_len; exact Hlt). apply px_ne; lia.
  - destruct (find_segment p (conj Hn (conj Hl Hd)) t ltac:(lra) He) as (k & Hk & Hkt). rewrite (HF1 k t Hk Hkt). f_equal. apply V.
    destruct (Req_EM_T (at_ (px p) k) t) as [Ek|Nk].
    + destruct k as [|k].
      * destruct (segment_containing1_spec (px p) false t) as [[_ C]|(i & Ei & Hi & Hm)].
        { exfalso. apply (C 0%nat). apply in_segment_nondecr; auto. rewrite px_len. repeat split; auto; lra. }
        assert (i = 0)%nat. { assert (X := Hm 0%nat). cbv beta iota in X. apply Nat.le_0_r. apply X. apply in_segment_nondecr; auto. rewrite px_len. repeat split; auto; lra. }
        subst i. apply interp1_in; auto. rewrite px_len; auto.
      * assert (X : at_ (px p) k <> t) by (intros E; apply (Hj k ltac:(lia) E Ek)).
        pose proof (Hn k ltac:(rewrite px_len; lia)) as Y.
        rewrite (interp1_before_step (px p) (py p) t k HL Hn ltac:(rewrite px_len; lia) ltac:(lra) Ek). f_equal. rewrite <- Ek. symmetry. apply chord_left.
    + apply interp1_inside; auto; [rewrite px_len; auto|lra].
Qed.
Definition course0 (q : points * option (R * R)) (t : R) : R := value0 (fst q) t * modulation (snd q) t.
Lemma foft_values_gives p om tvals : (1 <= length p)%nat -> exists v, foft_values p om tvals = Ok v /\ length v = length tvals /\
  forall j, (j < length tvals)%nat -> nth j v 0 = course0 (p, om) (nth j tvals 0).
Proof.
  intros L. unfold foft_values. rewrite values0_ok by auto. cbn [bind].
  destruct om as [[w ph']|]; eexists; (split; [reflexivity|]).
  - split; [rewrite map_length, combine_length, map_length; lia|]. intros j Hj.
    rewrite (nth_map_in _ _ _ _ (0, 0)) by (rewrite combine_length, map_length; lia). rewrite combine_nth by apply map_length. cbn [fst snd].
    rewrite (nth_map_in _ _ _ _ 0) by auto. reflexivity.
  - split; [apply map_length|]. intros j Hj. rewrite (nth_map_in _ _ _ _ 0) by auto. unfold course0. cbn [fst snd modulation]. ring.
Qed.
Lemma foft_loop_gives n tvals w l : (forall q, In q l -> (1 <= length (fst q))%nat) -> forall acc, shape acc n (length tvals) ->
  exists A, foft_loop n (length tvals) tvals w l acc = Ok A /\ shape A n (length tvals) /\
    forall j i, (j < n)%nat -> (i < length tvals)%nat -> cell A j i = cell acc j i + total (map course0 l) (nth i tvals 0) * item w j.
Proof.
  induction l as [|[p om] l IH]; intros Hl acc Sa.
  - exists acc. split; [reflexivity|]. split; auto. intros. unfold total. cbn. ring.
  - destruct (foft_values_gives p om tvals (Hl (p, om) ltac:(left; auto))) as (v & Ev & Lv & Hv).
    destruct (IH ltac:(intros; apply Hl; right; auto) (table n (length tvals) (fun j i => cell acc j i + item v i * item w j)) (table_shape _ _ _)) as (A & EA & SA & HA).
    exists A. split; [cbn [foft_loop]; rewrite Ev; cbn [bind]; exact EA|]. split; auto. intros j i Hj Hi. rewrite HA, cell_table by auto.
    unfold item at 1. rewrite Hv by auto. unfold total. cbn [map fold_right]. ring.
Qed.
Lemma courses_agree T0 l os Fs t : List.Forall2 (fun q F => is_load T0 (fst q) (snd q) F) (combine l os) Fs ->
  before_ends l t -> (forall p, In p l -> no_jump p t) -> total (map course0 (combine l os)) t = total Fs t.
Proof.
  revert os Fs. induction l as [|p l IH]; intros [|o os] Fs H Hb Hj; cbn [combine] in H; inversion H; subst; auto.
  cbn [combine map]. unfold total in *. cbn [map fold_right]. f_equal.
  - unfold course0. cbn [fst snd] in *. eapply value0_course; [eassumption|apply Hb; left; auto|apply Hj; left; auto].
  - apply IH; auto; [intros q Hq; apply Hb; right; auto|intros q Hq; apply Hj; right; auto].
Qed.
Lemma load_lengths T0 l os Fs : length os = length l -> List.Forall2 (fun q F => is_load T0 (fst q) (snd q) F) (combine l os) Fs -> forall q, In q (combine l os) -> (1 <= length (fst q))%nat.
Proof.
  intros _ H q Hq. induction H as [|q' F' l' Fs' H1 H2 IH]; [destruct Hq|]. destruct Hq as [<-|Hq]; auto. destruct H1 as ((_ & L & _) & _). lia.
Qed.

Section Foft.
Variables (T0 : R) (n : nat) (drn : Z) (m : list R) (Iw : list (list R)) (a : points) (f : R -> R) (top bot : option (list points)) (tom bom : om_arg) (Ts Bs : list (R -> R)).
Hypothesis Hm : length m = n.
Hypothesis Nm : forall x, In x m -> x <> 0.
Hypothesis HI : square n Iw.
Hypothesis Pa : depth_profile 0 1 a f.
Hypothesis Wa : well_separated [a].
Hypothesis HT : are_loads T0 (listed top) tom Ts.
Hypothesis HB : are_loads T0 (listed bot) bom Bs.
Let phi (k : nat) (z : R) := sin (nth k m 0 * z).
Let dphi (k : nat) (z : R) := nth k m 0 * cos (nth k m 0 * z).
Let st : R := if Z.eqb drn 1 then 0 else -1.
Definition fT l := st * vleft a 1 * phi l 1 - RI (fun z => f z * st * dphi l z).
Definition fB l := 1 * vleft a 1 * phi l 1 - RI (fun z => f z * 1 * dphi l z).
Definition c0T t := total (map course0 (combine (listed top) (modulations (length (listed top)) tom))) t.
Definition c0B t := total (map course0 (combine (listed bot) (modulations (length (listed bot)) bom))) t.
Definition foft_coef (j : nat) (t : R) := Sg n (fun k => cell Iw j k * (fT k * c0T t + fB k * c0B t)).
Lemma foft_ok tvals : exists F, foft_Ipsiw_the_BC_D_aDf drn m tvals Iw a top bot tom bom = Ok F /\ tabulates F n tvals foft_coef.
Proof using Hm Nm HI Pa Wa HT HB.
  destruct (zdist_ok drn a f Pa) as (zd & Ed & Pd & Id). destruct (zbot_ok a f Pa) as (zb & Eb & Pb & Ib).
  destruct (theta_D n m Hm Nm a zd f (top_shape drn) st 1 Pa Pd) as (v & Ev & Lv & Hv); [eapply sep_from; [exact Wa|]; intros p x [<-|[<-|[]]] Hx; exists a; cbn; rewrite ?Id in Hx; auto| |].
  { intros z. unfold top_shape, st. destruct (Z.eqb drn 1); ring. }
  destruct (theta_D n m Hm Nm a zb f (fun z => z) 1 0 Pa Pb) as (w & Ew & Lw & Hw); [eapply sep_from; [exact Wa|]; intros p x [<-|[<-|[]]] Hx; exists a; cbn; rewrite ?Ib in Hx; auto|intros; ring|].
  unfold foft_Ipsiw_the_BC_D_aDf. rewrite Ed, Eb. cbn [bind]. rewrite Ev, Ew. cbn [bind]. rewrite Hm.
  assert (DV : forall th g j, length th = n -> (forall k, (k < n)%nat -> item th k = g k) -> (j < n)%nat -> item (dot_mv Iw th) j = Sg n (fun k => cell Iw j k * g k)).
  { intros th g j Lt Hg Hj. rewrite item_dot_mv by (destruct HI; lia). rewrite Lt. apply Sg_ext. intros k Hk. rewrite Hg; auto. }
  assert (X : exists A, match top with None => Ok (zero_table n (length tvals)) | Some l => foft_loop n (length tvals) tvals (dot_mv Iw v) (combine l (om_list (length l) tom)) (zero_table n (length tvals)) end = Ok A /\
    shape A n (length tvals) /\ forall j i, (j < n)%nat -> (i < length tvals)%nat -> cell A j i = c0T (nth i tvals 0) * item (dot_mv Iw v) j).
  { unfold c0T. destruct HT as (LT & FT). destruct top as [l|]; cbn [listed] in *.
    - destruct (foft_loop_gives n tvals (dot_mv Iw v) _ (load_lengths T0 l _ Ts LT FT) _ (table_shape n (length tvals) (fun _ _ => 0))) as (A & EA & SA & HA).
      exists A. split; [exact EA|]. split; auto. intros j i Hj Hi. rewrite HA, cell_table by auto. change (om_list (length l) tom) with (modulations (length l) tom). ring.
    - eexists. split; [reflexivity|]. split; [apply table_shape|]. intros. unfold zero_table. rewrite cell_table by auto. unfold total; cbn. ring. }
  destruct X as (A & EA & SA & HA). rewrite EA. cbn [bind].
  assert (Y : exists B, match bot with None => Ok A | Some l => foft_loop n (length tvals) tvals (dot_mv Iw w) (combine l (om_list (length l) bom)) A end = Ok B /\
    shape B n (length tvals) /\ forall j i, (j < n)%nat -> (i < length tvals)%nat -> cell B j i = cell A j i + c0B (nth i tvals 0) * item (dot_mv Iw w) j).
  { unfold c0B. destruct HB as (LB & FB). destruct bot as [l|]; cbn [listed] in *.
    - destruct (foft_loop_gives n tvals (dot_mv Iw w) _ (load_lengths T0 l _ Bs LB FB) _ SA) as (B' & EB & SB & HB').
      exists B'. split; [exact EB|]. split; auto.
    - exists A. split; [reflexivity|]. split; auto. intros. unfold total; cbn. ring. }
  destruct Y as (B' & EB & SB & HB'). exists B'. split; [exact EB|]. destruct SB as (S1 & S2). split; [exact S1|]. split; [exact S2|].
  intros j i Hj Hi. change (nth i (nth j B' []) 0) with (cell B' j i). rewrite HB', HA by auto.
  rewrite (DV v fT j Lv) by (auto; intros k Hk; exact (proj2 (Hv k Hk))). rewrite (DV w fB j Lw) by (auto; intros k Hk; exact (proj2 (Hw k Hk))).
  unfold foft_coef. rewrite <- !Sg_scal, <- Sg_plus. apply Sg_ext. intros. ring.
Qed.
End Foft.

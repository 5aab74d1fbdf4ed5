(** * C99: the outputs of the spectral program are those of one pressure field *)
From Coq Require Import Reals List Arith ZArith Lia Lra Bool Sorted.
From Coquelicot Require Import Coquelicot.
From Verif Require Import Base PiecewiseModel LayersModel SpecPiecewise SpecPiecewiseApi PiecewiseProofs PiecewiseProofs2 PiecewiseProofs4 LayersProofs PropsLayers
  PolyLineModel SpecPolyLine SpecSuper PolyLineProofs2 PolyLineProofs3 PolyLineProofs4 PolyLineProofs5 PolyLineProofs6 PolyLineProofs7
  SpectralModel SpecSpectral PropsSpectral WrapModel SpecWrap WrapProofs PropsWrap LoadProofs2 SpecLoad TimeProofs TimeProofs2 PropsTime
  SpecSpeccon SpecconModel SpecconProofs SpecconProofs2 SpecconProofs3.
Import ListNotations.
Open Scope R_scope.
Local Notation at_ := SpecPiecewise.at_.
Local Notation entry := SpecSpectral.entry.

Section Outputs.
(** vE tabulates the coefficients a of the modes m at the times tvals; top and bot are the boundary
    pressures, with courses Ts and Bs. *)
Variables (drn : Z) (m tvals : list R) (vE : list (list R)) (a : nat -> R -> R) (T0 : R).
Variables (top bot : option (list points)) (tom bom : om_arg) (Ts Bs : list (R -> R)).
Hypothesis HE : tabulates vE (length m) tvals a.
Hypothesis Hm : (1 <= length m)%nat.
Hypothesis HT : are_loads T0 (listed top) tom Ts.
Hypothesis HB : are_loads T0 (listed bot) bom Bs.
Let u := pressure drn m a (total Ts) (total Bs).
Let in_tables t := before_ends (listed top) t /\ before_ends (listed bot) t.

Lemma cell_base P i j : (i < length P)%nat -> (j < length tvals)%nat ->
  entry (dot_mm P vE) i j = fold_right Rplus 0 (map (fun k => entry P i k * a k (nth j tvals 0)) (seq 0 (length m))).
Proof using HE Hm.
  clear HT HB. intros Hi Hj. pose proof (tab_hd _ _ _ _ HE Hm) as Hh. change (entry (dot_mm P vE) i j) with (cell (dot_mm P vE) i j). rewrite cell_dot_mm by (auto; lia).
  destruct HE as (L & _ & Hv). rewrite L. apply fold_ext. intros k Hk. apply in_seq in Hk. change (cell P i k) with (entry P i k).
  unfold cell. rewrite Hv by (auto; lia). reflexivity.
Qed.
Lemma base_shape P : shape (dot_mm P vE) (length P) (length tvals).
Proof using HE Hm. clear HT HB. rewrite <- (tab_hd _ _ _ _ HE Hm). apply dot_mm_shape. Qed.

Theorem C99_pressure : forall outz, (forall z, In z outz -> 0 <= z <= 1) ->
  exists A, dim1sin_f m outz tvals vE drn top bot tom bom = Ok A /\ shape A (length outz) (length tvals) /\
    forall i j, (i < length outz)%nat -> (j < length tvals)%nat -> in_tables (nth j tvals 0) ->
      entry A i j = u (nth i outz 0) (nth j tvals 0).
Proof using HE Hm HT HB.
  intros outz Hz. unfold dim1sin_f.
  destruct (add_both_ok T0 tvals (length outz) (if Z.eqb drn 1 then every_row (length outz) tvals else interp_multiply falling tvals outz)
    (interp_multiply rising tvals outz) (fun i => top_shape drn (nth i outz 0)) (fun i => nth i outz 0) top bot tom bom Ts Bs
    (dot_mm (dim1sin m outz) vE)) as (A & E & SA & HA); auto.
  - intros p Hp. unfold top_shape. destruct (Z.eqb drn 1); [apply every_row_gives; auto|].
    destruct (interp_multiply_gives 1 0 tvals outz p Hz Hp) as (A & E & S' & H). exists A. split; [exact E|]. split; auto.
    intros i j Hi Hj. rewrite H by auto. ring.
  - intros p Hp. destruct (interp_multiply_gives 0 1 tvals outz p Hz Hp) as (A & E & S' & H). exists A. split; [exact E|]. split; auto.
    intros i j Hi Hj. rewrite H by auto. ring.
  - pose proof (base_shape (dim1sin m outz)) as S'. unfold dim1sin at 2 in S'. rewrite map_length in S'. exact S'.
  - exists A. split; [exact E|]. split; auto. intros i j Hi Hj (H1 & H2). rewrite HA by auto.
    rewrite cell_base by (auto; unfold dim1sin; rewrite map_length; auto). unfold u, pressure, series. f_equal. f_equal.
    apply fold_ext. intros k Hk. apply in_seq in Hk. unfold SpecSpectral.entry, dim1sin.
    rewrite (nth_map_in _ _ _ _ 0) by auto. rewrite (nth_map_in _ _ _ _ 0) by lia. rewrite Rmult_comm. f_equal. f_equal. ring.
Qed.
(** Integral of a pressure field against a weight. *)
Lemma pressure_RInt (w : R -> R) (J : nat -> R) gt gb z1 z2 t :
  (forall k, (k < length m)%nat -> is_RInt (fun z => w z * sin (nth k m 0 * z)) z1 z2 (J k)) ->
  is_RInt (fun z => w z * top_shape drn z) z1 z2 gt -> is_RInt (fun z => w z * z) z1 z2 gb ->
  is_RInt (fun z => w z * u z t) z1 z2 (fold_right Rplus 0 (map (fun k => J k * a k t) (seq 0 (length m))) + total Ts t * gt + total Bs t * gb).
Proof using. clear HT HB HE Hm.
  intros HJ Hgt Hgb.
  pose proof (is_RInt_fold (fun k z => a k t * (w z * sin (nth k m 0 * z))) (fun k => J k * a k t) (seq 0 (length m)) z1 z2) as X.
  specialize (X ltac:(intros k Hk; apply in_seq in Hk; cbv beta; rewrite (Rmult_comm (J k)); apply (is_RInt_scal (V := R_NormedModule)); apply HJ; lia)).
  pose proof (is_RInt_scal (V := R_NormedModule) _ _ _ (total Ts t) _ Hgt) as Y. pose proof (is_RInt_scal (V := R_NormedModule) _ _ _ (total Bs t) _ Hgb) as Z'.
  eapply is_RInt_ext; [|exact (is_RInt_plus (V := R_NormedModule) _ _ _ _ _ _ (is_RInt_plus (V := R_NormedModule) _ _ _ _ _ _ X Y) Z')].
  - intros z _. unfold plus, scal; cbn; unfold Hierarchy.mult; cbn. unfold u, pressure, series.
    match goal with |- ?p = ?q => change (@eq R p q) end.
    replace (w z * (fold_right Rplus 0 (map (fun j => a j t * sin (nth j m 0 * z)) (seq 0 (length m))) + total Ts t * top_shape drn z + total Bs t * z))
      with (w z * fold_right Rplus 0 (map (fun j => a j t * sin (nth j m 0 * z)) (seq 0 (length m))) + total Ts t * (w z * top_shape drn z) + total Bs t * (w z * z)) by ring.
    rewrite <- fold_scal. f_equal. f_equal. apply fold_ext. intros; ring.
Qed.
Theorem C99_average : forall z, (forall q, In q z -> 0 <= fst q /\ fst q < snd q /\ snd q <= 1) -> (forall x, In x m -> x <> 0) ->
  exists A, dim1sin_avgf m z tvals vE drn top bot tom bom = Ok A /\ shape A (length z) (length tvals) /\
    forall i j, (i < length z)%nat -> (j < length tvals)%nat -> in_tables (nth j tvals 0) ->
      is_RInt (fun s => u s (nth j tvals 0)) (fst (nth i z (0, 0))) (snd (nth i z (0, 0)))
        (entry A i j * (snd (nth i z (0, 0)) - fst (nth i z (0, 0)))).
Proof using HE Hm HT HB.
  intros z Hz Nm. unfold dim1sin_avgf.
  destruct (avg_multiply_gives 1 0 tvals z Hz) as (g1 & Hg1 & G1). destruct (avg_multiply_gives 0 1 tvals z Hz) as (g2 & Hg2 & G2).
  destruct (add_both_ok T0 tvals (length z) (if Z.eqb drn 1 then every_row (length z) tvals else avg_multiply falling tvals (map fst z) (map snd z))
    (avg_multiply rising tvals (map fst z) (map snd z)) (fun i => if Z.eqb drn 1 then 1 else g1 i) g2 top bot tom bom Ts Bs
    (dot_mm (dim1sin_avg_between m z) vE)) as (A & E & SA & HA); auto.
  - intros p Hp. destruct (Z.eqb drn 1); [apply every_row_gives; auto|]. apply G1; auto.
  - pose proof (base_shape (dim1sin_avg_between m z)) as S'. unfold dim1sin_avg_between at 2 in S'. rewrite map_length in S'. exact S'.
  - exists A. split; [exact E|]. split; auto. intros i j Hi Hj (H1 & H2). rewrite HA by auto.
    rewrite cell_base by (auto; unfold dim1sin_avg_between; rewrite map_length; auto).
    set (q1 := fst (nth i z (0, 0))). set (q2 := snd (nth i z (0, 0))). set (t := nth j tvals 0).
    assert (Hq : q1 < q2) by (apply (Hz (nth i z (0, 0))); apply nth_In; auto).
    pose proof (pressure_RInt (fun _ => 1) (fun k => (q2 - q1) * entry (dim1sin_avg_between m z) i k) ((if Z.eqb drn 1 then 1 else g1 i) * (q2 - q1)) (g2 i * (q2 - q1)) q1 q2 t) as X.
    apply (is_RInt_ext (fun z => 1 * u z t)); [intros; apply Rmult_1_l|].
    eapply (eq_ind _ (fun v => is_RInt _ _ _ v)); [apply X|].
    + intros k Hk. eapply is_RInt_ext; [|apply (C28_avg_between m z i k Hi Hk)].
      * intros; cbv beta. match goal with |- ?p = ?q => change (@eq R p q) end. ring.
      * fold q1 q2. lra.
      * apply Nm. apply nth_In; auto.
    + unfold top_shape. destruct (Z.eqb drn 1).
      * eapply (eq_ind _ (fun v => is_RInt _ _ _ v)); [apply (is_RInt_ext (fun _ => 1)); [intros; symmetry; apply Rmult_1_l|apply (is_RInt_const (V := R_NormedModule))]|].
        unfold scal; cbn; unfold Hierarchy.mult; cbn. match goal with |- ?p = ?q => change (@eq R p q) end. ring.
      * eapply is_RInt_ext; [|apply (Hg1 i Hi)]. intros; cbv beta. match goal with |- ?p = ?q => change (@eq R p q) end. ring.
    + eapply is_RInt_ext; [|apply (Hg2 i Hi)]. intros; cbv beta. match goal with |- ?p = ?q => change (@eq R p q) end. ring.
    + cbv beta. rewrite !Rmult_plus_distr_r. rewrite (Rmult_comm (fold_right Rplus 0 _) (q2 - q1)). rewrite <- fold_scal. f_equal; [f_equal|]; [|ring|ring].
      apply fold_ext. intros; ring.
Qed.
Theorem C99_integral : forall z0 z1 w f z, depth_profile z0 z1 w f -> well_separated [w] ->
  (forall q, In q z -> z0 <= fst q /\ fst q < snd q /\ snd q <= z1) -> (forall x, In x m -> x <> 0) ->
  exists A, dim1sin_integrate_af m z tvals vE drn w top bot tom bom = Ok A /\ shape A (length z) (length tvals) /\
    forall i j, (i < length z)%nat -> (j < length tvals)%nat -> in_tables (nth j tvals 0) ->
      is_RInt (fun s => f s * u s (nth j tvals 0)) (fst (nth i z (0, 0))) (snd (nth i z (0, 0))) (entry A i j).
Proof using HE Hm HT HB.
  intros z0 z1 w f z Pw Ww Hz Nm. unfold dim1sin_integrate_af.
  destruct (C97_a_between m z0 z1 w f z Pw Nm Hz) as (phi & Ephi & Lphi & Hphi). rewrite Ephi. cbn [bind].
  assert (X : exists c, (if Z.eqb drn 1 then over_layers w (fun _ => 1) else over_layers w (fun x => 1 - x)) = Ok c /\
    depth_profile z0 z1 c (top_shape drn) /\ forall x, In x (px c) <-> In x (px w)).
  { unfold top_shape. destruct (Z.eqb drn 1).
    - apply (over_layers_ok z0 z1 w f (fun _ => 1) 1 0 Pw). intros; ring.
    - apply (over_layers_ok z0 z1 w f (fun x => 1 - x) 1 (-1) Pw). intros; ring. }
  destruct X as (c1 & E1 & P1 & I1).
  destruct (over_layers_ok z0 z1 w f (fun x => x) 0 1 Pw) as (c2 & E2 & P2 & I2); [intros; ring|].
  assert (W : forall c, (forall x, In x (px c) <-> In x (px w)) -> well_separated [w; c]).
  { intros c Ic. eapply separated_sub; [apply Ww|]. intros x. cbn. rewrite !app_nil_r, in_app_iff. rewrite Ic. tauto. }
  destruct (single_load_gives z0 z1 w c1 f (top_shape drn) tvals z Pw P1 (W c1 I1) Hz) as (k1 & Hk1 & K1).
  destruct (single_load_gives z0 z1 w c2 f (fun x => x) tvals z Pw P2 (W c2 I2) Hz) as (k2 & Hk2 & K2).
  destruct (add_both_ok T0 tvals (length z)
    (fun p => c <- (if Z.eqb drn 1 then over_layers w (fun _ => 1) else over_layers w (fun x => 1 - x)) ;;
                     single_load p w c None tvals (map fst z) (map snd z) true)
           (fun p => c <- over_layers w (fun x => x) ;; single_load p w c None tvals (map fst z) (map snd z) true)
    k1 k2 top bot tom bom Ts Bs (dot_mm phi vE)) as (A & E & SA & HA); auto.
  - intros p Hp. rewrite E1. cbn [bind]. apply K1; auto.
  - intros p Hp. rewrite E2. cbn [bind]. apply K2; auto.
  - rewrite <- Lphi. apply base_shape.
  - exists A. split; [exact E|]. split; auto. intros i j Hi Hj (H1 & H2). rewrite HA by auto. rewrite cell_base by (auto; lia).
    apply pressure_RInt; auto.
Qed.
End Outputs.
Print Assumptions C99_pressure.
Print Assumptions C99_average.
Print Assumptions C99_integral.

(** Loads without a modulation of their own are dropped without notice. *)
Theorem C99_short_modulations_refuted : forall m outz tvals vE drn l bot o bom,
  dim1sin_f m outz tvals vE drn (Some l) bot (Some o) bom =
  dim1sin_f m outz tvals vE drn (Some (firstn (length o) l)) bot (Some o) bom.
Proof.
  intros. unfold dim1sin_f, add_both. cbn [om_list]. rewrite <- combine_firstn_r. reflexivity.
Qed.
Print Assumptions C99_short_modulations_refuted.

Example C99_witness : exists m vE a Ts f A B D,
  tabulates vE (length m) [0; 1] a /\ (1 <= length m)%nat /\ (forall x, In x m -> x <> 0) /\
  are_loads 0 (listed (Some [ex_load; ex_load])) (Some [None; Some (2, 1)]) Ts /\ are_loads 0 (listed None) None [] /\
  before_ends [ex_load; ex_load] 1 /\ depth_profile 0 1 pr_a f /\ well_separated [pr_a] /\
  dim1sin_f m [0; 1/3] [0; 1] vE 0 (Some [ex_load; ex_load]) None (Some [None; Some (2, 1)]) None = Ok A /\
  entry A 1 1 = pressure 0 m a (total Ts) (total []) (1/3) 1 /\
  dim1sin_avgf m [(0, 1/3)] [0; 1] vE 0 (Some [ex_load; ex_load]) None (Some [None; Some (2, 1)]) None = Ok B /\
  dim1sin_integrate_af m [(0, 1/3)] [0; 1] vE 0 pr_a (Some [ex_load; ex_load]) None (Some [None; Some (2, 1)]) None = Ok D.
Proof.
  set (m := [PI; 2 * PI]). set (a := fun (j : nat) t => INR j + t). set (vE := map (fun j => map (a j) [0; 1]) (seq 0 2)).
  assert (LC : forall om, exists F, load_course ex_load om F) by (intros om; eexists; apply load_course_exists, ex_load_proper).
  destruct (LC None) as (F1 & HF1). destruct (LC (Some (2, 1))) as (F2 & HF2).
  destruct pr_a_ok as (f & Pf).
  assert (HT : are_loads 0 (listed (Some [ex_load; ex_load])) (Some [None; Some (2, 1)]) [F1; F2]).
  { split; [reflexivity|]. cbn. assert (X : at_ (px ex_load) 0 < at_ (px ex_load) (length ex_load - 1)) by (cbn; lra).
    assert (Y : starts 0 ex_load) by (left; cbn; lra).
    assert (Z : forall om F, load_course ex_load om F -> is_load 0 ex_load om F) by (intros om F HF; exact (conj ex_load_proper (conj X (conj Y HF)))).
    constructor; [apply Z; exact HF1|]. constructor; [apply Z; exact HF2|constructor]. }
  assert (HB : are_loads 0 (listed None) None []) by (split; [reflexivity|constructor]).
  assert (HE : tabulates vE (length m) [0; 1] a).
  { split; [reflexivity|]. split; [intros row [<-|[<-|[]]]; reflexivity|]. intros [|[|j]] [|[|i]] Hj Hi; cbn in Hj, Hi; try lia; reflexivity. }
  assert (Hm : (1 <= length m)%nat) by (cbn; lia).
  assert (Nm : forall x, In x m -> x <> 0) by (pose proof PI_RGT_0; intros x [<-|[<-|[]]]; lra).
  assert (Bf : before_ends [ex_load; ex_load] 1) by (intros p [<-|[<-|[]]]; unfold before_end; cbn; lra).
  assert (W : well_separated [pr_a]) by (eapply separated_sub; [apply pr_sep|]; intros x; cbn; tauto).
  assert (Z1 : forall z, In z [0; 1/3] -> 0 <= z <= 1) by (intros z [<-|[<-|[]]]; lra).
  assert (Z2 : forall q, In q [(0, 1/3)] -> 0 <= fst q /\ fst q < snd q /\ snd q <= 1) by (intros q [<-|[]]; cbn; lra).
  destruct (C99_pressure 0 m [0; 1] vE a 0 _ _ _ _ _ _ HE Hm HT HB [0; 1/3] Z1) as (A & EA & _ & HA).
  destruct (C99_average 0 m [0; 1] vE a 0 _ _ _ _ _ _ HE Hm HT HB [(0, 1/3)] Z2 Nm) as (B & EB & _).
  destruct (C99_integral 0 m [0; 1] vE a 0 _ _ _ _ _ _ HE Hm HT HB 0 1 pr_a f [(0, 1/3)] Pf W Z2 Nm) as (D & ED & _).
  exists m, vE, a, [F1; F2], f, A, B, D. split; [exact HE|]. split; [exact Hm|]. split; [exact Nm|]. split; [exact HT|]. split; [exact HB|]. split; [exact Bf|].
  split; [exact Pf|]. split; [exact W|]. split; [exact EA|]. split; [|split; [exact EB|exact ED]].
  apply (HA 1%nat 1%nat); [cbn; lia|cbn; lia|]. split; [exact Bf|]. intros p [].
Qed.

(** * Difference of two depth profiles; outputs of the unsaturated program *)
From Coq Require Import Reals List Arith ZArith Lia Lra Bool Sorted.
From Coquelicot Require Import Coquelicot.
From Verif Require Import Base PiecewiseModel LayersModel SpecPiecewise SpecPiecewiseApi PiecewiseProofs PiecewiseProofs2 PiecewiseProofs3 LayersProofs PolyLineModel SpecPolyLine
  PolyLineProofs2 PolyLineProofs3 PolyLineProofs4 PolyLineProofs5 PolyLineProofs6 PolyLineProofs7 PropsPolyLine
  SpectralModel SpecSpectral WrapModel SpecWrap WrapProofs PropsWrap LoadModel LoadTrigModel SpecLoad
  SpecSpeccon SpecconModel SpecconProofs SpecconProofs2 SpecconProofs3 SpecconProofs4 SpecconProofs5 PropsSpeccon SpecGalerkin SpecconProofs6 SpecconProofs7 SpecconProofs8 SpecconProofs9 SpecconProofs10
  UnsatModel SpecUnsat UnsatProofs UnsatProofs2 UnsatProofs3.
Import ListNotations.
Open Scope R_scope.
Local Notation entry := SpecSpectral.entry.
Local Notation at_ := SpecPiecewise.at_.

Lemma subtract_ok z0 z1 a b f g : depth_profile z0 z1 a f -> depth_profile z0 z1 b g -> well_separated [a; b] ->
  remove_superfluous_from_x_y (/ 100000000) a = a -> remove_superfluous_from_x_y (/ 100000000) b = b -> noticeable_steps2 Rminus a b ->
  exists s, add_points Rminus a b = Ok s /\ depth_profile z0 z1 s (fun z => f z - g z) /\ (forall x, In x (px s) <-> In x (px a ++ px b)).
Proof.
  intros Pa Pb W Ka Kb N. pose proof Pa as (Ra & Na & A0 & A1 & Df). pose proof Pb as (Rb & Nb & B0 & B1 & Dg).
  destruct (add_points_eq Rminus a b a b (conj Ra (or_introl eq_refl)) (conj Rb (or_introl eq_refl)) W) as (G & HG & G2 & E). rewrite Ka, Kb in *.
  set (yl := fun x => vleft a x - vleft b x) in *. set (yr := fun x => vright a x - vright b x) in *.
  exists (emits yl yr G). split; [exact E|]. destruct HG as (SG & InG). cbn [map concat] in InG. rewrite app_nil_r in InG.
  assert (Rg : forall x, In x G -> z0 <= x <= z1).
  { intros x Hx. apply InG, in_app_or in Hx. destruct Hx as [H|H]; [exact (profile_range _ _ _ _ x Pa H)|exact (profile_range _ _ _ _ x Pb H)]. }
  destruct (profile_ends _ _ _ _ Pa) as (I0 & I1 & Hlt).
  assert (J0 : In z0 G) by (apply InG, in_or_app; auto). assert (J1 : In z1 G) by (apply InG, in_or_app; auto).
  assert (Gne : G <> []) by (intros ->; contradiction).
  split; [|intros x; rewrite emits_in; apply InG].
  split; [apply emits_rightward; auto|]. split; [apply emits_steps; auto|]. split; [|split].
  - destruct G as [|g0 G]; [contradiction|]. rewrite emits_first. apply Rle_antisym; [apply (hd_min G); auto|]. apply Rg. left; auto.
  - rewrite <- px_length'. rewrite (last_at _ 0).
    + rewrite emits_last by auto. apply Rle_antisym.
      * apply Rg. destruct (exists_last Gne) as (Q & y & ->). rewrite last_last. apply in_or_app. right; left; auto.
      * apply last_max; auto.
    + intros C. pose proof (emits_length yl yr G). rewrite <- px_length', C in H. cbn in H. lia.
  - rewrite convert_emits; [|exact SG|intros; apply N].
    destruct (value_exists a false) as (va & Ha); [destruct Ra as (_ & L & _); intros ->; cbn in L; lia|].
    destruct (value_exists b false) as (vb & Hb); [destruct Rb as (_ & L & _); intros ->; cbn in L; lia|].
    assert (Va : value_of a va) by (exists false; auto). assert (Vb : value_of b vb) by (exists false; auto).
    pose proof (grid_described Rminus ltac:(intros; cbn; ring) a b va vb G Ra Rb Va Vb SG ltac:(intros c Hc; apply InG; apply in_or_app; exact Hc)) as D.
    intros l t Hl Ht. rewrite <- (D l t Hl Ht). cbv beta.
    apply in_map_iff in Hl. destruct Hl as ([u w] & <- & H). cbn [fst snd lx1 lx2] in Ht.
    destruct (pairs_sorted G u w SG H) as (Huw & Hu & Hw & Hno).
    assert (Eq : forall o fo vo, depth_profile z0 z1 o fo -> (forall x, In x (px o) -> In x G) -> value_of o vo -> vo t = fo t).
    { intros o fo vo Po Sub Vo. pose proof Po as (Ro & _ & E0 & E1 & Do).
      destruct (inside_layer o t Ro) as (k & Hk & Htk).
      - rewrite E0, E1. pose proof (Rg u Hu). pose proof (Rg w Hw). lra.
      - intros C. apply Sub in C. specialize (Hno t C). lra.
      - destruct (points_described o vo Ro Vo) as (_ & _ & Dv). rewrite (Do k t Hk Htk), (Dv k t Hk Htk). reflexivity. }
    rewrite (Eq a f va Pa), (Eq b g vb Pb); auto; intros x Hx; apply InG, in_or_app; auto.
Qed.

(** ** Integrals of a pressure or of the surcharge with any coefficient *)
Lemma integral_ok P ph T0 m tvals vE b c f z : represents T0 P ph -> (1 <= neig P)%nat -> Hh P <> 0 -> make_m P = Ok m -> tabulates vE (neig P) tvals b ->
  depth_profile 0 1 c f -> well_separated [c] -> (forall q, In q z -> 0 <= fst q /\ fst q < snd q /\ snd q <= 1) ->
  exists B, dim1sin_integrate_af m z tvals vE (drn P) c (top_vs_time P) (normalised_bot P) (top_omega_phase P) (bot_omega_phase P) = Ok B /\ shape B (length z) (length tvals) /\
    forall i j, (i < length z)%nat -> (j < length tvals)%nat -> before_ends (load_tables P) (nth j tvals 0) ->
      is_RInt (fun s => f s * pore P ph m b s (nth j tvals 0)) (fst (nth i z (0, 0))) (snd (nth i z (0, 0))) (entry B i j).
Proof.
  intros HR Hn HH Em HE Pc Wc Hz. destruct (boundary P ph T0 m b HR HH) as (Ts & Bs & HT & HB & Eu). destruct (m_facts P m Em Hn) as (Lm & Nm & _).
  destruct (C99_integral (drn P) m tvals vE b T0 _ _ _ _ Ts Bs ltac:(rewrite Lm; exact HE) ltac:(lia) HT HB 0 1 c f z Pc Wc Hz Nm) as (B & EB & SB & HBv).
  exists B. split; [exact EB|]. split; [exact SB|]. intros i j Hi Hj O. destruct (ok_both P _ O) as (O1 & O2).
  eapply RInt_eq; [apply (HBv i j Hi Hj); auto|intros s; rewrite Eu; reflexivity|reflexivity].
Qed.
Lemma load_ok T0 sz st om L c f tvals z : are_depth_loads T0 (Some sz) (Some st) om L -> depth_profile 0 1 c f -> well_separated (c :: sz) ->
  (forall q, In q z -> 0 <= fst q /\ fst q < snd q /\ snd q <= 1) ->
  exists M, cos_super (Many st) (Many sz) c tvals (map fst z) (map snd z) (om_super om) true = Ok M /\ shape M (length z) (length tvals) /\
    forall i j, (i < length z)%nat -> (j < length tvals)%nat -> before_ends st (nth j tvals 0) ->
      is_RInt (fun s => f s * applied L s (nth j tvals 0)) (fst (nth i z (0, 0))) (snd (nth i z (0, 0))) (entry M i j).
Proof.
  intros (L1 & L2 & F) Pc W Hz. set (oms := modulations (length st) om) in *.
  destruct (super_gives T0 c f tvals z (combine (combine st sz) oms) L Pc F) with (out := zeros (length (map fst z)) (length tvals)) as (M & EM & SM & HM); auto.
  { eapply sep_from; [exact W|]. intros p x [<-|Hp] Hx; [exists c; cbn; auto|]. exists p. split; auto. right.
    apply in_map_iff in Hp. destruct Hp as ([[p' zz] o] & <- & Hq). apply in_combine_l, in_combine_r in Hq. exact Hq. }
  { rewrite map_length. apply zeros_shape. }
  exists M. split; [|split; [exact SM|]].
  - unfold cos_super. cbn [listify].
    assert (EO : om_items (length st) (om_super om) = map item_of oms).
    { unfold oms, modulations, om_super, om_items. destruct om as [o|]; [reflexivity|]. clear. generalize (length st). intros k. induction k; cbn; congruence. }
    rewrite EO, map_length. rewrite L1, Nat.eqb_refl. cbn [negb]. rewrite L2, Nat.eqb_refl. cbn [negb]. rewrite combine_map_l, <- EM. f_equal.
    apply map_ext. intros [[? ?] ?]; reflexivity.
  - intros i j Hi Hj O. destruct (HM i j Hi Hj) as (x & Hx & Ex).
    { intros [[p zz] o] Hq. apply in_combine_l, in_combine_l in Hq. apply O. exact Hq. }
    rewrite Ex, zeros_entry, Rplus_0_l. exact Hx.
Qed.

Section Outputs.
Variables (U : uproblem) (w a : physics) (sk : skeleton) (T0 : R) (m tvals : list R) (W A : list (list R)) (cw ca : nat -> R -> R).
Let n := u_neig U.
Hypothesis HR : represents_unsat T0 U w a sk.
Hypothesis Hn : (1 <= n)%nat.
Hypothesis HH : u_H U <> 0.
Hypothesis Em : u_make_m U = Ok m.
Hypothesis HW : tabulates W n tvals cw.
Hypothesis HA : tabulates A n tvals ca.
Let uw := water_pressure U w m cw.
Let ua := air_pressure U a m ca.
Let sig := applied (f_surcharge w).

Lemma u_set_ok z : (forall q, In q z -> 0 <= fst q /\ fst q < snd q /\ snd q <= 1) -> (u_surcharge_vs_depth U = None -> u_surcharge_vs_time U = None) -> subtractable U ->
  exists S0 Sw Sa, 
   (let air c := dim1sin_integrate_af m z tvals A (u_drn U) c (atop_vs_time U)
                 (u_normalised U (abot_vs_time U)) (atop_omega_phase U) (abot_omega_phase U) in
  let water c := dim1sin_integrate_af m z tvals W (u_drn U) c (wtop_vs_time U)
                   (u_normalised U (wbot_vs_time U)) (wtop_omega_phase U) (wbot_omega_phase U) in
  dw <- add_points Rminus (m2w U) (m1kw U) ;;
  setw <- air dw ;;
  B <- water (m2w U) ;; let setw := madd setw (mscale (-1) B) in
  da <- add_points Rminus (m2a U) (m1ka U) ;;
  seta <- air da ;;
  B <- water (m2a U) ;; let setw := madd setw (mscale (-1) B) in
  r <- match u_surcharge_vs_time U with
       | None => Ok (setw, seta)
       | Some st =>
           match u_surcharge_vs_depth U with
           | None => Err AttributeError
           | Some sz =>
               let load c := cos_super (Many st) (Many sz) c tvals (map fst z) (map snd z) (om_super (u_surcharge_omega_phase U)) true in
               B <- load (m1kw U) ;; let setw := madd setw B in
               B <- load (m1ka U) ;; Ok (setw, madd seta B)
           end
       end ;;
  let '(setw, seta) := r in
  let setw := mscale (u_H U * u_mvref U) setw in
  let seta := mscale (u_H U * u_mvref U) seta in
  Ok (madd seta setw, setw, seta)) = Ok (S0, Sw, Sa) /\
  shape S0 (length z) (length tvals) /\ shape Sw (length z) (length tvals) /\ shape Sa (length z) (length tvals) /\
  forall i j, (i < length z)%nat -> (j < length tvals)%nat -> u_before U (nth j tvals 0) ->
    let z1 := fst (nth i z (0, 0)) in let z2 := snd (nth i z (0, 0)) in let t := nth j tvals 0 in
    exists x y q,
      is_RInt (fun s => f_1kw sk s * (sig s t - ua s t) + f_mv w s * (ua s t - uw s t)) z1 z2 x /\
      is_RInt (fun s => f_1ka sk s * (sig s t - ua s t) + f_mv a s * (ua s t - uw s t)) z1 z2 y /\
      is_RInt (fun s => f_mv a s * uw s t) z1 z2 q /\
      entry S0 i j = u_H U * u_mvref U * (x + y) /\ entry Sw i j = u_H U * u_mvref U * (x - q) /\ entry Sa i j = u_H U * u_mvref U * (y + q).
Proof using HR Hn HH Em HW HA.
  intros Hz Hsv (K1 & K2 & K3 & K4 & N1 & N2).
  pose proof HR as (RW & RA & Es & Wsep & P1 & P2 & P3 & P4). pose proof RW as (_ & Qw & _ & _ & _ & _ & Hs & _). pose proof RA as (_ & Qa & _).
  cbn [mv water air surcharge_vs_depth surcharge_vs_time surcharge_omega_phase] in Qw, Qa, Hs.
  assert (Sep : forall l, (forall p, In p l -> In p ([m1kw U; m1ka U; m2w U; m2a U; u_n U; u_S U] ++ listed (u_surcharge_vs_depth U))) -> well_separated l) by (apply (u_sep U w a sk T0 HR)).
  destruct (subtract_ok 0 1 (m2w U) (m1kw U) (f_mv w) (f_1kw sk) Qw P1 ltac:(apply Sep; intros p [<-|[<-|[]]]; cbn; tauto) K3 K1 N1) as (dw & Edw & Pdw & Idw).
  destruct (subtract_ok 0 1 (m2a U) (m1ka U) (f_mv a) (f_1ka sk) Qa P2 ltac:(apply Sep; intros p [<-|[<-|[]]]; cbn; tauto) K4 K2 N2) as (da & Eda & Pda & Ida).
  assert (Sdw : well_separated [dw]).
  { eapply sep_from; [apply (Sep [m2w U; m1kw U]); intros p [<-|[<-|[]]]; cbn; tauto|]. intros p x [<-|[]] Hx. apply Idw, in_app_or in Hx. destruct Hx; [exists (m2w U)|exists (m1kw U)]; cbn; auto. }
  assert (Sda : well_separated [da]).
  { eapply sep_from; [apply (Sep [m2a U; m1ka U]); intros p [<-|[<-|[]]]; cbn; tauto|]. intros p x [<-|[]] Hx. apply Ida, in_app_or in Hx. destruct Hx; [exists (m2a U)|exists (m1ka U)]; cbn; auto. }
  destruct (integral_ok (air U) a T0 m tvals A ca dw _ z RA Hn HH Em HA Pdw Sdw Hz) as (B1 & E1 & S1 & H1).
  destruct (integral_ok (water U) w T0 m tvals W cw (m2w U) _ z RW Hn HH Em HW Qw ltac:(apply Sep; intros p [<-|[]]; cbn; tauto) Hz) as (B2 & E2 & S2 & H2).
  destruct (integral_ok (air U) a T0 m tvals A ca da _ z RA Hn HH Em HA Pda Sda Hz) as (B3 & E3 & S3 & H3).
  destruct (integral_ok (water U) w T0 m tvals W cw (m2a U) _ z RW Hn HH Em HW Qa ltac:(apply Sep; intros p [<-|[]]; cbn; tauto) Hz) as (B4 & E4 & S4 & H4).
  cbv zeta. rewrite Edw. cbn [bind].
  match goal with |- context [dim1sin_integrate_af m z tvals A (u_drn U) dw ?p ?q ?r ?s] => change (dim1sin_integrate_af m z tvals A (u_drn U) dw p q r s) with
    (dim1sin_integrate_af m z tvals A (drn (air U)) dw (top_vs_time (air U)) (normalised_bot (air U)) (top_omega_phase (air U)) (bot_omega_phase (air U))) end.
  rewrite E1. cbn [bind].
  match goal with |- context [dim1sin_integrate_af m z tvals W (u_drn U) (m2w U) ?p ?q ?r ?s] => change (dim1sin_integrate_af m z tvals W (u_drn U) (m2w U) p q r s) with
    (dim1sin_integrate_af m z tvals W (drn (water U)) (m2w U) (top_vs_time (water U)) (normalised_bot (water U)) (top_omega_phase (water U)) (bot_omega_phase (water U))) end.
  rewrite E2. cbn [bind]. rewrite Eda. cbn [bind].
  match goal with |- context [dim1sin_integrate_af m z tvals A (u_drn U) da ?p ?q ?r ?s] => change (dim1sin_integrate_af m z tvals A (u_drn U) da p q r s) with
    (dim1sin_integrate_af m z tvals A (drn (air U)) da (top_vs_time (air U)) (normalised_bot (air U)) (top_omega_phase (air U)) (bot_omega_phase (air U))) end.
  rewrite E3. cbn [bind].
  match goal with |- context [dim1sin_integrate_af m z tvals W (u_drn U) (m2a U) ?p ?q ?r ?s] => change (dim1sin_integrate_af m z tvals W (u_drn U) (m2a U) p q r s) with
    (dim1sin_integrate_af m z tvals W (drn (water U)) (m2a U) (top_vs_time (water U)) (normalised_bot (water U)) (top_omega_phase (water U)) (bot_omega_phase (water U))) end.
  rewrite E4. cbn [bind].
  set (nz := length z) in *. set (nt := length tvals) in *.
  assert (Sm : forall X c, shape X nz nt -> shape (mscale c X) nz nt) by (intros; apply mscale_shape; auto).
  assert (Sp : forall X Y, shape X nz nt -> shape Y nz nt -> shape (madd X Y) nz nt) by (intros; apply madd_shape; auto).
  assert (Me : forall X Y i j, shape X nz nt -> shape Y nz nt -> (i < nz)%nat -> (j < nt)%nat -> entry (madd X Y) i j = entry X i j + entry Y i j).
  { intros X Y i j SX SY Hi Hj. exact (madd_entry X Y nz nt i j SX SY Hi Hj). }
  assert (Sw0 : shape (madd (madd B1 (mscale (-1) B2)) (mscale (-1) B4)) nz nt) by auto.
  assert (Fin : forall X Y, shape X nz nt -> shape Y nz nt ->
     (forall i j, (i < nz)%nat -> (j < nt)%nat -> u_before U (nth j tvals 0) -> 
        is_RInt (fun s => f_1kw sk s * sig s (nth j tvals 0)) (fst (nth i z (0, 0))) (snd (nth i z (0, 0))) (entry X i j - entry (madd (madd B1 (mscale (-1) B2)) (mscale (-1) B4)) i j) /\
        is_RInt (fun s => f_1ka sk s * sig s (nth j tvals 0)) (fst (nth i z (0, 0))) (snd (nth i z (0, 0))) (entry Y i j - entry B3 i j)) ->
     exists S0 Sw Sa, Ok (madd (mscale (u_H U * u_mvref U) Y) (mscale (u_H U * u_mvref U) X), mscale (u_H U * u_mvref U) X, mscale (u_H U * u_mvref U) Y) = Ok (S0, Sw, Sa) /\
  shape S0 nz nt /\ shape Sw nz nt /\ shape Sa nz nt /\
  forall i j, (i < nz)%nat -> (j < nt)%nat -> u_before U (nth j tvals 0) ->
    exists x y q,
      is_RInt (fun s => f_1kw sk s * (sig s (nth j tvals 0) - ua s (nth j tvals 0)) + f_mv w s * (ua s (nth j tvals 0) - uw s (nth j tvals 0))) (fst (nth i z (0, 0))) (snd (nth i z (0, 0))) x /\
      is_RInt (fun s => f_1ka sk s * (sig s (nth j tvals 0) - ua s (nth j tvals 0)) + f_mv a s * (ua s (nth j tvals 0) - uw s (nth j tvals 0))) (fst (nth i z (0, 0))) (snd (nth i z (0, 0))) y /\
      is_RInt (fun s => f_mv a s * uw s (nth j tvals 0)) (fst (nth i z (0, 0))) (snd (nth i z (0, 0))) q /\
      entry S0 i j = u_H U * u_mvref U * (x + y) /\ entry Sw i j = u_H U * u_mvref U * (x - q) /\ entry Sa i j = u_H U * u_mvref U * (y + q)).
  { intros X Y SX SY HXY. do 3 eexists. split; [reflexivity|]. split; [auto|]. split; [auto|]. split; [auto|]. intros i j Hi Hj O. destruct (HXY i j Hi Hj O) as (X1 & Y1).
    specialize (H1 i j Hi Hj (proj2 O)). specialize (H2 i j Hi Hj (proj1 O)). specialize (H3 i j Hi Hj (proj2 O)). specialize (H4 i j Hi Hj (proj1 O)).
    eexists. eexists. eexists. split; [|split; [|split; [exact H4|]]].
    - eapply RInt_eq; [exact (RInt_add _ _ _ _ _ _ X1 (RInt_add _ _ _ _ _ _ H1 (RInt_mull _ _ _ (-1) _ H2)))| |reflexivity].
      intros s. cbv beta. unfold ua, uw, air_pressure, water_pressure. ring.
    - eapply RInt_eq; [exact (RInt_add _ _ _ _ _ _ Y1 (RInt_add _ _ _ _ _ _ H3 (RInt_mull _ _ _ (-1) _ H4)))| |reflexivity].
      intros s. cbv beta. unfold ua, uw, air_pressure, water_pressure. ring.
    - rewrite Me by auto. rewrite !mscale_entry, !Me by auto. rewrite !mscale_entry. split; [|split]; ring. }
  unfold are_depth_loads in Hs. destruct (u_surcharge_vs_time U) as [st|] eqn:Et.
  - destruct (u_surcharge_vs_depth U) as [sz|] eqn:Ez; [|specialize (Hsv eq_refl); discriminate].
    assert (D : are_depth_loads T0 (Some sz) (Some st) (u_surcharge_omega_phase U) (f_surcharge w)) by exact Hs.
    destruct (load_ok T0 sz st _ _ (m1kw U) (f_1kw sk) tvals z D P1 ltac:(apply Sep; cbn [listed]; intros p [<-|Hp]; [left; auto|apply in_or_app; right; auto]) Hz) as (L1 & EL1 & SL1 & HL1).
    destruct (load_ok T0 sz st _ _ (m1ka U) (f_1ka sk) tvals z D P2 ltac:(apply Sep; cbn [listed]; intros p [<-|Hp]; [right; left; auto|apply in_or_app; right; auto]) Hz) as (L2 & EL2 & SL2 & HL2).
    rewrite EL1. cbn [bind]. rewrite EL2. cbn [bind]. fold nz in SL1, HL1, SL2, HL2. fold nt in SL1, HL1, SL2, HL2.
    apply Fin; auto. intros i j Hi Hj O.
    assert (O' : before_ends st (nth j tvals 0)).
    { intros p Hp. apply (proj1 O). unfold load_tables. cbn [surcharge_vs_time water]. rewrite !in_app_iff, Et. cbn [listed]. auto. }
    split.
    + eapply RInt_eq; [exact (HL1 i j Hi Hj O')|intros s; reflexivity|rewrite Me by auto; ring].
    + eapply RInt_eq; [exact (HL2 i j Hi Hj O')|intros s; reflexivity|rewrite Me by auto; ring].
  - cbn [bind]. apply Fin; auto. intros i j Hi Hj O.
    assert (EL : f_surcharge w = []) by (destruct (u_surcharge_vs_depth U); auto).
    assert (Z0 : forall f x y, is_RInt (fun s => f s * sig s (nth j tvals 0)) x y 0).
    { intros f x y. apply (RInt_eq (fun _ => 0) _ _ _ ((y - x) * 0) 0); [apply (is_RInt_const (V := R_NormedModule))| |ring]. intros s. unfold sig. rewrite EL. unfold applied. cbn. ring. }
    split; (eapply RInt_eq; [apply Z0|intros s; reflexivity|ring]).
Qed.
End Outputs.

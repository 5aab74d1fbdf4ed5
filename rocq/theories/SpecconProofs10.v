(** * Outputs of the spectral program for the computed coefficients *)
From Coq Require Import Reals List Arith ZArith Lia Lra Bool Sorted.
From Coquelicot Require Import Coquelicot.
From Verif Require Import Base PiecewiseModel LayersModel SpecPiecewise SpecPiecewiseApi PolyLineModel SpecPolyLine PolyLineProofs2 PolyLineProofs6 PolyLineProofs7 PolyLineProofs4 SpectralModel SpecSpectral
  WrapModel SpecWrap LoadModel LoadTrigModel SpecLoad SpecSpeccon SpecconModel SpecconProofs SpecconProofs2 SpecconProofs3 SpecconProofs4 PropsSpeccon SpecGalerkin SpecconProofs6 SpecconProofs7 SpecconProofs8 SpecconProofs9.
Import ListNotations.
Open Scope R_scope.
Local Notation entry := SpecSpectral.entry.

(** ** Chosen times *)
Lemma pick_tabulates vE n tvals a idx : tabulates vE n tvals a -> (forall k, In k idx -> (k < length tvals)%nat) ->
  tabulates (pick_columns idx vE) n (pick idx tvals) a.
Proof.
  intros (L & Rw & H) Hi. split; [unfold pick_columns; rewrite map_length; auto|]. split.
  - intros row Hr. unfold pick_columns in Hr. apply in_map_iff in Hr. destruct Hr as (r & <- & _). unfold pick. rewrite !map_length. reflexivity.
  - intros j i Hj Hi'. unfold pick in Hi'. rewrite map_length in Hi'. unfold pick_columns, pick. rewrite (nth_map_in _ _ _ _ []) by lia.
    rewrite !(nth_map_in _ _ _ _ 0%nat) by auto. unfold item. apply H; auto. apply Hi. apply nth_In; auto.
Qed.
(** ** The surcharge in the settlement *)
Definition is_depth_load (T0 : R) (q : points * points * option (R * R)) (d : depth_load) : Prop :=
  is_load T0 (fst (fst q)) (snd q) (amp d) /\ amp0 d = initial (fst (fst q)) (snd q) /\ depth_profile 0 1 (snd (fst q)) (mag d).
Lemma load_values_gives T0 p om F tvals : is_load T0 p om F -> exists v, load_values p om tvals true = Ok v /\ length v = length tvals /\
  forall j, (j < length tvals)%nat -> before_end p (nth j tvals 0) -> nth j v 0 = F (nth j tvals 0).
Proof.
  intros H. assert (L : (1 <= length p)%nat) by (destruct H as ((_ & L & _) & _); lia).
  unfold load_values. rewrite values_ok by auto. cbn [bind].
  assert (V : forall t, before_end p t -> value p t * modulation om t = F t) by (intros t Ht; eapply value_course; eauto).
  destruct om as [[w ph']|]; eexists; (split; [reflexivity|]).
  - split; [rewrite map_length, combine_length, map_length; lia|]. intros j Hj Hb.
    rewrite (nth_map_in _ _ _ _ (0, 0)) by (rewrite combine_length, map_length; lia). rewrite combine_nth by apply map_length. cbn [fst snd].
    rewrite (nth_map_in _ _ _ _ 0) by auto. apply (V _ Hb).
  - split; [apply map_length|]. intros j Hj Hb. rewrite (nth_map_in _ _ _ _ 0) by auto. rewrite <- (V _ Hb). cbn [modulation]. ring.
Qed.
Lemma super_gives T0 w f tvals z l L : depth_profile 0 1 w f -> List.Forall2 (is_depth_load T0) l L -> well_separated (w :: map (fun q => snd (fst q)) l) ->
  (forall q, In q z -> 0 <= fst q /\ fst q < snd q /\ snd q <= 1) -> forall out, shape out (length z) (length tvals) ->
  exists M, super_loop (map (fun q => (fst (fst q), snd (fst q), item_of (snd q))) l) w tvals (map fst z) (map snd z) true out = Ok M /\
    shape M (length z) (length tvals) /\ forall i j, (i < length z)%nat -> (j < length tvals)%nat -> (forall q, In q l -> before_end (fst (fst q)) (nth j tvals 0)) ->
      exists x, is_RInt (fun s => f s * applied L s (nth j tvals 0)) (fst (nth i z (0, 0))) (snd (nth i z (0, 0))) x /\ entry M i j = entry out i j + x.
Proof.
  intros Pw F W Hz. induction F as [|[[mt mz] om] d l L (H1 & _ & H3) F IH]; intros out So; cbn [fst snd] in *.
  - exists out. split; [reflexivity|]. split; auto. intros i j Hi Hj _. exists 0. split; [|ring].
    apply (RInt_eq (fun _ => 0) _ _ _ ((snd (nth i z (0, 0)) - fst (nth i z (0, 0))) * 0) 0); [apply (is_RInt_const (V := R_NormedModule))| |ring].
    intros s. unfold applied. cbn. ring.
  - assert (W1 : well_separated [mz; w]).
    { eapply separated_sub; [exact W|]. intros x. cbn. rewrite !in_app_iff. cbn. tauto. }
    assert (W2 : well_separated (w :: map (fun q => snd (fst q)) l)).
    { eapply separated_sub; [exact W|]. intros x. cbn. rewrite !in_app_iff. tauto. }
    destruct (product_gives 0 1 mz w (mag d) f z H3 Pw W1 Hz) as (B & C & I & E & EI & FI).
    destruct (load_values_gives T0 mt om (amp d) tvals H1) as (ya & Ey & Ly & Vy).
    assert (LI : length I = length z) by (symmetry; eapply PolyLineProofs4.Forall2_length; eauto).
    assert (SO : shape (outer I ya) (length z) (length tvals)) by (rewrite <- LI, <- Ly; apply outer_shape).
    destruct (IH W2 (madd out (outer I ya)) (madd_shape _ _ _ _ So SO)) as (M & EM & SM & HM).
    exists M. cbn [map super_loop fst snd]. split; [|split; auto].
    + rewrite E. cbn [bind].
      assert (EO : match item_of om with ItemNone => Ok None | ItemPair o p => Ok (Some (o, p)) | ItemNumber _ => Err TypeError end = Ok om) by (destruct om as [[]|]; reflexivity).
      rewrite EO. cbn [bind]. unfold single_load. rewrite E. cbn [bind]. rewrite Ey. cbn [bind]. rewrite EI. cbn [bind]. exact EM.
    + intros i j Hi Hj Hb. destruct (HM i j Hi Hj) as (x & Hx & Ex); [intros; apply Hb; right; auto|].
      pose proof (Forall2_nth' _ _ _ i (0, 0) 0 FI Hi) as X. cbv beta in X.
      exists (amp d (nth j tvals 0) * nth i I 0 + x). split.
      * eapply RInt_eq; [exact (RInt_add _ _ _ _ _ _ (RInt_mull _ _ _ (amp d (nth j tvals 0)) _ X) Hx)| |reflexivity].
        intros s. unfold applied. cbn [map fold_right]. ring.
      * rewrite Ex. change SpecSpectral.entry with PolyLineProofs7.entry. rewrite (madd_entry out _ (length z) (length tvals)) by auto. rewrite outer_entry by lia.
        rewrite Vy by (auto; apply (Hb (mt, mz, om)); left; auto). ring.
Qed.
Lemma mscale_shape c A r k : shape A r k -> shape (mscale c A) r k.
Proof.
  intros (L & H). split; [unfold mscale; rewrite map_length; auto|]. intros row Hr. unfold mscale in Hr. apply in_map_iff in Hr.
  destruct Hr as (q & <- & Hq). rewrite map_length. auto.
Qed.
Lemma mscale_entry c A i j : entry (mscale c A) i j = entry A i j * c.
Proof.
  unfold SpecSpectral.entry, mscale. destruct (Nat.lt_ge_cases i (length A)) as [H|H].
  - rewrite (nth_map_in _ _ _ _ []) by auto. destruct (Nat.lt_ge_cases j (length (nth i A []))) as [H'|H'].
    + rewrite (nth_map_in _ _ _ _ 0) by auto. reflexivity.
    + rewrite !nth_overflow; try ring; auto. rewrite map_length. auto.
  - rewrite (nth_overflow (map _ A)) by (rewrite map_length; auto). rewrite (nth_overflow A) by auto. destruct j; cbn; ring.
Qed.
Lemma zeros_shape r k : shape (zeros r k) r k.
Proof. unfold zeros. split; [apply repeat_length|]. intros row H. apply repeat_spec in H. subst. apply repeat_length. Qed.
Lemma zeros_entry r k i j : entry (zeros r k) i j = 0.
Proof.
  unfold SpecSpectral.entry, zeros. destruct (Nat.lt_ge_cases i r).
  - assert (E : nth i (repeat (repeat 0 k) r) [] = repeat 0 k) by (apply (repeat_spec r); apply nth_In; rewrite repeat_length; auto). rewrite E.
    destruct (Nat.lt_ge_cases j k); [apply (repeat_spec k 0); apply nth_In; rewrite repeat_length; auto|apply nth_overflow; rewrite repeat_length; auto].
  - rewrite (nth_overflow (repeat _ _)) by (rewrite repeat_length; auto). destruct j; reflexivity.
Qed.
Lemma combine_map_l {T U V} (f : U -> V) (l : list T) (l' : list U) : combine l (map f l') = map (fun q => (fst q, f (snd q))) (combine l l').
Proof. revert l'. induction l as [|a l IH]; intros [|b l']; cbn; auto. rewrite IH. reflexivity. Qed.

Section Outputs.
Variables (P : problem) (ph : physics) (T0 : R) (m tvals : list R) (vE : list (list R)) (a : nat -> R -> R).
Hypothesis HR : represents T0 P ph.
Hypothesis Hn : (1 <= neig P)%nat.
Hypothesis HH : Hh P <> 0.
Hypothesis Em : make_m P = Ok m.
Hypothesis HE : tabulates vE (neig P) tvals a.
Let ok t := before_ends (load_tables P) t.

Lemma boundary : exists Ts Bs, are_loads T0 (listed (top_vs_time P)) (top_omega_phase P) Ts /\ are_loads T0 (listed (normalised_bot P)) (bot_omega_phase P) Bs /\
  forall z t, pore P ph m a z t = pressure (drn P) m a (total Ts) (total Bs) z t.
Proof using HR HH.
  pose proof HR as (_ & _ & _ & _ & (Ts & HTs & ET & ET0) & (Bs0 & HBs & EB & EB0) & _).
  exists Ts, (map (fun F s => bottom_factor P * F s) Bs0). split; auto. split; [apply bot_loads; auto|].
  intros z t. unfold pore, pressure. rewrite ET, total_map, EB. reflexivity.
Qed.
Lemma ok_both t : ok t -> before_ends (listed (top_vs_time P)) t /\ before_ends (listed (normalised_bot P)) t.
Proof using. clear. intros O. split; [apply top_ok|apply bot_ok]; auto. Qed.
Lemma por_ok zs : (forall z, In z zs -> 0 <= z <= 1) ->
  exists A, dim1sin_f m zs tvals vE (drn P) (top_vs_time P) (normalised_bot P) (top_omega_phase P) (bot_omega_phase P) = Ok A /\ shape A (length zs) (length tvals) /\
    forall i j, (i < length zs)%nat -> (j < length tvals)%nat -> ok (nth j tvals 0) -> entry A i j = pore P ph m a (nth i zs 0) (nth j tvals 0).
Proof using HR HH Em HE Hn.
  intros Hz. destruct boundary as (Ts & Bs & HT & HB & Eu). destruct (m_facts P m Em Hn) as (Lm & _).
  destruct (C99_pressure (drn P) m tvals vE a T0 _ _ _ _ Ts Bs ltac:(rewrite Lm; exact HE) ltac:(lia) HT HB zs Hz) as (A & EA & SA & HA).
  exists A. split; auto. split; auto. intros i j Hi Hj O. rewrite HA by (auto; apply ok_both; auto). symmetry. apply Eu.
Qed.
Lemma avp_ok z : (forall q, In q z -> 0 <= fst q /\ fst q < snd q /\ snd q <= 1) ->
  exists A, dim1sin_avgf m z tvals vE (drn P) (top_vs_time P) (normalised_bot P) (top_omega_phase P) (bot_omega_phase P) = Ok A /\ shape A (length z) (length tvals) /\
    forall i j, (i < length z)%nat -> (j < length tvals)%nat -> ok (nth j tvals 0) ->
      is_RInt (fun s => pore P ph m a s (nth j tvals 0)) (fst (nth i z (0, 0))) (snd (nth i z (0, 0))) (entry A i j * (snd (nth i z (0, 0)) - fst (nth i z (0, 0)))).
Proof using HR HH Em HE Hn.
  intros Hz. destruct boundary as (Ts & Bs & HT & HB & Eu). destruct (m_facts P m Em Hn) as (Lm & Nm & _).
  destruct (C99_average (drn P) m tvals vE a T0 _ _ _ _ Ts Bs ltac:(rewrite Lm; exact HE) ltac:(lia) HT HB z Hz Nm) as (A & EA & SA & HA).
  exists A. split; auto. split; auto. intros i j Hi Hj O. eapply RInt_eq; [apply (HA i j Hi Hj); apply ok_both; auto|intros s; symmetry; apply Eu|reflexivity].
Qed.
Lemma set_ok z : (forall q, In q z -> 0 <= fst q /\ fst q < snd q /\ snd q <= 1) -> (surcharge_vs_depth P = None -> surcharge_vs_time P = None) ->
  exists A, (B <- dim1sin_integrate_af m z tvals vE (drn P) (mv P) (top_vs_time P) (normalised_bot P) (top_omega_phase P) (bot_omega_phase P) ;;
     out <- match surcharge_vs_time P with
         | None => Ok (mscale (-1) B)
         | Some st =>
             match surcharge_vs_depth P with
             | None => Err AttributeError
             | Some sz => B' <- cos_super (Many st) (Many sz) (mv P) tvals (map fst z) (map snd z)
                               (om_super (surcharge_omega_phase P)) true ;; Ok (madd (mscale (-1) B) B')
             end
         end ;;
     Ok (mscale (Hh P * mvref P) out)) = Ok A /\ shape A (length z) (length tvals) /\
    forall i j, (i < length z)%nat -> (j < length tvals)%nat -> ok (nth j tvals 0) ->
      exists x, is_RInt (fun s => f_mv ph s * (applied (f_surcharge ph) s (nth j tvals 0) - pore P ph m a s (nth j tvals 0))) (fst (nth i z (0, 0))) (snd (nth i z (0, 0))) x /\
        entry A i j = Hh P * mvref P * x.
Proof using HR HH Em HE Hn.
  intros Hz Hsv. destruct boundary as (Ts & Bs & HT & HB & Eu). destruct (m_facts P m Em Hn) as (Lm & Nm & _).
  pose proof HR as (W & Pm & _ & _ & _ & _ & Hs & _).
  assert (Wm : well_separated [mv P]) by (apply (sep_sub P ph T0 HR); intros p [<-|[]]; apply profiles_in; auto).
  destruct (C99_integral (drn P) m tvals vE a T0 _ _ _ _ Ts Bs ltac:(rewrite Lm; exact HE) ltac:(lia) HT HB 0 1 (mv P) (f_mv ph) z Pm Wm Hz Nm) as (B & EB & SB & HBv).
  rewrite EB. cbn [bind].
  assert (HU : forall i j, (i < length z)%nat -> (j < length tvals)%nat -> ok (nth j tvals 0) ->
    is_RInt (fun s => f_mv ph s * pore P ph m a s (nth j tvals 0)) (fst (nth i z (0, 0))) (snd (nth i z (0, 0))) (entry B i j)).
  { intros i j Hi Hj O. eapply RInt_eq; [apply (HBv i j Hi Hj); apply ok_both; auto|intros s; rewrite Eu; reflexivity|reflexivity]. }
  unfold are_depth_loads in Hs. destruct (surcharge_vs_time P) as [st|] eqn:Et.
  - destruct (surcharge_vs_depth P) as [sz|] eqn:Es; [|specialize (Hsv eq_refl); discriminate].
    destruct Hs as (L1 & L2 & F). set (oms := modulations (length st) (surcharge_omega_phase P)) in *.
    destruct (super_gives T0 (mv P) (f_mv ph) tvals z (combine (combine st sz) oms) (f_surcharge ph) Pm F) with (out := zeros (length (map fst z)) (length tvals)) as (M & EM & SM & HM); auto.
    { apply (sep_sub P ph T0 HR). intros p [<-|Hp]; apply profiles_in; auto. apply in_map_iff in Hp. destruct Hp as ([[p' zz] o] & <- & Hq). apply in_combine_l, in_combine_r in Hq. rewrite Es. auto 10. }
    { rewrite map_length. apply zeros_shape. }
    assert (EC : cos_super (Many st) (Many sz) (mv P) tvals (map fst z) (map snd z) (om_super (surcharge_omega_phase P)) true = Ok M).
    { unfold cos_super. cbn [listify].
      assert (EO : om_items (length st) (om_super (surcharge_omega_phase P)) = map item_of oms).
      { unfold oms, modulations, om_super, om_items. destruct (surcharge_omega_phase P) as [o|]; [reflexivity|]. clear. generalize (length st). intros k. induction k; cbn; congruence. }
      rewrite EO, map_length. rewrite L1, Nat.eqb_refl. cbn [negb]. rewrite L2, Nat.eqb_refl. cbn [negb]. rewrite combine_map_l, <- EM. f_equal.
      apply map_ext. intros [[? ?] ?]; reflexivity. }
    rewrite EC. cbn [bind]. eexists. split; [reflexivity|]. split; [apply mscale_shape, madd_shape; [apply mscale_shape; auto|auto]|].
    intros i j Hi Hj O. destruct (HM i j Hi Hj) as (x & Hx & Ex).
    { intros [[p zz] o] Hq. apply in_combine_l, in_combine_l in Hq. apply O. unfold load_tables. rewrite !in_app_iff, Et. cbn [listed fst]. auto. }
    exists (x + (-1) * entry B i j). split.
    + eapply RInt_eq; [exact (RInt_add _ _ _ _ _ _ Hx (RInt_mull _ _ _ (-1) _ (HU i j Hi Hj O)))|intros s; cbv beta; ring|reflexivity].
    + rewrite mscale_entry. change SpecSpectral.entry with PolyLineProofs7.entry at 1. rewrite (madd_entry _ _ (length z) (length tvals)) by (auto; apply mscale_shape; auto).
      change PolyLineProofs7.entry with SpecSpectral.entry. rewrite mscale_entry, Ex, zeros_entry. ring.
  - assert (EL : f_surcharge ph = []) by (destruct (surcharge_vs_depth P); auto). cbn [bind]. eexists. split; [reflexivity|]. split; [apply mscale_shape, mscale_shape; auto|].
    intros i j Hi Hj O. exists ((-1) * entry B i j). split.
    + eapply RInt_eq; [exact (RInt_mull _ _ _ (-1) _ (HU i j Hi Hj O))|intros s; cbv beta; rewrite EL; unfold applied; cbn; ring|reflexivity].
    + rewrite !mscale_entry. ring.
Qed.
End Outputs.
Lemma pore_derive P ph m a z t : drn P = 0%Z \/ drn P = 1%Z -> is_derive (fun z => pore P ph m a z t) z (pore_z P ph m a z t).
Proof.
  intros Hd. unfold pore, pressure, series, pore_z, sum.
  assert (S' : forall l, is_derive (fun z => fold_right Rplus 0 (map (fun j => a j t * sin (nth j m 0 * z)) l)) z (fold_right Rplus 0 (map (fun j => a j t * (nth j m 0 * cos (nth j m 0 * z))) l))).
  { induction l as [|k l IH]; cbn [map fold_right]; [apply (is_derive_const (V := R_NormedModule))|].
    apply (is_derive_plus (V := R_NormedModule) (fun z => a k t * sin (nth k m 0 * z))); [|exact IH].
    auto_derive; auto. match goal with |- ?p = ?q => change (@eq R p q) end. ring. }
  apply (is_derive_plus (V := R_NormedModule) (fun z => fold_right Rplus 0 (map (fun j => a j t * sin (nth j m 0 * z)) (seq 0 (length m))) + p_top ph t * top_shape (drn P) z)).
  - apply (is_derive_plus (V := R_NormedModule)); [apply S'|]. unfold top_shape. destruct Hd as [-> | ->]; cbn [Z.eqb]; auto_derive; auto; match goal with |- ?p = ?q => change (@eq R p q) end; ring.
  - auto_derive; auto. match goal with |- ?p = ?q => change (@eq R p q) end; ring.
Qed.

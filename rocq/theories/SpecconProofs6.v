(** * All source terms of a problem together *)
From Coq Require Import Reals List Arith ZArith Lia Lra Bool Sorted FunctionalExtensionality.
From Coquelicot Require Import Coquelicot.
From Verif Require Import Base PiecewiseModel LayersModel SpecPiecewise SpecPiecewiseApi PolyLineModel SpecPolyLine PolyLineProofs2
  SpectralModel SpecSpectral PropsSpectral WrapModel SpecWrap WrapProofs PropsWrap LoadModel LoadTrigModel LoadProofs2 SpecLoad TimeProofs TimeProofs2 PropsTime
  SpecSpeccon SpecconModel SpecGalerkin SpecconProofs SpecconProofs2 SpecconProofs4 SpecconProofs5.
Import ListNotations.
Open Scope R_scope.
Local Notation at_ := SpecPiecewise.at_.
Local Notation RI f := (RInt f 0 1).

(** ** Scaled loads *)
Lemma scale_px c p : px (scale c p) = px p. Proof. unfold scale, px. rewrite map_map. reflexivity. Qed.
Lemma scale_py c p : py (scale c p) = map (fun y => y * c) (py p). Proof. unfold scale, py. rewrite !map_map. reflexivity. Qed.
Lemma scale_len c p : length (scale c p) = length p. Proof. apply map_length. Qed.
Lemma at_scale c p k : at_ (py (scale c p)) k = at_ (py p) k * c.
Proof.
  rewrite scale_py. unfold at_. destruct (Nat.lt_ge_cases k (length (py p))).
  - rewrite (nth_map_in _ _ _ _ 0) by auto. reflexivity.
  - rewrite !nth_overflow; try rewrite map_length; auto. ring.
Qed.
Lemma is_load_scale T0 p om F c : c <> 0 -> is_load T0 p om F -> is_load T0 (scale c p) om (fun t => c * F t).
Proof.
  intros Hc ((Hn & Hl & Hd) & Hlt & Hs & (HF1 & HF2)). unfold is_load, proper_load, starts, load_course. rewrite !scale_px, !scale_len, !at_scale.
  split; [|split; [auto|split]].
  - split; auto. split; auto. intros i Hi. specialize (Hd i Hi). unfold no_doubled_points in *. rewrite !at_scale.
    intros [E1 E2]. apply Hd. split; auto. apply (Rmult_eq_reg_r c); auto.
  - destruct Hs as [E|[E1 E2]]; auto. right. split; auto. rewrite E2. ring.
  - split.
    + intros k t Hk Ht. rewrite (HF1 k t Hk Ht). unfold chord. rewrite !at_scale. unfold Rdiv. ring.
    + intros t Ht. rewrite (HF2 t Ht). ring.
Qed.
Lemma initial_scale c p om : initial (scale c p) om = c * initial p om.
Proof. unfold initial. rewrite scale_px, at_scale. ring. Qed.
Lemma before_scale c p t : before_end (scale c p) t <-> before_end p t.
Proof. unfold before_end. rewrite scale_px, scale_len. tauto. Qed.
Lemma is_load_ext T0 p om F G : is_load T0 p om F -> (forall t, G t = F t) -> is_load T0 p om G.
Proof. intros (A & B & C' & (D & E)) H. split; auto. split; auto. split; auto. split; intros; rewrite H; auto. Qed.
Lemma total_map c Fs t : total (map (fun F s => c * F s) Fs) t = c * total Fs t.
Proof. unfold total. rewrite map_map. rewrite <- (fold_scal c (fun F => F t)). reflexivity. Qed.

Section Problem.
Variables (P : problem) (ph : physics) (T0 : R) (eigs : list R) (Igamv : list (list R)) (m : list R).
Let n := neig P.
Let ok t := before_ends (load_tables P) t.
Hypothesis HIg : length Igamv = n.
Hypothesis Heig : length eigs = n.
Hypothesis Hnz : forall lam, In lam eigs -> dT P * lam <> 0.
Hypothesis Hm : length m = n.
Hypothesis Nm : forall x, In x m -> x <> 0.
Hypothesis HR : represents T0 P ph.
Hypothesis HH : Hh P <> 0.
Hypothesis Hv : mvref P <> 0.
Hypothesis Hdrn : drn P = 0%Z \/ drn P = 1%Z.
Let phi (k : nat) (z : R) := sin (nth k m 0 * z).
Let dphi (k : nat) (z : R) := nth k m 0 * cos (nth k m 0 * z).
Let gt := top_shape (drn P).
Let st : R := if Z.eqb (drn P) 1 then 0 else -1.
Local Notation contributes' := (contributes n (dT P) T0 ok eigs Igamv).
Local Notation integ F t := (RInt F T0 t).

Lemma ok_of l t : (forall p, In p l -> In p (load_tables P)) -> ok t -> before_ends l t.
Proof using. clear. intros H O p Hp. apply O, H, Hp. Qed.
Lemma profiles_in p : In p (profiles P) <-> p = mv P \/ kv P = Some p \/ kh P = Some p \/ et P = Some p \/ In p (listed (surcharge_vs_depth P)) \/ In p (listed (vacuum_vs_depth P)).
Proof using.
  clear. unfold profiles. rewrite !in_app_iff. destruct (kv P) as [k1|], (kh P) as [k2|], (et P) as [k3|]; cbn [option_map listed In app]; split; intros H;
    repeat match goal with H : _ \/ _ |- _ => destruct H | H : False |- _ => contradiction | H : None = Some _ |- _ => discriminate | H : Some _ = Some _ |- _ => injection H as H end; subst; auto 10.
Qed.
Lemma sep_sub l : (forall p, In p l -> In p (profiles P)) -> well_separated l.
Proof using HR. intros H. destruct HR as (W & _). eapply sep_from; [exact W|]. intros p x Hp Hx. exists p. auto. Qed.

(** Bottom loads as the program uses them. *)
Lemma bot_loads Bs : are_loads T0 (listed (bot_vs_time P)) (bot_omega_phase P) Bs ->
  are_loads T0 (listed (normalised_bot P)) (bot_omega_phase P) (map (fun F s => bottom_factor P * F s) Bs).
Proof using HH. clear HR Hdrn.
  intros (L & F). unfold normalised_bot, bottom_factor. destruct (bot_vs_time P) as [l|]; cbn [listed] in *.
  2:{ split; auto. cbn in F. inversion F. constructor. }
  destruct (Z.eqb (drn P) 1).
  - split; [rewrite map_length; auto|]. rewrite map_length. generalize dependent (modulations (length l) (bot_omega_phase P)). intros o _ F.
    revert o Bs F. induction l as [|p l IH]; intros [|x o] Bs F; cbn in F |- *; inversion F; subst; cbn [map]; constructor.
    + cbn [fst snd] in *. apply is_load_scale; auto.
    + apply IH; auto.
  - split; auto. clear L. induction F; cbn [map]; constructor; auto. eapply is_load_ext; [exact H|]. intros; ring.
Qed.
Lemma bot_total0 Bs : are_loads T0 (listed (bot_vs_time P)) (bot_omega_phase P) Bs ->
  total0 (listed (normalised_bot P)) (bot_omega_phase P) = bottom_factor P * total0 (listed (bot_vs_time P)) (bot_omega_phase P).
Proof using. clear.
  intros (L & F). unfold normalised_bot, bottom_factor, total0. destruct (bot_vs_time P) as [l|]; cbn [listed] in *; [|cbn; ring].
  destruct (Z.eqb (drn P) 1); [|ring]. rewrite map_length. generalize (modulations (length l) (bot_omega_phase P)). intros o. rewrite <- fold_scal.
  clear L F. revert o. induction l as [|p l IH]; intros [|x o]; cbn [combine map fold_right fst snd]; try reflexivity. rewrite IH, initial_scale. reflexivity.
Qed.
Lemma bot_ok t : ok t -> before_ends (listed (normalised_bot P)) t.
Proof using. clear. intros O. assert (B : before_ends (listed (bot_vs_time P)) t).
  { intros p Hp. apply O. unfold load_tables. rewrite !in_app_iff. auto. }
  unfold normalised_bot. destruct (bot_vs_time P) as [l|]; cbn [listed] in *; auto. destruct (Z.eqb (drn P) 1); auto.
  intros p Hp. apply in_map_iff in Hp. destruct Hp as (q & <- & Hq). apply before_scale. apply B; auto.
Qed.
Lemma top_ok t : ok t -> before_ends (listed (top_vs_time P)) t.
Proof using. clear. intros O p Hp. apply O. unfold load_tables. rewrite !in_app_iff. auto. Qed.
Lemma total_changes l o Fs t : are_loads T0 l o Fs -> total (changes l o Fs) t = total Fs t - total0 l o.
Proof using. clear.
  intros (L & F). unfold changes, total, total0. induction F as [|q F' c Fs H F IH]; cbn; [ring|].
  cbn in IH. rewrite IH. ring.
Qed.
Lemma loads_RInt l o Fs t : are_loads T0 l o Fs -> T0 <= t -> before_ends l t ->
  is_RInt (total Fs) T0 t (total (integrals T0 Fs) t).
Proof using. clear.
  intros (L & F) Ht B. unfold total. unfold integrals. rewrite map_map. apply (is_RInt_fold (fun F s => F s) (fun F => RInt F T0 t)).
  intros F' HF'. apply (RInt_correct (V := R_CompleteNormedModule)).
  assert (B' : forall q, In q (combine l (modulations (length l) o)) -> before_end (fst q) t) by (intros [p x] Hq; apply in_combine_l in Hq; apply B; auto).
  clear L. induction F as [|q G c Fs H F IH]; [contradiction|]. destruct HF' as [<-|HF'].
  - eapply load_ex_RInt; eauto. apply B'. left; auto.
  - apply IH; auto. intros; apply B'; right; auto.
Qed.

(** ** Surcharge *)
Definition surcharge_src k t := fold_right Rplus 0 (map (fun d => RI (fun z => f_mv ph z * mag d z * phi k z) * (amp d t - amp0 d)) (f_surcharge ph)).
Lemma surcharge_contributes :
  (forall d k, In d (f_surcharge ph) -> (k < n)%nat -> ex_RInt (fun z => f_mv ph z * mag d z * phi k z) 0 1) /\ contributes' (fun tvals acc => match surcharge_vs_depth P, surcharge_vs_time P with
         | Some sz, Some st => add_part n (length tvals) 1
             (aDmagDt_bilinear m eigs tvals Igamv (mv P) sz st (surcharge_omega_phase P) (dT P) (pim P)) acc
         | _, _ => Ok acc
         end) surcharge_src.
Proof using HIg Heig Hnz Hm Nm HR.
  pose proof HR as (W & Pm & _ & _ & _ & _ & Hs & _). unfold are_depth_loads in Hs. unfold surcharge_src.
  destruct (surcharge_vs_depth P) as [sz|] eqn:Es; [destruct (surcharge_vs_time P) as [tt'|] eqn:Et|].
  2,3: rewrite Hs; split; [intros d k []|]; apply contributes_nothing.
  destruct Hs as (L1 & L2 & F).
  assert (Osub : forall p t, In p tt' -> ok t -> before_end p t).
  { intros p t Hp O. apply O. unfold load_tables. rewrite !in_app_iff, Et. cbn [listed]. auto. }
  assert (F' : List.Forall2 (depth_drives n (dT P) T0 ok eigs (fun tvals => load_ED (pim P) eigs tvals (dT P)))
     (combine (combine tt' sz) (modulations (length tt') (surcharge_omega_phase P))) (map (fun d => (fun t => amp d t - amp0 d, mag d)) (f_surcharge ph))).
  { assert (B : forall q, In q (combine (combine tt' sz) (modulations (length tt') (surcharge_omega_phase P))) -> In (fst (fst q)) tt').
    { intros [[p z] o] Hq. apply in_combine_l in Hq. apply in_combine_l in Hq. auto. }
    clear L1 L2. induction F as [|q d l L (H1 & H2 & H3) F IH]; cbn [map]; constructor.
    - split; cbn [fst snd]; auto. rewrite H2. apply (drives_ED n (dT P) T0 ok eigs Igamv HIg Heig Hnz (pim P)); auto.
      intros t. apply Osub. apply B. left; auto.
    - apply IH. intros; apply B; right; auto. }
  destruct (aDmag_contributes n (dT P) T0 ok eigs Igamv m HIg Hm Nm _ (f_mv ph) _ _ F' (mv P) Pm) as (X1 & X2).
  { apply sep_sub. intros p [<-|Hp]; apply profiles_in; auto. apply in_map_iff in Hp. destruct Hp as ([[p' z] o] & <- & Hq). apply in_combine_l, in_combine_r in Hq. rewrite Es. auto 10. }
  split.
  - intros d k Hd Hk. apply (X1 (fun t => amp d t - amp0 d, mag d) k); auto. apply in_map_iff. exists d; auto.
  - eapply contributes_ext; [apply (contributes_part _ _ _ _ _ _ 1 _ _ X2)| |].
    + intros tvals acc. unfold aDmagDt_bilinear. rewrite Hm. reflexivity.
    + intros k t _ _ _. cbv beta. rewrite map_map, Rmult_1_l. reflexivity.
Qed.
(** ** Vacuum *)
Definition vacuum_src k t := d_h ph * fold_right Rplus 0 (map (fun d => RI (fun z => f_kh ph z * f_et ph z * mag d z * phi k z) * integ (amp d) t) (f_vacuum ph)).
Lemma ex_zero (f : R -> R) a b : (forall z, f z = 0) -> ex_RInt f a b.
Proof using. clear. intros H. apply (ex_RInt_ext (V := R_NormedModule) (fun _ => 0)); [intros; symmetry; apply H|apply ex_RInt_const]. Qed.
Lemma vacuum_contributes :
  (forall d k, In d (f_vacuum ph) -> (k < n)%nat -> ex_RInt (fun z => f_kh ph z * f_et ph z * mag d z * phi k z) 0 1) /\ contributes' (fun tvals acc => match vacuum_vs_depth P, vacuum_vs_time P, et P, kh P, dTh P with
         | Some vz, Some vt, Some e, Some k, Some d => if Reqb d 0 then Ok acc else add_part n (length tvals) d
             (abmag_bilinear m eigs tvals Igamv k e vz vt (vacuum_omega_phase P) (dT P) (pim P)) acc
         | _, _, _, _, _ => Ok acc
         end) vacuum_src.
Proof using HIg Heig Hnz Hm Nm HR.
  pose proof HR as (W & _ & _ & Hd & _ & _ & _ & Hs & _). unfold are_depth_loads in Hs. unfold vacuum_src.
  destruct (vacuum_vs_depth P) as [sz|] eqn:Es; [destruct (vacuum_vs_time P) as [tt'|] eqn:Et|].
  2,3: rewrite Hs; split; [intros d k []|]; (eapply contributes_ext; [apply contributes_nothing|reflexivity|intros; cbn; ring]).
  destruct (kh P) as [kk|] eqn:Ek; [destruct (et P) as [ee|] eqn:Ee; [destruct (dTh P) as [dd|] eqn:Edd|]|].
  2,3,4: destruct Hd as (Hk0 & He0 & Hd0); split;
    [intros d k _ _; apply ex_zero; intros; rewrite Hk0; ring
    |eapply contributes_ext; [apply contributes_nothing|intros; try destruct (et P); reflexivity|intros; rewrite Hd0; ring]].
  destruct Hd as (Pk & Pe & Ed). destruct Hs as (L1 & L2 & F).
  assert (Osub : forall p t, In p tt' -> ok t -> before_end p t).
  { intros p t Hp O. apply O. unfold load_tables. rewrite !in_app_iff, Et. cbn [listed]. auto 10. }
  assert (F' : List.Forall2 (depth_drives n (dT P) T0 ok eigs (fun tvals => load_E (pim P) eigs tvals (dT P)))
     (combine (combine tt' sz) (modulations (length tt') (vacuum_omega_phase P))) (map (fun d => (fun t => integ (amp d) t, mag d)) (f_vacuum ph))).
  { assert (B : forall q, In q (combine (combine tt' sz) (modulations (length tt') (vacuum_omega_phase P))) -> In (fst (fst q)) tt').
    { intros [[p z] o] Hq. apply in_combine_l in Hq. apply in_combine_l in Hq. auto. }
    clear L1 L2. induction F as [|q d l L (H1 & H2 & H3) F IH]; cbn [map]; constructor.
    - split; cbn [fst snd]; auto. apply (drives_E n (dT P) T0 ok eigs Igamv HIg Heig Hnz (pim P)); auto.
      intros t. apply Osub. apply B. left; auto.
    - apply IH. intros; apply B; right; auto. }
  destruct (abmag_contributes n (dT P) T0 ok eigs Igamv m HIg Hm Nm _ (f_kh ph) (f_et ph) _ _ F' kk ee Pk Pe) as (X1 & X2).
  { apply sep_sub. intros p [<-|[<-|Hp]]; apply profiles_in; auto. apply in_map_iff in Hp. destruct Hp as ([[p' z] o] & <- & Hq). apply in_combine_l, in_combine_r in Hq. rewrite Es. auto 10. }
  split.
  - intros d k Hd Hk. apply (X1 (fun t => integ (amp d) t, mag d) k); auto. apply in_map_iff. exists d; auto.
  - rewrite Ed. destruct (Reqb dd 0) eqn:E0.
    + apply Reqb_true in E0. eapply contributes_ext; [apply contributes_nothing|reflexivity|]. intros; rewrite E0; ring.
    + eapply contributes_ext; [apply (contributes_part _ _ _ _ _ _ dd _ _ X2)| |].
      * intros tvals acc. unfold abmag_bilinear. rewrite Hm. reflexivity.
      * intros k t _ _ _. cbv beta. rewrite map_map. reflexivity.
Qed.
(** ** Points with fixed pressure, and pumps *)
Definition fixed_src k t := fold_right Rplus 0 (map (fun f => snd (fst f) * phi k (fst (fst f)) * integ (snd f) t) (f_fixed ph)).
Definition pump_src k t := fold_right Rplus 0 (map (fun f => phi k (fst f) * integ (fun s => snd f s / (mvref P * Hh P)) t) (f_pumps ph)).
Lemma integ_zero t : integ (fun _ => 0) t = 0.
Proof using. clear. rewrite RInt_const. unfold scal; cbn; unfold Hierarchy.mult; cbn. ring. Qed.
Lemma fixed_contributes :
  contributes' (fun tvals acc => match fixed_ppress P with
         | None => Ok acc
         | Some l => add_part n (length tvals) 1 (deltamag m eigs tvals Igamv (map (fun f => fst (fst f)) l) (map (fun f => snd (fst f)) l)
                       (map snd l) (fixed_ppress_omega_phase P) (dT P) (pim P)) acc
         end) fixed_src.
Proof using HIg Heig Hnz Hm HR.
  pose proof HR as (_ & _ & _ & _ & _ & _ & _ & _ & L & F & _). unfold fixed_src.
  destruct (fixed_ppress P) as [l|] eqn:El; cbn [listed] in L, F.
  2:{ cbn in F. inversion F. apply contributes_nothing. }
  set (om := modulations (length l) (fixed_ppress_omega_phase P)) in *.
  assert (C : forall o : list (option (R * R)), combine (combine (combine (map (fun f => fst (fst f)) l) (map (fun f => snd (fst f)) l)) (map snd l)) o = combine l o).
  { clear. induction l as [|[[z k] p] l IH]; intros [|x o]; cbn; auto. rewrite IH. reflexivity. }
  assert (Osub : forall q p t, In q l -> snd q = Some p -> ok t -> before_end p t).
  { intros q p t Hq Hp O. apply O. unfold load_tables. rewrite !in_app_iff, El. cbn [listed]. right. right. right. right. left. apply in_flat_map. exists q. split; auto. rewrite Hp. left; auto. }
  assert (F' : List.Forall2 (fun q tau => match snd (fst q) with None => tau = (fun _ => 0) | Some p => drives n (dT P) T0 ok eigs (fun tvals => load_E (pim P) eigs tvals (dT P)) p (snd q) tau end)
     (combine l om) (map (fun (f : R * R * (R -> R)) t => integ (snd f) t) (f_fixed ph)) /\
     forall k t, fold_right Rplus 0 (map (fun qt => snd (fst (fst (fst qt))) * sin (fst (fst (fst (fst qt))) * nth k m 0) * snd qt t) (combine (combine l om) (map (fun (f : R * R * (R -> R)) t => integ (snd f) t) (f_fixed ph))))
      = fold_right Rplus 0 (map (fun f => snd (fst f) * phi k (fst (fst f)) * integ (snd f) t) (f_fixed ph))).
  { assert (B : forall q, In q (combine l om) -> In (fst q) l) by (intros [q x] Hq; apply in_combine_l in Hq; auto).
    clear L C. induction F as [|[[[z k] p] o] [[z' k'] f] c fs (H1 & H2) F IH]; cbn [map combine fold_right fst snd] in *; [split; [constructor|reflexivity]|].
    destruct IH as (I1 & I2); [intros; apply B; right; auto|]. injection H1 as -> ->. split.
    - constructor; auto. cbn [fst snd]. destruct p as [p|].
      + apply (drives_E n (dT P) T0 ok eigs Igamv HIg Heig Hnz (pim P)); auto. intros t. apply (Osub (z', k', Some p)); auto. apply (B (z', k', Some p, o)). left; auto.
      + subst f. apply functional_extensionality. intros t. apply integ_zero.
    - intros k t. rewrite I2. f_equal. f_equal. f_equal. unfold phi. f_equal. ring. }
  destruct F' as (F1 & F2).
  eapply contributes_ext; [apply (contributes_part _ _ _ _ _ _ 1 _ _ (deltamag_contributes n (dT P) T0 ok eigs Igamv HIg _ m _ _ Hm F1))| |].
  - intros tvals acc. unfold deltamag. rewrite map_length, C, Hm. reflexivity.
  - intros k t _ _ _. cbv beta. rewrite F2. ring.
Qed.
Lemma pump_contributes :
  contributes' (fun tvals acc => match pumping P with
  | None => Ok acc
  | Some l => add_part n (length tvals) 1 (deltamag m eigs tvals Igamv (map fst l) (map (fun _ => 1) l)
                (map (fun f => Some (scale (/ (mvref P * Hh P)) (snd f))) l) (pumping_omega_phase P) (dT P) (pim P)) acc
  end) pump_src.
Proof using HIg Heig Hnz Hm HR HH Hv.
  pose proof HR as (_ & _ & _ & _ & _ & _ & _ & _ & _ & _ & L & F). unfold pump_src.
  destruct (pumping P) as [l|] eqn:El; cbn [listed] in L, F.
  2:{ cbn in F. inversion F. apply contributes_nothing. }
  set (om := modulations (length l) (pumping_omega_phase P)) in *. set (c := / (mvref P * Hh P)).
  assert (Hc : c <> 0) by (apply Rinv_neq_0_compat; apply Rmult_integral_contrapositive_currified; auto).
  assert (C : forall o : list (option (R * R)), combine (combine (combine (map fst l) (map (fun _ => 1) l)) (map (fun f => Some (scale c (snd f))) l)) o = map (fun q => (fst (fst q), 1, Some (scale c (snd (fst q))), snd q)) (combine l o)).
  { clear. induction l as [|[z p] l IH]; intros [|x o]; cbn; auto. rewrite IH. reflexivity. }
  assert (Osub : forall q t, In q l -> ok t -> before_end (snd q) t).
  { intros q t Hq O. apply O. unfold load_tables. rewrite !in_app_iff, El. cbn [listed]. right. right. right. right. right. apply in_map; auto. }
  assert (F' : List.Forall2 (fun q tau => match snd (fst q) with None => tau = (fun _ => 0) | Some p => drives n (dT P) T0 ok eigs (fun tvals => load_E (pim P) eigs tvals (dT P)) p (snd q) tau end)
     (map (fun q => (fst (fst q), 1, Some (scale c (snd (fst q))), snd q)) (combine l om)) (map (fun (f : R * (R -> R)) t => integ (fun s => c * snd f s) t) (f_pumps ph)) /\
     forall k t, fold_right Rplus 0 (map (fun qt => snd (fst (fst (fst qt))) * sin (fst (fst (fst (fst qt))) * nth k m 0) * snd qt t) (combine (map (fun q => (fst (fst q), 1, Some (scale c (snd (fst q))), snd q)) (combine l om)) (map (fun (f : R * (R -> R)) t => integ (fun s => c * snd f s) t) (f_pumps ph))))
      = fold_right Rplus 0 (map (fun f => phi k (fst f) * integ (fun s => c * snd f s) t) (f_pumps ph))).
  { assert (B : forall q, In q (combine l om) -> In (fst q) l) by (intros [q x] Hq; apply in_combine_l in Hq; auto).
    clear L C. induction F as [|[[z p] o] [z' f] cl fs (H1 & H2) F IH]; cbn [map combine fold_right fst snd] in *; [split; [constructor|reflexivity]|].
    destruct IH as (I1 & I2); [intros; apply B; right; auto|]. subst z'. split.
    - constructor; auto. cbn [fst snd]. apply (drives_E n (dT P) T0 ok eigs Igamv HIg Heig Hnz (pim P)).
      + apply is_load_scale; auto.
      + intros t O. apply before_scale. apply (Osub (z, p)); auto. apply (B (z, p, o)). left; auto.
    - intros k t. rewrite I2. f_equal. rewrite Rmult_1_l. f_equal. unfold phi. f_equal. ring. }
  destruct F' as (F1 & F2).
  eapply contributes_ext; [apply (contributes_part _ _ _ _ _ _ 1 _ _ (deltamag_contributes n (dT P) T0 ok eigs Igamv HIg _ m _ _ Hm F1))| |].
  - intros tvals acc. unfold deltamag. rewrite map_length, C, Hm. reflexivity.
  - intros k t _ _ _. cbv beta. rewrite F2. rewrite Rmult_1_l. apply fold_ext. intros f _. f_equal. apply RInt_ext. intros s _. unfold Rdiv. fold c. match goal with |- ?p = ?q => change (@eq R p q) end. ring.
Qed.
(** ** Boundary conditions *)
Section BC.
Variables Ts Bs0 : list (R -> R).
Hypothesis HTs : are_loads T0 (listed (top_vs_time P)) (top_omega_phase P) Ts.
Hypothesis HBs : are_loads T0 (listed (bot_vs_time P)) (bot_omega_phase P) Bs0.
Let Bs := map (fun F s => bottom_factor P * F s) Bs0.
Let dTt t := total Ts t - total0 (listed (top_vs_time P)) (top_omega_phase P).
Let dBt t := total Bs t - total0 (listed (normalised_bot P)) (bot_omega_phase P).
Let iT t := total (integrals T0 Ts) t.
Let iB t := total (integrals T0 Bs) t.
Definition bc_src k t :=
  -1 * (RI (fun z => f_mv ph z * gt z * phi k z) * dTt t + RI (fun z => f_mv ph z * z * phi k z) * dBt t) +
  ((- d_h ph) * (RI (fun z => f_kh ph z * f_et ph z * gt z * phi k z) * iT t + RI (fun z => f_kh ph z * f_et ph z * z * phi k z) * iB t) +
  (d_v ph * ((st * kv_bottom ph * phi k 1 - RI (fun z => f_kv ph z * st * dphi k z)) * iT t + (1 * kv_bottom ph * phi k 1 - RI (fun z => f_kv ph z * 1 * dphi k z)) * iB t) +
  -1 * (fold_right Rplus 0 (map (fun f => snd (fst f) * phi k (fst (fst f)) * gt (fst (fst f))) (f_fixed ph)) * iT t +
        fold_right Rplus 0 (map (fun f => snd (fst f) * phi k (fst (fst f)) * fst (fst f)) (f_fixed ph)) * iB t))).
Definition shape_integrals : Prop := forall k, (k < n)%nat ->
  ex_RInt (fun z => f_mv ph z * gt z * phi k z) 0 1 /\ ex_RInt (fun z => f_mv ph z * z * phi k z) 0 1 /\ ex_RInt (fun z => f_kh ph z * f_et ph z * gt z * phi k z) 0 1 /\ ex_RInt (fun z => f_kh ph z * f_et ph z * z * phi k z) 0 1 /\ ex_RInt (fun z => f_kv ph z * st * dphi k z) 0 1 /\ ex_RInt (fun z => f_kv ph z * 1 * dphi k z) 0 1.
Lemma bc_contributes_all : shape_integrals /\ contributes' (fun tvals acc => match top_vs_time P, bot_vs_time P with
         | None, None => Ok acc
         | _, _ => add_part n (length tvals) 1 (make_BC P m eigs tvals Igamv) acc
         end) bc_src.
Proof using HIg Heig Hnz Hm Nm HR HH Hdrn HTs HBs.
  pose proof HR as (W & Pm & Hkv & Hkh & _ & _ & _ & _ & Lf & Ff & _).
  pose proof (bot_loads Bs0 HBs) as HB'. fold Bs in HB'.
  set (tom := top_omega_phase P). set (bom := bot_omega_phase P). set (top := top_vs_time P). set (bot := normalised_bot P).
  assert (X1 := BC_aDfDt_contributes n (dT P) T0 ok eigs Igamv m HIg Heig Hnz Hm Nm (pim P) (drn P) top bot tom bom Ts Bs HTs HB' top_ok bot_ok (-1) (mv P) (f_mv ph) Pm).
  destruct X1 as (A1 & C1); [apply sep_sub; intros p [<-|[]]; apply profiles_in; auto|].
  assert (X2 : (forall k, (k < n)%nat -> ex_RInt (fun z => f_kh ph z * f_et ph z * gt z * phi k z) 0 1 /\ ex_RInt (fun z => f_kh ph z * f_et ph z * z * phi k z) 0 1) /\ contributes' (fun tvals acc => match et P, kh P, dTh P with
         | Some e, Some k, Some d => if Reqb d 0 then Ok acc else
             add_part n (length tvals) (- d) (BC_abf (drn P) m eigs tvals Igamv k e top bot tom bom (dT P) (pim P)) acc
         | _, _, _ => Ok acc
         end) (fun k t => (- d_h ph) * (RI (fun z => f_kh ph z * f_et ph z * gt z * phi k z) * iT t + RI (fun z => f_kh ph z * f_et ph z * z * phi k z) * iB t))).
  { destruct (kh P) as [kk|] eqn:Ek; [destruct (et P) as [ee|] eqn:Ee; [destruct (dTh P) as [dd|] eqn:Edd|]|].
    2,3,4: destruct Hkh as (Hk0 & He0 & Hd0); split;
      [intros k _; split; apply ex_zero; intros; rewrite Hk0; ring
      |eapply contributes_ext; [apply contributes_nothing|intros; try destruct (et P); reflexivity|intros; rewrite Hd0; ring]].
    destruct Hkh as (Pk & Pe & Ed).
    destruct (BC_abf_contributes n (dT P) T0 ok eigs Igamv m HIg Heig Hnz Hm Nm (pim P) (drn P) top bot tom bom Ts Bs HTs HB' top_ok bot_ok (- dd) kk ee (f_kh ph) (f_et ph) Pk Pe) as (A & C').
    { apply sep_sub. intros p [<-|[<-|[]]]; apply profiles_in; auto. }
    split; [exact A|]. rewrite Ed. destruct (Reqb dd 0) eqn:E0; [|exact C'].
    apply Reqb_true in E0. eapply contributes_ext; [apply contributes_nothing|reflexivity|]. intros; rewrite E0; ring. }
  destruct X2 as (A2 & C2).
  assert (X3 : (forall k, (k < n)%nat -> ex_RInt (fun z => f_kv ph z * st * dphi k z) 0 1 /\ ex_RInt (fun z => f_kv ph z * 1 * dphi k z) 0 1) /\ contributes' (fun tvals acc => match kv P, dTv P with
         | Some k, Some d => if Reqb d 0 then Ok acc else
             add_part n (length tvals) d (BC_D_aDf (drn P) m eigs tvals Igamv k top bot tom bom (dT P) (pim P)) acc
         | _, _ => Ok acc
         end) (fun k t => d_v ph * ((st * kv_bottom ph * phi k 1 - RI (fun z => f_kv ph z * st * dphi k z)) * iT t + (1 * kv_bottom ph * phi k 1 - RI (fun z => f_kv ph z * 1 * dphi k z)) * iB t))).
  { destruct (kv P) as [kk|] eqn:Ek; [destruct (dTv P) as [dd|] eqn:Edd|].
    2,3: destruct Hkv as (Hk0 & Hd0); split;
      [intros k _; split; apply ex_zero; intros; rewrite Hk0; ring
      |eapply contributes_ext; [apply contributes_nothing|reflexivity|intros; rewrite Hd0; ring]].
    destruct Hkv as (Pk & Ekb & Ed).
    destruct (BC_D_contributes n (dT P) T0 ok eigs Igamv m HIg Heig Hnz Hm Nm (pim P) (drn P) top bot tom bom Ts Bs HTs HB' top_ok bot_ok dd kk (f_kv ph) Pk) as (A & C').
    { apply sep_sub. intros p [<-|[]]; apply profiles_in; auto. }
    split; [exact A|]. rewrite Ed, Ekb. destruct (Reqb dd 0) eqn:E0; [|exact C'].
    apply Reqb_true in E0. eapply contributes_ext; [apply contributes_nothing|reflexivity|]. intros; rewrite E0; ring. }
  destruct X3 as (A3 & C3).
  assert (C4 : contributes' (fun tvals acc => match fixed_ppress P with
    | None => Ok acc
    | Some l => add_part n (length tvals) (-1) (BC_deltaf (drn P) m eigs tvals Igamv (map (fun f => fst (fst f)) l) (map (fun f => snd (fst f)) l)
                                   top bot tom bom (dT P) (pim P)) acc
    end) (fun k t => -1 * (fold_right Rplus 0 (map (fun f => snd (fst f) * phi k (fst (fst f)) * gt (fst (fst f))) (f_fixed ph)) * iT t +
        fold_right Rplus 0 (map (fun f => snd (fst f) * phi k (fst (fst f)) * fst (fst f)) (f_fixed ph)) * iB t))).
  { destruct (fixed_ppress P) as [l|]; cbn [listed] in Lf, Ff.
    2:{ cbn in Ff. inversion Ff. eapply contributes_ext; [apply contributes_nothing|reflexivity|]. intros; cbn; ring. }
    pose proof (BC_delta_contributes n (dT P) T0 ok eigs Igamv m HIg Heig Hnz Hm (pim P) (drn P) top bot tom bom Ts Bs HTs HB' top_ok bot_ok (-1) (map fst l) Hdrn) as C'.
    assert (M : map fst l = map fst (f_fixed ph)).
    { revert Lf Ff. generalize (modulations (length l) (fixed_ppress_omega_phase P)). generalize (f_fixed ph). clear. induction l as [|q l IH]; intros fs [|o os] L F; cbn in *; try discriminate; inversion F; subst; auto.
      destruct H1 as (H1 & _). cbn in *. rewrite H1. f_equal. eapply IH; eauto. }
    eapply contributes_ext; [exact C'| |].
    - intros tvals acc. rewrite !map_map. reflexivity.
    - intros k t _ _ _. rewrite M, !map_map. reflexivity. }
  split.
  { intros k Hk. destruct (A1 k Hk), (A2 k Hk), (A3 k Hk). auto 10. }
  pose proof (contributes_seq _ _ _ _ _ _ _ _ _ _ C1 (contributes_seq _ _ _ _ _ _ _ _ _ _ C2 (contributes_seq _ _ _ _ _ _ _ _ _ _ C3 C4))) as CC.
  assert (D : contributes' (fun tvals acc => add_part n (length tvals) 1 (make_BC P m eigs tvals Igamv) acc) bc_src).
  { eapply contributes_ext; [apply (contributes_part _ _ _ _ _ _ 1 _ _ CC)| |].
    - intros tvals acc. reflexivity.
    - intros k t _ _ _. cbv beta. unfold bc_src. unfold dTt, dBt, top, bot, tom, bom. rewrite (total_changes _ _ Ts t HTs), (total_changes _ _ Bs t HB'). symmetry. apply Rmult_1_l. }
  fold top. destruct top as [l|] eqn:Et; [exact D|]. destruct (bot_vs_time P) as [l'|] eqn:Eb; [exact D|].
  destruct HTs as (_ & FT). destruct HB' as (_ & FB). unfold top in Et. rewrite Et in FT. unfold normalised_bot in FB. rewrite Eb in FB. cbn in FT, FB.
  assert (E1 : Ts = []) by (inversion FT; auto). assert (E2 : Bs = []) by (inversion FB; auto).
  eapply contributes_ext; [apply contributes_nothing|reflexivity|]. intros k t _ _ _. unfold bc_src, dTt, dBt, iT, iB, normalised_bot. rewrite Et, Eb, E1, E2. cbn. ring.
Qed.
(** ** Together *)
Definition source k t := surcharge_src k t + (vacuum_src k t + (bc_src k t + (fixed_src k t + pump_src k t))).
Lemma all_contribute : exists c, mild n (dT P) T0 ok eigs Igamv c source /\ forall tvals, exists A, make_E_Igamv_the P m eigs tvals Igamv = Ok A /\ forall j i, (j < n)%nat -> (i < length tvals)%nat -> cell A j i = c j (nth i tvals 0).
Proof using HIg Heig Hnz Hm Nm HR HH Hv Hdrn HTs HBs.
  destruct surcharge_contributes as (_ & S1). destruct vacuum_contributes as (_ & S2). destruct bc_contributes_all as (_ & S3).
  pose proof (contributes_seq _ _ _ _ _ _ _ _ _ _ S1 (contributes_seq _ _ _ _ _ _ _ _ _ _ S2 (contributes_seq _ _ _ _ _ _ _ _ _ _ S3 (contributes_seq _ _ _ _ _ _ _ _ _ _ fixed_contributes pump_contributes)))) as (c & M & H).
  exists c. split; [exact M|]. intros tvals. destruct (H tvals _ _ (zero_tab n tvals)) as (A & E & T). exists A. split; [exact E|].
  intros j i Hj Hi. rewrite T by auto. ring.
Qed.
End BC.
End Problem.

(** * Properties C117-C120: consolidation of layered soil (schiffmanandstein1970.py) *)
From Coq Require Import Reals List Arith ZArith Bool Lia Lra.
From Coquelicot Require Import Coquelicot.
From Verif Require Import Base PiecewiseModel RootModel ConstitutiveModel SpecRoot SpecPiecewise SpecLoad SpecStein SteinModel PropsRoot PiBounds SteinProofs SteinProofs2 SteinProofs3 SteinProofs4 SteinProofs5 SteinProofs6.
Import ListNotations.
Open Scope R_scope.

(** The soil described by the input. *)
Definition the_soil (P : stein) : soil := mkSoil (s_h P) (s_kv P) (s_mv P).
Definition total_depth (P : stein) : R := depth (the_soil P) (layers (the_soil P)).
(** The series used by a run: one term for each answer of the solver, found by the search for sign
    changes of the determinant; the decay of a term is cv of the first layer times the root squared. *)
Definition series_of (det : list (list R) -> R) (fsolve : R -> R) (P : stein) (roots : list R) (ms : list mode) : Prop :=
  (exists tp bt is, bc_top P = Ok tp /\ bc_bot P = Ok bt /\
     searched (characteristic det P (tp, bt)) fsolve (/ 10^8) (/ 10^5) (fun w => 0 < w) (/ 10 / (total_depth P)^2) is roots) /\
  length roots = s_n P /\ map decay ms = map (fun b => at_ (s_kv P) 0 / at_ (s_mv P) 0 * b^2) roots /\
  forall m, In m ms -> found (the_soil P) (s_bctop P) m.

Section Core.
Variables (solve : list (list R) -> list R -> result (list R)) (det : list (list R) -> R) (fsolve : R -> R).
Variable P : stein.
Hypothesis Hs : is_soil (soil_of P).
Hypothesis Hsolve : solves solve.
Hypothesis Hf : forall g, 0 < g -> 0 < fsolve g.
Notation s := (soil_of P).
Notation N := (nlayers P).
Variables (fuel : nat) (zs ts : list R) (tpor : option (list R)) (out : output).
Hypothesis Hrun : make_output solve det fsolve P fuel zs ts tpor = Some (Ok out).

Lemma searched_pos f atol rtol W start is rs : 0 < start -> searched f fsolve atol rtol W start is rs -> forall b, In b rs -> 0 < b /\ exists g, 0 < g /\ b = fsolve g.
Proof.
  intros H0 H. induction H as [|start i s0 is rs L1 L2 L3 L4 L5 L6 IH]; intros b Hb; [destruct Hb|].
  destruct L3 as (A1 & A2 & A3). assert (G : 0 < guess i) by lra.
  destruct Hb as [<-|Hb]; [split; [auto|exists (guess i); auto]|]. apply IH; auto.
  pose proof (Hf _ G) as F. destruct L5 as [[_ ->]|[_ ->]]; lra.
Qed.
Lemma core : exists tb roots terms is, bc_top P = Ok (fst tb) /\ bc_bot P = Ok (snd tb) /\
  searched (characteristic det P tb) fsolve (/ 10^8) (/ 10^5) (fun w => 0 < w) (/ 10 / (depth s N)^2) is roots /\ length roots = s_n P /\
  (forall b, In b roots -> 0 < b /\ exists g, 0 < g /\ b = fsolve g) /\ mapM (calc_term solve P tb) roots = Ok terms /\
  after_roots solve P tb roots zs ts tpor = Ok out.
Proof.
  pose proof (N_pos P Hs) as NP. pose proof Hrun as H. unfold make_output in H. destruct (negb _); [discriminate|].
  destruct (bc_top P) as [tp|e] eqn:E1; [|discriminate]. destruct (bc_bot P) as [bt|e] eqn:E2; [|discriminate].
  destruct (Nat.eqb N 0); [discriminate|]. destruct (find_beta det fsolve P (tp, bt) fuel) as [[roots|e]|] eqn:E3; try discriminate.
  injection H as H. unfold find_beta in E3. cbv zeta in E3. rewrite (zlayer_depth P Hs) in E3 by lia. replace (S (N - 1)) with N in E3 by lia.
  assert (X0 : 0 < / 10 / (depth s N)^2).
  { apply Rdiv_lt_0_compat; [apply Rinv_0_lt_compat; lra|]. apply pow_lt. replace N with (S (N - 1)) by lia. apply (depth_pos P Hs). lia. }
  assert (P0 : 0 < 101 / 100) by lra. destruct (C47_search _ _ _ _ _ _ _ _ _ _ _ P0 X0 E3) as (L & is & Se).
  pose proof H as H'. unfold after_roots in H'. destruct (mapM (calc_term solve P (tp, bt)) roots) as [terms|e] eqn:E4; [|discriminate].
  exists (tp, bt), roots, terms, is. cbn [fst snd]. split; [auto|]. split; [auto|]. split; [auto|]. split; [auto|]. split; [|split; auto].
  exact (searched_pos _ _ _ _ _ _ _ X0 Se).
Qed.
Lemma terms_pairs tb roots terms : (forall b, In b roots -> 0 < b) -> mapM (calc_term solve P tb) roots = Ok terms ->
  map snd (combine roots terms) = terms /\ map fst (combine roots terms) = roots /\ forall p, In p (combine roots terms) -> calc_term solve P tb (fst p) = Ok (snd p) /\ 0 < fst p /\ t_beta (snd p) = beta P (fst p).
Proof.
  intros Hb H. apply mapM_Ok_Forall2 in H. induction H as [|b T roots terms E H IH]; [cbn; split; [auto|split; [auto|intros p []]]|].
  destruct IH as (I1 & I2 & I3); [intros; apply Hb; right; auto|]. cbn [combine map fst snd]. rewrite I1, I2. split; [auto|]. split; [auto|].
  intros p [<-|Hp]; [|apply I3; auto]. cbn [fst snd]. split; [auto|]. split; [apply Hb; left; auto|]. destruct (term_rows P Hs solve Hsolve b tb T E) as (Q & _). exact Q.
Qed.
End Core.

Lemma Forall2_nth {X Y} (Q : X -> Y -> Prop) l k dx dy : Forall2 Q l k -> forall i, (i < length l)%nat -> Q (nth i l dx) (nth i k dy).
Proof. induction 1 as [|a b l k E H IH]; intros i Hi; [cbn in Hi; lia|]. destruct i as [|i]; [auto|]. cbn [nth]. apply IH. cbn in Hi. lia. Qed.
Lemma Forall2_len {X Y} (Q : X -> Y -> Prop) l k : Forall2 Q l k -> length k = length l.
Proof. induction 1; cbn; auto. Qed.

Lemma NoDup_map_inj {X Y} (f : X -> Y) l : (forall x y, In x l -> In y l -> f x = f y -> x = y) -> NoDup l -> NoDup (map f l).
Proof.
  intros Hi H. induction H as [|a l Na H IH]; [constructor|]. cbn [map]. constructor; [|apply IH; intros; apply Hi; auto; right; auto].
  intros Q. apply in_map_iff in Q. destruct Q as (b & Q1 & Q2). apply Na. rewrite (Hi a b); auto; [left; auto|right; auto].
Qed.
(** The results in terms of the series. *)
Lemma results solve det fsolve P fuel zs ts tpor out r :
  is_soil (the_soil P) -> solves solve -> (forall g, 0 < g -> 0 < fsolve g) -> is_load (s_tim P) (s_mag P) r ->
  make_output solve det fsolve P fuel zs ts tpor = Some (Ok out) ->
  exists roots ms (u : nat -> R -> R -> R), series_of det fsolve P roots ms /\ (forall b, In b roots -> exists g, 0 < g /\ b = fsolve g) /\ (forall b, In b roots -> 0 < b) /\ consolidates (the_soil P) (response ms) /\
    (forall i z t, effect (s_tim P) (s_mag P) r t (response ms i z) (u i z t)) /\
    (match tpor with None => out_por out = None | Some tp => exists A, out_por out = Some A /\ length A = length zs /\
       forall k j, (k < length zs)%nat -> (j < length tp)%nat -> 0 <= at_ zs k <= total_depth P ->
       exists i, (i < layers (the_soil P))%nat /\ depth (the_soil P) i <= at_ zs k <= depth (the_soil P) (S i) /\ nth j (nth k A []) 0 = u i (at_ zs k) (at_ tp j) end) /\
    length (out_avp out) = length ts /\ length (out_set out) = length ts /\
    (forall j, (j < length ts)%nat -> exists g q, (forall i, (i < layers (the_soil P))%nat -> is_RInt (fun z => u i z (at_ ts j)) (depth (the_soil P) i) (depth (the_soil P) (S i)) (g i)) /\
       load_value (s_tim P) (s_mag P) (at_ ts j) q /\ at_ (out_avp out) j * total_depth P = total (layers (the_soil P)) g /\
       at_ (out_set out) j = total (layers (the_soil P)) (fun i => weight (the_soil P) i * (at_ (s_h P) i * q - g i))).
Proof.
  intros Hs Hsolve Hf Hl Hrun. change (the_soil P) with (soil_of P) in *.
  destruct (core solve det fsolve P Hs Hf fuel zs ts tpor out Hrun) as (tb & roots & terms & is & E1 & E2 & Se & Ln & Hpos & E4 & Hout).
  assert (Hp0 : forall b, In b roots -> 0 < b) by (intros b Hb; apply Hpos; auto).
  destruct (terms_pairs solve P Hs Hsolve tb roots terms Hp0 E4) as (M1 & M2 & M3). set (pairs := combine roots terms) in *.
  assert (Hp : forall p, In p pairs -> 0 < fst p /\ t_beta (snd p) = beta P (fst p)) by (intros p Hin; apply M3; auto).
  pose proof (N_layers P Hs) as NL. pose proof (N_pos P Hs) as NP.
  exists roots, (modes P pairs), (uu P pairs). split; [|split; [|split; [|split; [|split; [|split]]]]].
  - split; [|split; [|split]].
    + exists (fst tb), (snd tb), is. split; [auto|]. split; [auto|]. rewrite <- surjective_pairing. unfold total_depth. change (the_soil P) with (soil_of P). rewrite <- NL. exact Se.
    + auto.
    + unfold modes. rewrite map_map. cbn [decay mode_of]. transitivity (map (fun b => at_ (s_kv P) 0 / at_ (s_mv P) 0 * b^2) (map fst pairs)); [rewrite map_map; reflexivity|rewrite M2; reflexivity].
    + intros m Hm. apply in_map_iff in Hm. destruct Hm as (p & <- & Hin). destruct (M3 p Hin) as (Q1 & Q2 & Q3).
      destruct (bcs P tb E1 E2) as [Bt _]. apply (term_found P Hs solve Hsolve (fst p) Q2 tb (snd p) Q1 E1). destruct Bt as [[Z _]|[Z _]]; auto.
  - intros b Hb. apply Hpos. auto.
  - exact Hp0.
  - apply (response_ok P Hs pairs Hp).
  - intros i z t. apply (uu_effect P Hs r Hl pairs Hp).
  - pose proof Hout as H. unfold after_roots in H. rewrite E4 in H. cbn [bind] in H. destruct tpor as [tp|].
    + destruct (mapM (fun z => mapM (por1 P terms z) tp) zs) as [A|e] eqn:EA; cbn [bind] in H; [|discriminate]. destruct (mapM (settle_avp1 P terms) ts); cbn [bind] in H; [|discriminate].
      injection H as H. rewrite <- H. cbn [out_por]. exists A. split; [auto|]. apply mapM_Ok_Forall2 in EA. split; [eapply Forall2_len; eauto|].
      intros k j Hk Hj Hz. unfold total_depth in Hz. change (the_soil P) with (soil_of P) in Hz. rewrite <- NL in Hz. destruct (in_layer P Hs (at_ zs k) Hz) as [I1 I2]. set (i := searchsorted (zlayers P) (at_ zs k)) in *.
      exists i. split; [lia|]. split; [auto|]. pose proof (Forall2_nth _ _ _ 0 [] EA k Hk) as F. cbv beta in F. change (nth k zs 0) with (at_ zs k) in F. apply mapM_Ok_Forall2 in F.
      pose proof (Forall2_nth _ _ _ 0 0 F j Hj) as F2. cbv beta in F2. rewrite <- M1 in F2. rewrite (por1_eq P Hs r Hl pairs Hp) in F2 by exact I1. fold i in F2. injection F2 as F2. symmetry. exact F2.
    + cbn [bind] in H. destruct (mapM (settle_avp1 P terms) ts); cbn [bind] in H; [|discriminate]. injection H as H. rewrite <- H. reflexivity.
  - pose proof Hout as H. unfold after_roots in H. rewrite E4 in H. cbn [bind] in H.
    destruct (match tpor with Some tp => a <- mapM (fun z => mapM (por1 P terms z) tp) zs;; Ok (Some a) | None => Ok None end) as [por|e]; cbn [bind] in H; [|discriminate].
    destruct (mapM (settle_avp1 P terms) ts) as [sa|e] eqn:ES; cbn [bind] in H; [|discriminate]. injection H as H. rewrite <- H. cbn [out_avp out_set].
    apply mapM_Ok_Forall2 in ES. pose proof (Forall2_len _ _ _ ES) as Ls. rewrite !map_length. split; [auto|]. split; [auto|].
    intros j Hj. pose proof (Forall2_nth _ _ _ 0 (0, 0) ES j Hj) as F. cbv beta in F. change (nth j ts 0) with (at_ ts j) in F.
    assert (Eq : exists q, interp1 (s_tim P) (s_mag P) false (at_ ts j) = Ok q). { unfold settle_avp1 in F. destruct (interp1 (s_tim P) (s_mag P) false (at_ ts j)) as [q|e]; [eauto|discriminate]. }
    destruct Eq as (q & Eq). rewrite <- M1 in F. rewrite (settle_avp1_eq P Hs r Hl pairs Hp _ _ Eq) in F. injection F as F.
    exists (fun i => uint P pairs i (at_ ts j)), q. split; [|split; [|split]].
    + intros i Hi. rewrite <- NL in Hi. apply (uint_ok P Hs pairs Hp). auto.
    + destruct Hl as (L1 & L2 & L3 & _). apply interp1_load_value; auto. intros Q. rewrite Q in L2. cbn in L2. lia.
    + unfold at_. rewrite nth_indep with (d' := snd (0, 0)) by (rewrite map_length; lia). rewrite map_nth. rewrite <- F. cbn [snd].
      unfold total_depth. change (the_soil P) with (soil_of P). rewrite <- NL. unfold Rdiv. rewrite Rmult_assoc, Rinv_l; [apply Rmult_1_r|].
      assert (0 < depth (soil_of P) (nlayers P)); [|lra]. replace (nlayers P) with (S (nlayers P - 1)) by lia. apply (depth_pos P Hs). lia.
    + unfold at_. rewrite nth_indep with (d' := fst (0, 0)) by (rewrite map_length; lia). rewrite map_nth. rewrite <- F. cbn [fst]. rewrite <- NL.
      rewrite (Rmult_comm _ q). transitivity (total (nlayers P) (fun i => q * (mv P i * hh P i)) + total (nlayers P) (fun i => -1 * (mv P i * uint P pairs i (at_ ts j)))); [rewrite !total_scal; unfold at_; ring|].
      rewrite <- total_plus. apply total_ext. intros i Hi. unfold weight, at_. cbn [comp soil_of]. unfold mv, hh. ring.
Qed.

(** ** C117: the pore pressures *)
(** The pressures returned at depths within the profile are the effect of the whole load history, through
    a response that obeys the consolidation equation in every layer and whose terms all meet the conditions
    at the top and between the layers, exactly or within 1e-10. *)
Theorem C117_pressures : forall solve det fsolve P fuel zs ts tp out r,
  is_soil (the_soil P) -> solves solve -> (forall g, 0 < g -> 0 < fsolve g) -> is_load (s_tim P) (s_mag P) r ->
  make_output solve det fsolve P fuel zs ts (Some tp) = Some (Ok out) ->
  exists roots ms A, series_of det fsolve P roots ms /\ consolidates (the_soil P) (response ms) /\
    out_por out = Some A /\ pressures (the_soil P) (s_tim P) (s_mag P) r ms zs tp A.
Proof.
  intros solve det fsolve P fuel zs ts tp out r Hs Hsolve Hf Hl Hrun.
  destruct (results _ _ _ _ _ _ _ _ _ _ Hs Hsolve Hf Hl Hrun) as (roots & ms & u & S1 & _ & _ & S2 & S3 & (A & S4 & S5 & S6) & _).
  exists roots, ms, A. split; [auto|]. split; [auto|]. split; [auto|]. split; [auto|].
  intros k j Hk Hj Hz. destruct (S6 k j Hk Hj Hz) as (i & I1 & I2 & ->). exists i. split; [auto|]. split; [auto|]. apply S3.
Qed.
(** The run gives values at every time asked for. *)
Theorem C117_sizes : forall solve det fsolve P fuel zs ts tpor out, 
  make_output solve det fsolve P fuel zs ts tpor = Some (Ok out) ->
  length (out_avp out) = length ts /\ length (out_set out) = length ts /\
  match tpor with None => out_por out = None
  | Some tp => exists A, out_por out = Some A /\ length A = length zs /\ forall k, (k < length zs)%nat -> length (nth k A []) = length tp end.
Proof.
  intros solve det fsolve P fuel zs ts tpor out H. unfold make_output in H. destruct (negb _); [discriminate|].
  destruct (bc_top P); [|discriminate]. destruct (bc_bot P); [|discriminate]. destruct (Nat.eqb (nlayers P) 0); [discriminate|]. destruct (find_beta _ _ _ _ _) as [[roots|e]|]; try discriminate.
  injection H as H. unfold after_roots in H. destruct (mapM (calc_term _ _ _) roots) as [terms|e]; [|discriminate]. cbn [bind] in H.
  assert (Hpor : exists por, match tpor with Some tp => a <- mapM (fun z => mapM (por1 P terms z) tp) zs;; Ok (Some a) | None => Ok None end = Ok por /\ out_por out = por).
  { destruct (match tpor with Some tp => a <- mapM (fun z => mapM (por1 P terms z) tp) zs;; Ok (Some a) | None => Ok None end) as [por|e]; cbn [bind] in H; [|discriminate].
    destruct (mapM (settle_avp1 P terms) ts); cbn [bind] in H; [|discriminate]. exists por. injection H as H. rewrite <- H. auto. }
  split; [|split].
  1,2: destruct (match tpor with Some tp => a <- mapM (fun z => mapM (por1 P terms z) tp) zs;; Ok (Some a) | None => Ok None end) as [por|e]; cbn [bind] in H; [|discriminate];
    destruct (mapM (settle_avp1 P terms) ts) as [sa|e] eqn:ES; cbn [bind] in H; [|discriminate]; injection H as H; rewrite <- H; cbn [out_avp out_set]; rewrite map_length; apply mapM_Ok_Forall2 in ES; eapply Forall2_len; eauto.
  destruct Hpor as (por & Hp & ->). destruct tpor as [tp|]; [|congruence]. destruct (mapM _ zs) as [A|e] eqn:EA; cbn [bind] in Hp; [|discriminate].
  injection Hp as Hp. rewrite <- Hp. exists A. split; [auto|]. apply mapM_Ok_Forall2 in EA. split; [eapply Forall2_len; eauto|].
  intros k Hk. pose proof (Forall2_nth _ _ _ 0 [] EA k Hk) as F. cbv beta in F. apply mapM_Ok_Forall2 in F. eapply Forall2_len; eauto.
Qed.

(** ** C118: the terms of the series *)
(** The equation solved for the roots has the decays of the soil, and nothing else, as solutions. *)
Theorem C118_equation : forall det P tp bt b, is_soil (the_soil P) -> tells_singular (2 * layers (the_soil P)) det -> bc_top P = Ok tp -> bc_bot P = Ok bt -> 0 < b ->
  (characteristic det P (tp, bt) b = 0 <-> eigenvalue (the_soil P) (s_bctop P) (s_bcbot P) (at_ (s_kv P) 0 / at_ (s_mv P) 0 * b^2)).
Proof. intros det P tp bt b Hs Hd E1 E2 Hb. exact (characteristic_iff P Hs b Hb (tp, bt) E1 E2 det Hd). Qed.
(** If the solver returns solutions of it, every term also meets the condition at the bottom, the shapes
    are orthogonal, and at the moment of loading the series is the best approximation of the uniform
    pressure by its shapes (as long as none of the numbers set to zero by the program is a nonzero one). *)
Theorem C118_best : forall solve det fsolve P fuel zs ts tp out r,
  is_soil (the_soil P) -> solves solve -> tells_singular (2 * layers (the_soil P)) det -> is_load (s_tim P) (s_mag P) r ->
  (forall g, 0 < g -> 0 < fsolve g) ->
  (forall tp bt g, bc_top P = Ok tp -> bc_bot P = Ok bt -> 0 < g -> characteristic det P (tp, bt) (fsolve g) = 0) ->
  make_output solve det fsolve P fuel zs ts (Some tp) = Some (Ok out) ->
  exists roots ms A, series_of det fsolve P roots ms /\ out_por out = Some A /\ pressures (the_soil P) (s_tim P) (s_mag P) r ms zs tp A /\
    (forall m, In m ms -> eigenvalue (the_soil P) (s_bctop P) (s_bcbot P) (decay m)) /\
    ((forall b, In b roots -> none_tiny (the_soil P) (at_ (s_kv P) 0 / at_ (s_mv P) 0 * b^2)) ->
      (forall m, In m ms -> at_top (s_bctop P) m /\ joined (the_soil P) m /\ at_bottom (the_soil P) (s_bcbot P) m) /\
      (forall m l, In m ms -> In l ms -> decay m <> decay l -> over_depth (the_soil P) (weight (the_soil P)) (fun i z => shape m i z * shape l i z) 0) /\
      (NoDup roots -> forall a e e', length a = length ms ->
         over_depth (the_soil P) (weight (the_soil P)) (fun i z => (1 - response ms i z 0)^2) e ->
         over_depth (the_soil P) (weight (the_soil P)) (fun i z => (1 - combination a ms i z)^2) e' -> e <= e')).
Proof.
  intros solve det fsolve P fuel zs ts tp out r Hs Hsolve Hd Hl Hf Hz Hrun.
  destruct (results _ _ _ _ _ _ _ _ _ _ Hs Hsolve Hf Hl Hrun) as (roots & ms & u & S1 & Sg & Sp & S2 & S3 & (A & S4 & S5 & S6) & _).
  exists roots, ms, A. split; [auto|]. split; [auto|]. split.
  { split; [auto|]. intros k j Hk Hj Hzz. destruct (S6 k j Hk Hj Hzz) as (i & I1 & I2 & ->). exists i. split; [auto|]. split; [auto|]. apply S3. }
  destruct S1 as ((tp0 & bt0 & is & E1 & E2 & _) & _ & Em & Fm).
  assert (Db : forall m, In m ms -> exists b, In b roots /\ decay m = at_ (s_kv P) 0 / at_ (s_mv P) 0 * b^2).
  { intros m Hm. assert (Q : In (decay m) (map decay ms)) by (apply in_map; auto). rewrite Em in Q. apply in_map_iff in Q. destruct Q as (b & Q1 & Q2). exists b. auto. }
  assert (Ev : forall m, In m ms -> eigenvalue (the_soil P) (s_bctop P) (s_bcbot P) (decay m)).
  { intros m Hm. destruct (Db m Hm) as (b & Hb & ->). apply (C118_equation det P tp0 bt0 b Hs Hd E1 E2 (Sp b Hb)). destruct (Sg b Hb) as (g & Hg & ->). auto. }
  split; [exact Ev|]. intros Hn.
  assert (Nt : forall m, In m ms -> none_tiny (the_soil P) (decay m)) by (intros m Hm; destruct (Db m Hm) as (b & Hb & ->); auto).
  destruct (bcs P (tp0, bt0) E1 E2) as [Bt Bb].
  assert (Bt' : (s_bctop P = 0 \/ s_bctop P = 1)%Z) by (destruct Bt as [[? _]|[? _]]; auto). assert (Bb' : (s_bcbot P = 0 \/ s_bcbot P = 1)%Z) by (destruct Bb as [[? _]|[? _]]; auto).
  assert (Full : forall m, In m ms -> full (the_soil P) (s_bctop P) (s_bcbot P) m /\ project (the_soil P) m).
  { intros m Hm. destruct (Fm m Hm) as [F1 F2 F3 F4 F5 F6 F7]. destruct (F5 (Nt m Hm)) as [T1 J1]. split; [|exact F6]. split; [auto|]. split; [auto|]. split; [auto|].
    destruct (Ev m Hm) as (m' & Ed & Eq & T' & J' & B' & (i0 & z0 & Hi0 & Nz)). destruct (F7 (Nt m Hm) Bt' m' Ed Eq T' J') as (c & Hc).
    assert (c <> 0). { intros Q. apply Nz. rewrite (proj1 (Hc i0 z0 Hi0)), Q. ring. }
    unfold at_bottom in *. cbv zeta in *. assert (Li : (layers (the_soil P) - 1 < layers (the_soil P))%nat) by (destruct Hs as (L & _); lia).
    destruct (Hc _ (depth (the_soil P) (layers (the_soil P))) Li) as [C1 C2]. destruct B' as [B1 B2]. rewrite C1 in B1. rewrite C2 in B2. split; intros Z.
    - specialize (B1 Z). apply Rmult_integral in B1. destruct B1; [contradiction|auto].
    - specialize (B2 Z). apply Rmult_integral in B2. destruct B2; [contradiction|auto]. }
  assert (Ms : forall m, In m ms -> smooth (the_soil P) (shape m)) by (intros m Hm; apply mode_smooth; apply Fm; auto).
  split; [intros m Hm; destruct (Full m Hm) as [(_ & Q) _]; exact Q|]. split.
  - intros m l Hm Hl' Hne. apply over_depth_integral; [apply smooth_mult; auto|]. symmetry. apply (orthogonal (the_soil P) Hs (s_bctop P) (s_bcbot P) Bt' Bb'); auto; apply Full; auto.
  - intros Hnd a e e' La I1 I2.
    assert (Er : forall i z, response ms i z 0 = combination (map amp ms) ms i z).
    { intros i z. unfold response, combination, total_over. clear. induction ms as [|m ms IH]; [reflexivity|]. cbn [map combine fold_right fst snd]. rewrite IH, Rmult_0_r, exp_0. ring. }
    assert (Em' : forall m, In m ms -> mode_equation (the_soil P) m) by (intros m Hm; apply Fm; auto).
    assert (Sq : forall c, smooth (the_soil P) (fun i z => (1 - combination c ms i z)^2)).
    { intros c i z Hi. assert (Q : continuous (fun z => 1 - combination c ms i z) z) by (apply (continuous_minus (V := R_NormedModule) (fun _ => 1) (combination c ms i)); [apply continuous_const|apply (comb_smooth (the_soil P)); auto]).
      apply (continuous_ext (fun z => (1 - combination c ms i z) * (1 - combination c ms i z))); [intros w; cbn; ring|]. apply (continuous_mult (K := R_AbsRing)); exact Q. }
    assert (I1' : over_depth (the_soil P) (weight (the_soil P)) (fun i z => (1 - combination (map amp ms) ms i z)^2) e).
    { destruct I1 as (g & G1 & G2). exists g. split; [|auto]. intros i Hi. eapply is_RInt_ext; [|exact (G1 i Hi)]. intros z _. cbv beta. rewrite Er. reflexivity. }
    apply over_depth_integral in I1'; [|apply Sq]. apply over_depth_integral in I2; [|apply Sq]. rewrite I1', I2.
    apply (best (the_soil P) Hs (s_bctop P) (s_bcbot P) Bt' Bb'); auto.
    rewrite Em. apply NoDup_map_inj; [|exact Hnd]. intros x y Hx Hy Q.
    assert (K : 0 < at_ (s_kv P) 0 / at_ (s_mv P) 0) by (apply (cvpos P Hs); pose proof (N_pos P Hs); lia).
    apply Rmult_eq_reg_l in Q; [|lra]. pose proof (Sp x Hx). pose proof (Sp y Hy). apply Rsqr_inj; [lra|lra|]. unfold Rsqr. cbn in Q. lra.
Qed.

(** ** C119: average pore pressure and settlement *)
(** avp is the mean over the depth of the same pore pressure; the settlement is the integral over the
    depth of mv times the load (in the sense of load_value) less the pore pressure. *)
Theorem C119_average_and_settlement : forall solve det fsolve P fuel zs ts tpor out r,
  is_soil (the_soil P) -> solves solve -> (forall g, 0 < g -> 0 < fsolve g) -> is_load (s_tim P) (s_mag P) r ->
  make_output solve det fsolve P fuel zs ts tpor = Some (Ok out) ->
  exists roots ms, series_of det fsolve P roots ms /\
    (forall tp, tpor = Some tp -> exists A, out_por out = Some A /\ pressures (the_soil P) (s_tim P) (s_mag P) r ms zs tp A) /\
    forall j, (j < length ts)%nat -> exists u q,
      (forall i z, effect (s_tim P) (s_mag P) r (at_ ts j) (response ms i z) (u i z)) /\
      load_value (s_tim P) (s_mag P) (at_ ts j) q /\
      over_depth (the_soil P) (fun _ => 1) u (at_ (out_avp out) j * total_depth P) /\
      over_depth (the_soil P) (weight (the_soil P)) (fun i z => q - u i z) (at_ (out_set out) j).
Proof.
  intros solve det fsolve P fuel zs ts tpor out r Hs Hsolve Hf Hl Hrun.
  destruct (results _ _ _ _ _ _ _ _ _ _ Hs Hsolve Hf Hl Hrun) as (roots & ms & u & S1 & _ & _ & S2 & S3 & S4 & _ & _ & S7).
  exists roots, ms. split; [auto|]. split.
  { intros tp ->. destruct S4 as (A & S4 & S5 & S6). exists A. split; [auto|]. split; [auto|]. intros k j Hk Hj Hzz. destruct (S6 k j Hk Hj Hzz) as (i & I1 & I2 & ->). exists i. split; [auto|]. split; [auto|]. apply S3. }
  intros j Hj. destruct (S7 j Hj) as (g & q & G1 & G2 & G3 & G4). exists (fun i z => u i z (at_ ts j)), q. split; [intros; apply S3|]. split; [auto|]. split.
  - exists g. split; [auto|]. rewrite G3. apply total_ext. intros. symmetry. apply Rmult_1_l.
  - exists (fun i => at_ (s_h P) i * q - g i). split; [|auto]. intros i Hi.
    eapply TerzaghiProofs.rint_val; [apply (is_RInt_minus (V := R_NormedModule)); [apply (is_RInt_const (V := R_NormedModule))|apply G1; auto]|].
    rewrite <- (N_layers P Hs : nlayers P = layers (the_soil P)) in Hi. pose proof (depth_step P i Hi) as D. change (soil_of P) with (the_soil P) in D. change ((depth (the_soil P) (S i) - depth (the_soil P) i) * q - g i = at_ (s_h P) i * q - g i). rewrite D. unfold hh, at_. assert (X : forall a b c d : R, (a + b - a) * c - d = b * c - d) by (intros; ring). apply X.
Qed.

(** ** C120: what is rejected, what is written *)
(** The table with the average pore pressures and the one with pore pressures hold the values of the
    attributes; the one named settlement holds the average pore pressures again. *)
Theorem C120_tables : forall solve det fsolve P fuel zs ts tpor out,
  make_output solve det fsolve P fuel zs ts tpor = Some (Ok out) ->
  (forall tab, In (data_avp, tab) (out_files out) <-> tab = column (out_avp out)) /\
  (forall tab, In (data_set, tab) (out_files out) <-> tab = column (out_avp out)) /\
  (forall tab, In (data_por, tab) (out_files out) <-> exists tp A, tpor = Some tp /\ out_por out = Some A /\
     tab = map (fun j => map (fun k => nth j (nth k A []) 0) (seq 0 (length zs))) (seq 0 (length tp))).
Proof.
  intros solve det fsolve P fuel zs ts tpor out H. unfold make_output in H. destruct (negb _); [discriminate|].
  destruct (bc_top P); [|discriminate]. destruct (bc_bot P); [|discriminate]. destruct (Nat.eqb (nlayers P) 0); [discriminate|]. destruct (find_beta _ _ _ _ _) as [[roots|e]|]; try discriminate.
  injection H as H. unfold after_roots in H. destruct (mapM (calc_term _ _ _) roots) as [terms|e]; [|discriminate]. cbn [bind] in H.
  destruct tpor as [tp|].
  - destruct (mapM (fun z => mapM (por1 P terms z) tp) zs) as [A|e]; cbn [bind] in H; [|discriminate]. destruct (mapM (settle_avp1 P terms) ts); cbn [bind] in H; [|discriminate].
    injection H as H. rewrite <- H. cbn [out_por out_files out_avp app In]. split; [|split].
    + intros tab. split; [intros [Q|[Q|[Q|[]]]]; congruence|intros ->; auto].
    + intros tab. split; [intros [Q|[Q|[Q|[]]]]; congruence|intros ->; auto].
    + intros tab. split; [intros [Q|[Q|[Q|[]]]]; [|congruence|congruence]; injection Q as <-; exists tp, A; auto|]. intros (tp' & A' & Q1 & Q2 & ->). injection Q1 as <-. injection Q2 as <-. left. reflexivity.
  - cbn [bind] in H. destruct (mapM (settle_avp1 P terms) ts); cbn [bind] in H; [|discriminate]. injection H as H. rewrite <- H. cbn [out_por out_files out_avp app In]. split; [|split].
    + intros tab. split; [intros [Q|[Q|[]]]; congruence|intros ->; auto].
    + intros tab. split; [intros [Q|[Q|[]]]; congruence|intros ->; auto].
    + intros tab. split; [intros [Q|[Q|[]]]; congruence|]. intros (tp' & A' & Q1 & _). discriminate.
Qed.
(** Layers given with different numbers of values are rejected. *)
Theorem C120_lengths : forall solve det fsolve P fuel zs ts tpor, ~ (length (s_h P) = length (s_kv P) /\ length (s_kv P) = length (s_mv P)) ->
  make_output solve det fsolve P fuel zs ts tpor = Some (Err ValueError).
Proof.
  intros solve det fsolve P fuel zs ts tpor H. unfold make_output. destruct (Nat.eqb_spec (length (s_h P)) (length (s_kv P))); [|reflexivity].
  destruct (Nat.eqb_spec (length (s_kv P)) (length (s_mv P))); [|reflexivity]. exfalso. apply H. auto.
Qed.
(** Only 0 and 1 are accepted as conditions at the top and at the bottom. *)
Theorem C120_conditions : forall solve det fsolve P fuel zs ts tpor out, make_output solve det fsolve P fuel zs ts tpor = Some (Ok out) ->
  (s_bctop P = 0 \/ s_bctop P = 1)%Z /\ (s_bcbot P = 0 \/ s_bcbot P = 1)%Z.
Proof.
  intros solve det fsolve P fuel zs ts tpor out H. unfold make_output in H. destruct (negb _); [discriminate|].
  destruct (bc_top P) as [tp|] eqn:E1; [|discriminate]. destruct (bc_bot P) as [bt|] eqn:E2; [|discriminate].
  destruct (bcs P (tp, bt) E1 E2) as [[[? _]|[? _]] [[? _]|[? _]]]; auto.
Qed.
(** The documented partly draining condition 3 fails with NameError, another value at the top with
    AttributeError instead of the intended ValueError. *)
Theorem C120_conditions_refuted : forall solve det fsolve P fuel zs ts tpor, length (s_h P) = length (s_kv P) -> length (s_kv P) = length (s_mv P) ->
  (s_bctop P = 3%Z -> make_output solve det fsolve P fuel zs ts tpor = Some (Err NameError)) /\
  ((s_bctop P <> 0 -> s_bctop P <> 1 -> s_bctop P <> 3 -> make_output solve det fsolve P fuel zs ts tpor = Some (Err AttributeError))%Z) /\
  ((s_bctop P = 0 \/ s_bctop P = 1 -> s_bcbot P = 3 -> make_output solve det fsolve P fuel zs ts tpor = Some (Err NameError))%Z) /\
  ((s_bctop P = 0 \/ s_bctop P = 1 -> s_bcbot P <> 0 -> s_bcbot P <> 1 -> s_bcbot P <> 3 -> make_output solve det fsolve P fuel zs ts tpor = Some (Err ValueError))%Z).
Proof.
  intros solve det fsolve P fuel zs ts tpor L1 L2. unfold make_output. rewrite <- L2, L1, Nat.eqb_refl. cbn [andb negb]. unfold bc_top, bc_bot. split; [|split; [|split]].
  - intros ->. reflexivity.
  - intros A B C. apply Z.eqb_neq in A, B, C. rewrite A, B, C. reflexivity.
  - intros A B. rewrite B. destruct A as [->| ->]; reflexivity.
  - intros A B C D. apply Z.eqb_neq in B, C, D. rewrite B, C, D. destruct A as [->| ->]; reflexivity.
Qed.
(** A single layer that is impervious at the top is never solved: the system is singular. *)
Theorem C120_impervious_top_refuted : forall solve det fsolve P fuel zs ts tpor out, solves solve ->
  layers (the_soil P) = 1%nat -> s_bctop P = 1%Z -> (1 <= s_n P)%nat -> is_soil (the_soil P) -> (forall g, 0 < g -> 0 < fsolve g) ->
  make_output solve det fsolve P fuel zs ts tpor <> Some (Ok out).
Proof.
  intros solve det fsolve P fuel zs ts tpor out Hsolve HN Bt Hn Hs Hf Hrun. change (the_soil P) with (soil_of P) in *.
  destruct (core solve det fsolve P Hs Hf fuel zs ts tpor out Hrun) as (tb & roots & terms & is & E1 & E2 & Se & Ln & Hpos & E4 & Hout).
  destruct roots as [|b roots]; [cbn in Ln; lia|]. cbn [mapM] in E4. destruct (calc_term solve P tb b) as [T|e] eqn:ET; [|discriminate].
  destruct (term_rows P Hs solve Hsolve b tb T ET) as (_ & C1 & _ & HR & HU).
  rewrite <- (N_layers P Hs) in HN.
  destruct (HU (fun i => t_B T i + 1) (t_C T) C1) with (i := 0%nat) as [Q _]; [|lia|lra].
  intros r Hr. rewrite HN in Hr. assert (r = 0%nat) by lia. subst r. pose proof (HR 0%nat ltac:(lia)) as H0. rewrite HN in *. cbn [Nat.mul Nat.add] in *.
  rewrite total_S, total_S, total_0 in *. rewrite !row_top in *. cbn [Nat.eqb] in *. unfold coefs in *. cbn [Nat.even Nat.div Nat.divmod fst snd] in *.
  destruct (bcs P tb E1 E2) as [[[Z _]|[_ Z]] _]; [rewrite Z in Bt; discriminate|]. rewrite Z in *. cbn [fst snd] in *. rewrite Rmult_0_l, chop_0 in *. lra.
Qed.
(** A depth below the last layer is an error. *)
Theorem C120_depths : forall solve det fsolve P fuel zs ts tp out, is_soil (the_soil P) -> (forall g, 0 < g -> 0 < fsolve g) -> (1 <= s_n P)%nat -> tp <> [] ->
  make_output solve det fsolve P fuel zs ts (Some tp) = Some (Ok out) -> forall z, In z zs -> z <= total_depth P.
Proof.
  intros solve det fsolve P fuel zs ts tp out Hs Hf Hn Ht Hrun z Hz. change (the_soil P) with (soil_of P) in *.
  destruct (core solve det fsolve P Hs Hf fuel zs ts (Some tp) out Hrun) as (tb & roots & terms & is & E1 & E2 & Se & Ln & Hpos & E4 & Hout).
  destruct roots as [|b roots]; [cbn in Ln; lia|]. unfold after_roots in Hout. rewrite E4 in Hout. cbn [bind] in Hout.
  destruct terms as [|T terms]; [apply mapM_Ok_Forall2 in E4; inversion E4|]. destruct (mapM _ zs) as [A|e] eqn:EA; cbn [bind] in Hout; [|discriminate].
  apply mapM_Ok_Forall2 in EA. destruct (In_nth zs z 0 Hz) as (k & Hk & Ek). pose proof (Forall2_nth _ _ _ 0 [] EA k Hk) as F. cbv beta in F. rewrite Ek in F.
  destruct tp as [|t tp]; [congruence|]. cbn [mapM] in F. destruct (por1 P (T :: terms) z t) as [v|e] eqn:Ev; cbn [bind] in F; [|discriminate].
  unfold por1 in Ev. cbn [mapM] in Ev. destruct (Nat.ltb_spec (searchsorted (zlayers P) z) (nlayers P)) as [L|L]; [|discriminate].
  destruct (searchsorted_cumsum (s_h P) 0 z) as (_ & I2 & _). change (cumsum 0 (s_h P)) with (zlayers P) in I2.
  assert (LN : length (s_h P) = nlayers P) by (rewrite (N_layers P Hs); reflexivity). rewrite LN in I2. specialize (I2 L).
  change (nth (searchsorted (zlayers P) z) (zlayers P) 0) with (zlayer P (searchsorted (zlayers P) z)) in I2. rewrite (zlayer_depth P Hs) in I2 by auto.
  unfold total_depth. change (the_soil P) with (soil_of P). rewrite <- (N_layers P Hs). eapply Rle_trans; [exact I2|]. apply (depth_mono P Hs); lia.
Qed.

(** ** A run *)
(** One drained layer 1/5 thick, one term, load 10 from time 0 rising to 20 at time 1. *)
Definition exP : stein := mkStein [1/5] [1] [1] 0 0 1 [0; 1] [10; 20].
Definition ex_solve (A : list (list R)) (b : list R) : result (list R) :=
  match A, b with [[a]], [v] => if Reqb a 0 then Err ValueError else Ok [v / a] | _, _ => Err ValueError end.
Definition ex_det (A : list (list R)) : R := match A with [[a; b]; [c; d]] => a * d - b * c | _ => 0 end.
Definition ex_fsolve (g : R) : R := 5 * PI.
Lemma ex_solves : solves ex_solve.
Proof.
  intros A b x H. unfold ex_solve in H. destruct A as [|[|a [|]] [|]]; try discriminate. destruct b as [|v [|]]; try discriminate. destruct (Reqb a 0) eqn:E; [discriminate|]. apply Reqb_false in E. injection H as <-.
  cbn [length]. split.
  - split; [reflexivity|]. intros r Hr. assert (r = 0%nat) by lia. subst r. rewrite total_S, total_0. cbn [nth]. field. auto.
  - intros y [Ly Hy]. destruct y as [|w [|]]; try discriminate. specialize (Hy 0%nat ltac:(lia)). rewrite total_S, total_0 in Hy. cbn [nth] in Hy. f_equal. apply (Rmult_eq_reg_l a); auto. transitivity v; [lra|field; auto].
Qed.
Lemma ex_soil : is_soil (the_soil exP).
Proof.
  split; [cbn; lia|]. split; [reflexivity|]. split; [reflexivity|]. intros i Hi. assert (i = 0%nat) by (cbn in Hi; lia). subst i. unfold at_. cbn. lra.
Qed.
Lemma ex_load : is_load (s_tim exP) (s_mag exP) (fun _ => 10).
Proof.
  split; [intros i Hi; assert (i = 0%nat) by (cbn in Hi; lia); subst i; unfold at_; cbn; lra|]. split; [cbn; lia|]. split; [reflexivity|]. split.
  - intros i Hi. assert (i = 0%nat) by (cbn in Hi; lia). subst i. unfold at_. cbn. lra.
  - intros k v Hk Hv. assert (k = 0%nat) by (cbn in Hk; lia). subst k. unfold at_. cbn. lra.
Qed.
Lemma ex_char b : characteristic ex_det exP ((0, -1), (0, 1)) b = sin (b * (1/5)).
Proof. unfold characteristic, grid, bc_entry, ex_det. cbn [nlayers exP s_kv length Nat.mul Nat.add seq map Nat.eqb Nat.sub beta zlayer zlayers s_h cumsum nth]. unfold zlayer, zlayers. cbn [nth cumsum s_h exP]. replace (b * (0 + 1/5)) with (b * (1/5)) by ring. ring. Qed.
Lemma ex_roots : find_beta ex_det ex_fsolve exP ((0, -1), (0, 1)) 8 = Some (Ok [5 * PI]).
Proof.
  unfold find_beta. cbv zeta. change (zlayer exP (nlayers exP - 1)) with (0 + 1/5). pose proof PI_bounds as [P1 P2].
  assert (P3 : 3.14 < PI) by (apply Rlt_trans with 3.1415926535897932; [lra|auto]). assert (P4 : PI < 3.15) by (apply Rlt_trans with 3.1415926535897933; [auto|lra]). clear P1 P2.
  replace (/ 10 / (0 + 1 / 5)^2) with (5/2) by field. unfold find_n_roots.
  assert (Pos : forall x y, 0 < x < 15.7 -> 0 < y < 15.7 -> 0 < characteristic ex_det exP (0, -1, (0, 1)) x * characteristic ex_det exP (0, -1, (0, 1)) y).
  { intros x y Hx Hy. rewrite !ex_char. apply Rmult_lt_0_compat; apply sin_gt_0; lra. }
  do 5 (rewrite run_next; [|cbn; lia|cbn; lia|apply Pos; lra]).
  rewrite run_first; [|cbn; lia|cbn; lia| | lra | unfold ex_fsolve; rewrite Rabs_pos_eq; [|lra]; apply Rle_lt_trans with 1; [|lra]; rewrite <- Rinv_1; apply Rinv_le_contravar; [lra|apply pow_R1_Rle; lra]].
  - cbv zeta. rewrite run_end by (cbn; lia). reflexivity.
  - rewrite !ex_char. match goal with |- sin ?a * sin ?b <= 0 => assert (0 < sin a) by (apply sin_gt_0; lra); assert (sin b <= 0) by (apply sin_le_0; lra) end.
    apply Rmult_le_0_l; lra.
Qed.

Lemma ex_singular : tells_singular 2 ex_det.
Proof.
  intros A [LA LR]. destruct A as [|ra [|rb [|]]]; try discriminate. pose proof (LR 0%nat ltac:(lia)) as L0. pose proof (LR 1%nat ltac:(lia)) as L1. cbn [nth] in L0, L1.
  destruct ra as [|a [|b [|]]]; try discriminate. destruct rb as [|c [|d [|]]]; try discriminate. cbn [ex_det]. clear. split.
  - intros E.
    assert (K : forall x y, (x <> 0 \/ y <> 0) -> a * x + b * y = 0 -> c * x + d * y = 0 -> exists x0, length x0 = 2%nat /\ (exists c0, (c0 < 2)%nat /\ nth c0 x0 0 <> 0) /\ (forall r, (r < 2)%nat -> total 2 (fun c0 => nth c0 (nth r [[a; b]; [c; d]] []) 0 * nth c0 x0 0) = 0)).
    { intros x y N E1 E2. exists [x; y]. split; [reflexivity|]. split; [destruct N; [exists 0%nat|exists 1%nat]; cbn; split; auto|].
      intros r Hr. rewrite !total_S, total_0. destruct r as [|[|r]]; [cbn [nth]; lra|cbn [nth]; lra|lia]. }
    destruct (Req_dec a 0) as [Za|Za]; [destruct (Req_dec b 0) as [Zb|Zb]; [destruct (Req_dec c 0) as [Zc|Zc]; [destruct (Req_dec d 0) as [Zd|Zd]|]|]|].
    + apply (K 1 0); [lra|rewrite Za, Zb; ring|rewrite Zc, Zd; ring].
    + apply (K d (- c)); [auto|rewrite Za, Zb; ring|ring].
    + apply (K d (- c)); [right; intros Q; apply Zc; lra|rewrite Za, Zb; ring|ring].
    + apply (K b (- a)); [auto|ring|lra].
    + apply (K b (- a)); [right; intros Q; apply Za; lra|ring|lra].
  - intros (x & Lx & (k & Hk & Nz) & E). destruct x as [|u [|v [|]]]; try discriminate. pose proof (E 0%nat ltac:(lia)) as E1. pose proof (E 1%nat ltac:(lia)) as E2. rewrite !total_S, total_0 in E1, E2. cbn [nth] in E1, E2.
    assert (Q1 : (a * d - b * c) * u = 0) by (replace ((a * d - b * c) * u) with (d * (0 + a * u + b * v) - b * (0 + c * u + d * v)) by ring; rewrite E1, E2; ring).
    assert (Q2 : (a * d - b * c) * v = 0) by (replace ((a * d - b * c) * v) with (a * (0 + c * u + d * v) - c * (0 + a * u + b * v)) by ring; rewrite E1, E2; ring).
    apply Rmult_integral in Q1. apply Rmult_integral in Q2. destruct Q1 as [|Q1]; auto. destruct Q2 as [|Q2]; auto. exfalso. destruct k as [|[|k]]; [cbn in Nz; auto|cbn in Nz; auto|lia].
Qed.
Lemma ex_zero g : characteristic ex_det exP ((0, -1), (0, 1)) (ex_fsolve g) = 0.
Proof. rewrite ex_char. unfold ex_fsolve. replace (5 * PI * (1 / 5)) with PI by field. apply sin_PI. Qed.
(** The run returns, and the hypotheses of the theorems hold for it. *)
Lemma ex_term : exists T, calc_term ex_solve exP ((0, -1), (0, 1)) (5 * PI) = Ok T /\ t_beta T = beta exP (5 * PI).
Proof.
  unfold calc_term. cbn [nlayers exP s_kv length Nat.mul Nat.add Nat.sub]. unfold grid. cbn [seq map]. unfold bc_entry at 1. cbn [Nat.eqb]. replace (-1 * -1) with 1 by ring. rewrite chop_1.
  unfold ex_solve. destruct (Reqb 1 0) eqn:E; [apply Reqb_true in E; lra|]. cbn [bind]. eexists. split; [reflexivity|]. reflexivity.
Qed.
Lemma ex_run : exists out, make_output ex_solve ex_det ex_fsolve exP 8 [1/10] [-1; 1/2] (Some [1/2]) = Some (Ok out) /\
  out_avp out <> out_set out.
Proof.
  destruct ex_term as (T & ET & EB).
  unfold make_output. cbn [negb andb Nat.eqb exP s_h s_kv s_mv length bc_top bc_bot s_bctop s_bcbot Z.eqb nlayers]. fold exP. unfold bc_top, bc_bot. cbn [exP s_bctop s_bcbot Z.eqb].
  fold exP. rewrite ex_roots. unfold after_roots. cbn [mapM]. rewrite ET. cbn [bind].
  set (pairs := [(5 * PI, T)]). change [T] with (map snd pairs).
  assert (Hp : forall p, In p pairs -> 0 < fst p /\ t_beta (snd p) = beta exP (fst p)) by (intros p [<-|[]]; cbn [fst snd]; split; [pose proof PI_RGT_0; lra|auto]).
  rewrite (por1_eq exP ex_soil _ ex_load pairs Hp).
  2: { apply (in_layer exP ex_soil). unfold depth. cbn [nlayers exP s_kv length]. rewrite total_S, total_0. unfold at_. cbn. lra. }
  cbn [bind].
  assert (I1 : exists q, interp1 (s_tim exP) (s_mag exP) false (-1) = Ok q /\ q = 10).
  { destruct (PiecewiseProofs.interp1_ok (s_tim exP) (s_mag exP) false (-1)) as [q Eq]; [reflexivity|discriminate|]. exists q. split; [auto|].
    destruct (interp1_load_value (s_tim exP) (s_mag exP) (-1) q) as (_ & V & _); [reflexivity|apply ex_load|discriminate|auto|]. rewrite V; unfold at_; cbn; [reflexivity|lra|lra]. }
  destruct I1 as (q & I1 & Q). subst q. destruct (PiecewiseProofs.interp1_ok (s_tim exP) (s_mag exP) false (1/2)) as [q2 I2]; [reflexivity|discriminate|].
  rewrite (settle_avp1_eq exP ex_soil _ ex_load pairs Hp _ _ I1). cbn [bind]. rewrite (settle_avp1_eq exP ex_soil _ ex_load pairs Hp _ _ I2). cbn [bind].
  eexists. split; [reflexivity|]. cbn [out_avp out_set map fst snd]. intros Q. injection Q as Q _.
  assert (T0 : tm exP (5 * PI) (-1) = 0).
  { assert (B : 0 < 5 * PI) by (pose proof PI_RGT_0; lra). apply (effect_unique _ _ _ _ _ _ _ (tm_effect exP ex_soil _ ex_load (5 * PI) (-1) B)).
    exists 0. split.
    - replace (until (s_tim exP) (-1)) with (at_ (s_tim exP) 0); [apply (is_RInt_point (V := R_NormedModule))|]. unfold until, at_. cbn. rewrite Rmin_left by lra. rewrite Rmax_left by lra. reflexivity.
    - unfold sum_jumps. cbn. unfold at_. cbn. unfold Rltb, Rleb. repeat (destruct Req_EM_T || destruct Rle_dec || destruct Rlt_dec); try lra. }
  assert (U0 : uint exP pairs 0 (-1) = 0) by (unfold uint, total_over, pairs; cbn [map fold_right fst snd]; rewrite T0; ring).
  revert Q. cbn [nlayers exP s_kv length]. fold exP. rewrite !total_S, !total_0, U0. unfold mv, hh. cbn. lra.
Qed.
Example C117_witness : is_soil (the_soil exP) /\ solves ex_solve /\ (forall g, 0 < g -> 0 < ex_fsolve g) /\ is_load (s_tim exP) (s_mag exP) (fun _ => 10) /\
  exists out, make_output ex_solve ex_det ex_fsolve exP 8 [1/10] [-1; 1/2] (Some [1/2]) = Some (Ok out).
Proof.
  split; [apply ex_soil|]. split; [apply ex_solves|]. split; [intros; unfold ex_fsolve; pose proof PI_RGT_0; lra|]. split; [apply ex_load|]. destruct ex_run as (out & E & _). eauto.
Qed.
Example C118_witness : tells_singular (2 * layers (the_soil exP)) ex_det /\
  (forall tp bt g, bc_top exP = Ok tp -> bc_bot exP = Ok bt -> 0 < g -> characteristic ex_det exP (tp, bt) (ex_fsolve g) = 0) /\
  none_tiny (the_soil exP) (at_ (s_kv exP) 0 / at_ (s_mv exP) 0 * (5 * PI)^2).
Proof.
  split; [exact ex_singular|]. split; [intros tp bt g E1 E2 _; cbn in E1, E2; injection E1 as <-; injection E2 as <-; apply ex_zero|].
  split; [|intros i Hi; cbn in Hi; lia]. right. unfold wave, at_. cbn [nth exP s_kv s_mv the_soil comp perm]. replace (1 / 1 * (5 * PI)^2 * 1 / 1) with ((5 * PI)^2) by field. pose proof PI2_1 as P1.
  rewrite sqrt_pow2 by lra. rewrite Rabs_pos_eq by lra. apply Rle_trans with 1; [|lra]. rewrite <- Rinv_1. apply Rinv_le_contravar; [lra|apply pow_R1_Rle; lra].
Qed.
(** In this run the settlement table does not hold the settlement, and there is settlement at time -1,
    before the load starts, because the first load value is taken to hold before. *)
Theorem C120_settlement_table_refuted : exists out, make_output ex_solve ex_det ex_fsolve exP 8 [1/10] [-1; 1/2] (Some [1/2]) = Some (Ok out) /\
  ~ In (data_set, column (out_set out)) (out_files out).
Proof.
  destruct ex_run as (out & E & Ne). exists out. split; [auto|]. intros Q. apply (C120_tables _ _ _ _ _ _ _ _ _ E) in Q. apply Ne. symmetry.
  revert Q. generalize (out_avp out) (out_set out). intros a b. revert a. induction b as [|x b IH]; intros [|y a] Q; try discriminate; auto. cbn in Q. injection Q as -> Q. f_equal. apply IH. exact Q.
Qed.
Example C120_witness : ~ (length (s_h (mkStein [1] [1; 2] [1] 0 0 1 [0] [1])) = length (s_kv (mkStein [1] [1; 2] [1] 0 0 1 [0] [1])) /\ True) /\
  is_soil (the_soil (mkStein [1] [1] [1] 1 0 1 [0] [1])).
Proof.
  split; [intros [Q _]; discriminate|]. split; [cbn; lia|]. split; [reflexivity|]. split; [reflexivity|]. intros i Hi. assert (i = 0%nat) by (cbn in Hi; lia). subst i. unfold at_. cbn. lra.
Qed.
Print Assumptions C117_pressures.
Print Assumptions C118_best.
Print Assumptions C119_average_and_settlement.
Print Assumptions C120_tables.

(** * C101: the spectral program with resistance in the drain *)
From Coq Require Import Reals List Arith ZArith Lia Lra Bool Sorted.
From Coquelicot Require Import Coquelicot.
From Verif Require Import Base PiecewiseModel LayersModel SpecPiecewise SpecPiecewiseApi PolyLineModel SpecPolyLine PolyLineProofs7 SpectralModel SpecSpectral SpectralProofs5
  WrapModel SpecWrap LoadModel LoadTrigModel SpecLoad TimeProofs TimeProofs2 PropsTime SpecSpeccon SpecconModel SpecconProofs SpecconProofs2 SpecconProofs4 PropsSpeccon SpecGalerkin SpecconProofs6 SpecconProofs7 SpecconProofs8 SpecconProofs9 SpecconProofs10 PropsGalerkin
  WellModel SpecWell WellProofs WellProofs2 WellProofs3 WellProofs4 WellProofs5 WellProofs6.
Import ListNotations.
Open Scope R_scope.
Local Notation entry := SpecSpectral.entry.

Section Statements.
(** Any numpy.linalg.inv and numpy.linalg.eig that do what they promise when they return. *)
Variable inv : list (list R) -> result (list (list R)).
Variable eig : list (list R) -> result (list R * list (list R)).
Hypothesis Hinv : inverts inv.
Hypothesis Heig : diagonalises eig.
(** A problem W with physical meaning ph in the soil and dr in the drain, whose matrices could be inverted and diagonalised, without zero eigenvalue. *)
Variables (W : wproblem) (ph : physics) (dr : drain) (T0 : R) (X : warrays).
Hypothesis HW : represents_well T0 W ph dr.
Hypothesis Hn : (1 <= neig (soil W))%nat.
Hypothesis HH : Hh (soil W) <> 0.
Hypothesis Hv : mvref (soil W) <> 0.
Hypothesis Hd : dT (soil W) <> 0.
Hypothesis HI : w_time_independent inv eig W = Ok X.
Hypothesis Hnz : forall lam, In lam (w_eigs X) -> lam <> 0.

(** What make_por, make_avp and make_set report, for whatever times and depths, is taken from the soil pressure a. *)
Definition soil_outputs (a : nat -> R -> R) : Prop :=
  let P := bare (soil W) in
  forall tvals idx, (forall k, In k idx -> (k < length tvals)%nat) ->
   let times := map (fun k => nth k tvals 0) idx in
   (forall zs, (forall z, In z zs -> 0 <= z <= 1) -> exists A, w_make_por inv eig W tvals zs idx = Ok A /\ shape A (length zs) (length idx) /\
      forall i j, (i < length zs)%nat -> (j < length idx)%nat -> before_ends (load_tables P) (nth j times 0) ->
        entry A i j = pore P ph (w_m X) a (nth i zs 0) (nth j times 0)) /\
   (forall zp, (forall q, In q zp -> 0 <= fst q /\ fst q < snd q /\ snd q <= 1) ->
      (exists A, w_make_avp inv eig W tvals zp idx = Ok A /\ shape A (length zp) (length idx) /\
        forall i j, (i < length zp)%nat -> (j < length idx)%nat -> before_ends (load_tables P) (nth j times 0) ->
          let '(z1, z2) := nth i zp (0, 0) in is_RInt (fun z => pore P ph (w_m X) a z (nth j times 0)) z1 z2 (entry A i j * (z2 - z1))) /\
      ((surcharge_vs_depth P = None -> surcharge_vs_time P = None) ->
       exists A, w_make_set inv eig W tvals zp idx = Ok A /\ shape A (length zp) (length idx) /\
        forall i j, (i < length zp)%nat -> (j < length idx)%nat -> before_ends (load_tables P) (nth j times 0) ->
          let '(z1, z2) := nth i zp (0, 0) in exists strain,
            is_RInt (fun z => f_mv ph z * (applied (f_surcharge ph) z (nth j times 0) - pore P ph (w_m X) a z (nth j times 0))) z1 z2 strain /\
            entry A i j = Hh P * mvref P * strain)).
(** What make_porwell reports at times at which no boundary load jumps. *)
Definition drain_outputs (report : R -> R -> R) : Prop :=
  forall tvals idx zs, (forall k, In k idx -> (k < length tvals)%nat) -> (forall z, In z zs -> 0 <= z <= 1) ->
    let times := map (fun k => nth k tvals 0) idx in
    exists A, w_make_porwell inv eig W tvals zs idx = Ok A /\ shape A (length zs) (length idx) /\
      forall i j, (i < length zs)%nat -> (j < length idx)%nat -> before_ends (load_tables (bare (soil W))) (nth j times 0) ->
        (forall p, In p (listed (top_vs_time (soil W)) ++ listed (bot_vs_time (soil W))) -> no_jump p (nth j times 0)) ->
        entry A i j = report (nth i zs 0) (nth j times 0).
(** Soil pressure a and drain pressure b satisfy both equations; b0 is the part of the drain pressure due to the boundary loads
    alone.  The outputs for the soil are exact; that for the drain carries two errors. *)
Theorem C101_solution : exists a b b0,
  well_solution (bare (soil W)) ph dr T0 (w_m X) a b (neig (soil W)) /\
  (forall i t, (i < neig (soil W))%nat -> drain_balanced (bare (soil W)) ph dr (w_m X) (fun _ _ => 0) b0 i t) /\
  (forall z t, is_derive (fun z => pore (bare (soil W)) ph (w_m X) a z t) z (pore_z (bare (soil W)) ph (w_m X) a z t)) /\
  (forall z t, is_derive (fun z => pore (bare (soil W)) ph (w_m X) b z t) z (pore_z (bare (soil W)) ph (w_m X) b z t)) /\
  soil_outputs a /\
  drain_outputs (fun z t => pore (bare (soil W)) ph (w_m X) b z t + (/ bottom_factor (soil W) - 1) * p_bot ph t * z + (dT (soil W) - 1) * series (w_m X) b0 z t).
Proof using Hinv Heig HW Hn HH Hv Hd HI Hnz.
  destruct (w_solution inv eig Hinv Heig W ph dr T0 X HW Hn HH Hv Hd HI Hnz) as (a & Ha & Hg & H0).
  destruct (w_pieces inv eig Hinv Heig W ph dr T0 X HW Hn Hd HI) as (_ & _ & _ & _ & Em & _). pose proof (m_facts (soil W) (w_m X) Em Hn) as (_ & _ & _ & Hdrn & _).
  pose proof (HB W ph dr T0 HW) as HR.
  exists a, (drain_coefs W ph dr X a), (drain_coefs W ph dr X (fun _ _ => 0)). split; [exact Hg|]. split; [exact H0|].
  split; [intros; apply pore_derive; auto|]. split; [intros; apply pore_derive; auto|]. split.
  - cbv delta [soil_outputs]. cbv beta. set (P := bare (soil W)). intros P0; subst P0. intros tvals idx Hi times.
    destruct (Ha tvals) as (vE & ES & HE). pose proof (pick_tabulates vE (neig (soil W)) tvals a idx HE Hi) as HE'.
    assert (Lt : length (pick idx tvals) = length idx) by (unfold pick; apply map_length). change (pick idx tvals) with times in *.
    split; [|intros zp Hz; split].
    + intros zs Hz. destruct (por_ok P ph T0 (w_m X) times _ a HR Hn HH Em HE' zs Hz) as (A & EA & SA & HA). rewrite Lt in SA, HA.
      exists A. split; [unfold w_make_por; rewrite ES; exact EA|]. split; [exact SA|exact HA].
    + destruct (avp_ok P ph T0 (w_m X) times _ a HR Hn HH Em HE' zp Hz) as (A & EA & SA & HA). rewrite Lt in SA, HA.
      exists A. split; [unfold w_make_avp; rewrite ES; exact EA|]. split; [exact SA|]. intros i j Hi' Hj O. specialize (HA i j Hi' Hj O). destruct (nth i zp (0, 0)) as [z1 z2]. exact HA.
    + intros Hs. destruct (set_ok P ph T0 (w_m X) times _ a HR Hn HH Em HE' zp Hz Hs) as (A & EA & SA & HA). rewrite Lt in SA, HA.
      exists A. split; [unfold w_make_set; rewrite ES; exact EA|]. split; [exact SA|]. intros i j Hi' Hj O. specialize (HA i j Hi' Hj O). destruct (nth i zp (0, 0)) as [z1 z2]. exact HA.
  - intros tvals idx zs Hi Hz times. destruct (Ha tvals) as (vE & ES & HE).
    exact (porwell_ok inv eig Hinv Heig W ph dr T0 X HW Hn HH Hd HI tvals vE a idx zs ES HE Hi Hz).
Qed.
(** With dT = 1, and no gradient at an undrained bottom unless the layer height is 1, the pressure reported for the drain is right. *)
Theorem C101_drain : dT (soil W) = 1 -> (bottom_factor (soil W) = 1 \/ bot_vs_time (soil W) = None) ->
  exists a b, well_solution (bare (soil W)) ph dr T0 (w_m X) a b (neig (soil W)) /\ soil_outputs a /\
    drain_outputs (fun z t => pore (bare (soil W)) ph (w_m X) b z t).
Proof using Hinv Heig HW Hn HH Hv Hd HI Hnz.
  intros E1 E2. destruct C101_solution as (a & b & b0 & H1 & _ & _ & _ & H5 & H6). exists a, b. split; [exact H1|]. split; [exact H5|].
  intros tvals idx zs Hi Hz times. destruct (H6 tvals idx zs Hi Hz) as (A & EA & SA & HA). exists A. split; [exact EA|]. split; [exact SA|].
  intros i j Hi' Hj O NJ. rewrite (HA i j Hi' Hj O NJ). rewrite E1.
  assert (Z : (/ bottom_factor (soil W) - 1) * p_bot ph (nth j times 0) = 0).
  { destruct E2 as [->|E]; [rewrite Rinv_1; ring|].
    pose proof (HB W ph dr T0 HW) as (_ & _ & _ & _ & _ & (Bs0 & (_ & HBs) & EB & _) & _). cbn [bot_vs_time bare] in HBs. rewrite E in HBs. cbn in HBs. inversion HBs; subst. rewrite EB. unfold total. cbn. ring. }
  fold times. rewrite Z. ring.
Qed.
(** When no exact matrix entry is between 0 and 1e-8 the balance is exact. *)
Theorem C101_exact : forall a b, well_solution (bare (soil W)) ph dr T0 (w_m X) a b (neig (soil W)) ->
  (forall i j x, (i < neig (soil W))%nat -> (j < neig (soil W))%nat ->
     storage_entry ph (w_m X) i j x \/ well_entry (bare (soil W)) ph dr (w_m X) (neig (soil W)) i j x -> x = 0 \/ / 100000000 <= Rabs x) ->
  forall i t, (i < neig (soil W))%nat -> T0 <= t -> before_ends (load_tables (bare (soil W))) t ->
    well_balanced (bare (soil W)) ph dr T0 (w_m X) a b i t 0 /\ drain_balanced (bare (soil W)) ph dr (w_m X) a b i t.
Proof using.
  clear. intros a b (DB & dG & dP & H1 & H2) Hx i t Hi Ht O. split; [|apply DB; auto].
  destruct (H2 i t Hi Ht O) as (J & _ & M & rate & Q & E1 & E2 & E3 & E4).
  exists M, rate, Q. split; auto. split; auto. split; auto. rewrite E4. unfold sum.
  rewrite (fold_ext _ (fun _ => 0)), (fold_ext (fun j => dP i j * J j) (fun _ => 0)), !fold_zero; [ring| |].
  - intros j Hj. apply in_seq in Hj. destruct (H1 i j Hi ltac:(lia)) as (_ & x & X1 & X2 & X3). rewrite X3; [ring|]. apply (Hx i j x); auto; lia.
  - intros j Hj. apply in_seq in Hj. destruct (H1 i j Hi ltac:(lia)) as ((x & X1 & X2 & X3) & _). rewrite X3; [ring|]. apply (Hx i j x); auto; lia.
Qed.
End Statements.
Print Assumptions C101_solution.
Print Assumptions C101_drain.
Print Assumptions C101_exact.

(** ** A concrete problem: undrained bottom with a gradient there, layer height h *)
Definition ex_soil (h : R) : problem := mkProblem 1 1 vectorized 1 h (/ 2) flat (Some flat) (Some 1) None None None
  (Some [flat]) (Some [ex_load]) None None None None (Some [ex_load]) None (Some [ex_load]) None None None None None.
Definition ex_well (h : R) : wproblem := mkWproblem (ex_soil h) flat flat 1 flat 1.
Definition ex_drain : drain := mkDrain (fun _ => 1) (fun _ => 1) (fun _ => 1) (vleft flat 1) 1 1.
Lemma ex_well_represents h : exists ph F, represents_well 0 (ex_well h) ph ex_drain /\ f_mv ph = (fun _ => 1) /\ f_kv ph = (fun _ => 1) /\ d_v ph = 1 /\ d_h ph = 0 /\ f_fixed ph = [] /\
  is_load 0 ex_load None F /\ p_bot ph = (fun t => h * total [F] t).
Proof.
  assert (LC : forall om, exists F, is_load 0 ex_load om F).
  { intros om. eexists. split; [apply ex_load_proper|]. split; [cbn; lra|]. split; [left; cbn; lra|apply load_course_exists, ex_load_proper]. }
  destruct (LC None) as (F1 & HF1).
  exists (mkPhysics (fun _ => 1) (fun _ => 1) (fun _ => 0) (fun _ => 0) (vleft flat 1) 1 0
    (total [F1]) (total0 [ex_load] None) (fun t => h * total [F1] t) (h * total0 [ex_load] None)
    [mkDepthLoad F1 (initial ex_load None) (fun _ => 1)] [] [] []), F1.
  split; [|repeat split; auto; apply HF1].
  assert (Sep : forall l, (forall p, In p l -> p = flat) -> well_separated l).
  { intros l Hl. unfold well_separated. intros u w Hu Hw. unfold distinct_enough.
    assert (X : forall y, In y (concat (map px l)) -> y = 0 \/ y = 1).
    { intros y Hy. apply in_concat in Hy. destruct Hy as (q & Hq & Hy). apply in_map_iff in Hq. destruct Hq as (p & <- & Hp). rewrite (Hl p Hp) in Hy. destruct Hy as [<-|[<-|[]]]; auto. }
    apply X in Hu. apply X in Hw. destruct Hu as [-> | ->], Hw as [-> | ->]; auto; right;
    repeat (rewrite ?Rminus_0_r, ?Rabs_R1, ?Rabs_R0, ?Rminus_0_l, ?Rabs_Ropp); lra. }
  split; [|split; [apply Sep; cbn; intuition|repeat split; auto; apply flat_profile]].
  unfold represents, ex_well. cbn -[total total0 vleft]. split; [apply Sep; cbn; intuition|].
  split; [apply flat_profile|]. split; [split; [apply flat_profile|auto]|]. split; [auto|].
  split; [exists [F1]; split; [split; [reflexivity|constructor; [exact HF1|constructor]]|auto]|].
  split; [exists [F1]; split; [split; [reflexivity|constructor; [exact HF1|constructor]]|auto]|].
  split; [split; [reflexivity|split; [reflexivity|constructor; [split; [exact HF1|split; [reflexivity|apply flat_profile]]|constructor]]]|].
  split; [reflexivity|]. split; [reflexivity|]. split; [constructor|]. split; [reflexivity|constructor].
Qed.
Lemma ex_well_solved h : forall ph, represents_well 0 (ex_well h) ph ex_drain -> f_mv ph = (fun _ => 1) -> f_kv ph = (fun _ => 1) -> d_v ph = 1 -> d_h ph = 0 -> f_fixed ph = [] ->
  exists X, w_time_independent inv1 eig1 (ex_well h) = Ok X /\ forall lam, In lam (w_eigs X) -> lam <> 0.
Proof.
  intros ph HW Emv Ekv Edv Edh Efx.
  assert (Em : make_m (soil (ex_well h)) = Ok [PI * (INR 0 + / 2)]) by (unfold make_m; cbn [neig soil ex_well ex_soil seq mapM drn]; rewrite m_from_1; reflexivity).
  set (c := PI * (INR 0 + / 2)) in *. set (m := [c]) in *.
  assert (Ec : c = PI / 2) by (unfold c; cbn; field). assert (Hc : 3 / 2 < c) by (rewrite Ec; pose proof PI2_3_2; lra).
  assert (S2 : is_RInt (fun z => 1 * sin (c * z) * sin (c * z)) 0 1 (/ 2)) by (apply orth_diag; [lra|rewrite Ec, cos_PI2; ring]).
  assert (C2 : is_RInt (fun z => 1 * (c * cos (c * z)) * (c * cos (c * z))) 0 1 (c * c * / 2)).
  { pose proof (RInt_mull _ _ _ (- (c * c)) _ S2) as Y. pose proof (is_RInt_const (V := R_NormedModule) 0 1 (c * c)) as Z'. unfold scal in Z'; cbn in Z'; unfold Hierarchy.mult in Z'; cbn in Z'.
    pose proof (RInt_add _ _ _ _ _ _ Z' Y) as U.
    eapply RInt_eq; [exact U| |match goal with |- ?p = ?q => change (@eq R p q) end; field].
    intros s. cbv beta. replace (1 * (c * cos (c * s)) * (c * cos (c * s))) with (c * c * (cos (c * s))²) by (unfold Rsqr; ring). rewrite cos2. unfold Rsqr. ring. }
  assert (U : forall (f g : R -> R) x y, is_RInt f 0 1 x -> is_RInt g 0 1 y -> (forall z, f z = g z) -> x = y).
  { intros f g x y Hf Hg E. assert (f = g) by (apply FunctionalExtensionality.functional_extensionality; auto). subst g.
    apply (is_RInt_unique (V := R_CompleteNormedModule)) in Hf, Hg. congruence. }
  pose proof (HB (ex_well h) ph ex_drain 0 HW) as HR.
  assert (H1 : (1 <= neig (soil (ex_well h)))%nat) by (cbn; lia). assert (Hd : dT (soil (ex_well h)) <> 0) by (cbn; lra).
  destruct (gam_cell (bare (soil (ex_well h))) ph 0 m HR Em H1 0 0 ltac:(cbn; lia) ltac:(cbn; lia)) as (g & G1 & G2).
  pose proof (gam_square (soil (ex_well h)) m Em H1) as SG. change (make_gam (bare (soil (ex_well h))) m) with (make_gam (soil (ex_well h)) m) in G2.
  destruct (psi_s_ok (ex_well h) ph ex_drain 0 m HW Em H1 Hd) as (psi_s & Es & SS & HS).
  destruct (psi_w_ok (ex_well h) ph ex_drain 0 m HW Em H1 Hd psi_s SS (fun i j Hi Hj => proj2 (HS i j Hi Hj))) as (SW & HWm).
  destruct (psi1_ok (ex_well h) ph ex_drain 0 m HW Em H1 Hd psi_s) as (S1 & HP).
  destruct (HS 0%nat 0%nat ltac:(cbn; lia) ltac:(cbn; lia)) as (K1 & K2). destruct (HWm 0%nat 0%nat ltac:(cbn; lia) ltac:(cbn; lia)) as (K3 & K4). destruct (HP 0%nat 0%nat ltac:(cbn; lia) ltac:(cbn; lia)) as (p0 & P1 & P2).
  assert (Eg : g = / 2) by (unfold storage_entry in G1; rewrite Emv in G1; apply (U _ _ _ _ G1 S2); reflexivity).
  assert (EX : KX ex_drain m 0 0 = / 2) by (apply (U _ _ _ _ K1 S2); intros z; cbn; ring).
  assert (EW : KW ex_drain m 0 0 = c * c * / 2) by (apply (U _ _ _ _ K3 C2); intros z; cbn; ring).
  rewrite EX in K2, K4. rewrite EW in K4. cbn [dT soil ex_well ex_soil d_dh d_w ex_drain] in K2, K4. rewrite ?Rmult_1_l in K2. rewrite ?Rmult_1_l in K4.
  assert (Ep0 : p0 = c * c * / 2).
  { destruct P1 as (V & Y & HV & HY & E). rewrite Edv, Edh, Efx in E. cbn [dT bare soil ex_well ex_soil map fold_right] in E. rewrite Ekv in HV.
    rewrite (U _ _ _ _ HV C2) in E by (intros z; reflexivity). lra. }
  repeat rewrite Rmult_1_l in K2. repeat rewrite Rmult_1_l in K4. rewrite K2, Ep0 in P2.
  assert (One : forall A, square 1 A -> A = [[cell A 0 0]]).
  { intros A (L & H). destruct A as [|r [|? ?]]; cbn in L; try lia. assert (length r = 1%nat) by (apply H; left; auto). destruct r as [|x [|? ?]]; cbn in *; try lia. reflexivity. }
  assert (Cg : cutv g = / 2).
  { unfold cutv. rewrite Eg. destruct (Rltb (Rabs (/ 2)) (/ 100000000)) eqn:E; auto. apply Rltb_true in E. rewrite Rabs_pos_eq in E; lra. }
  rewrite Cg in G2. apply One in SG, SS, SW, S1. rewrite G2 in SG. rewrite K2 in SS. rewrite K4 in SW. rewrite P2 in S1.
  set (w := c * c * / 2 + / 2) in *. assert (Hw : 1 < w) by (unfold w; nra).
  set (p := w - / 2 * / w * / 2).
  assert (Hp : 1 / 2 < p).
  { unfold p. assert (/ w < 1) by (rewrite <- Rinv_1; apply Rinv_lt_contravar; lra). lra. }
  assert (Cp : cutv p = p).
  { unfold cutv. destruct (Rltb (Rabs p) (/ 100000000)) eqn:E; auto. apply Rltb_true in E. rewrite Rabs_pos_eq in E; lra. }
  assert (R0 : forall x, x <> 0 -> Reqb x 0 = false) by (intros x Hx; apply Reqb_false; auto).
  assert (I1 : forall x, x <> 0 -> inv1 [[x]] = Ok [[/ x]]) by (intros x Hx; unfold inv1; rewrite R0; auto).
  assert (D1 : forall x y, dot_mm [[x]] [[y]] = [[x * y]]) by (intros; unfold dot_mm; cbn [map seq length hd nth cell sumn fold_left]; unfold sumn, cell; cbn; do 2 f_equal; ring).
  assert (N1 : w <> 0) by (intros E; lra). assert (N2 : / 2 <> 0) by (intros E; lra). assert (N3 : / 2 * 1 <> 0) by (intros E; lra).
  eexists. split.
  - unfold w_time_independent. rewrite Em. cbn [bind]. rewrite Es. cbn [bind]. rewrite SW, (I1 w N1). cbn [bind]. rewrite S1, SG.
    unfold make_eigs_and_v. rewrite (I1 _ N2). cbn [bind].
    assert (EP : cut (table (neig (soil (ex_well h))) (neig (soil (ex_well h))) (fun i j => cell [[w]] i j - cell (dot_mm (dot_mm psi_s [[/ w]]) psi_s) i j)) = [[p]]).
    { rewrite SS. rewrite !D1. unfold cut, table. cbn [neig soil ex_well ex_soil seq map cell nth]. f_equal. f_equal. exact Cp. }
    rewrite EP, D1. unfold eig1. cbn [bind fst snd]. rewrite D1, (I1 _ N3). cbn [bind]. reflexivity.
  - cbn [w_eigs]. intros lam [<-|[]]. assert (0 < / / 2) by lra. nra.
Qed.
(** The hypotheses hold for it, and the pressure reported for the drain at its bottom is wrong. *)
Theorem C101_drain_refuted : exists W ph dr T0 X,
  represents_well T0 W ph dr /\ (1 <= neig (soil W))%nat /\ Hh (soil W) <> 0 /\ mvref (soil W) <> 0 /\ dT (soil W) = 1 /\
  w_time_independent inv1 eig1 W = Ok X /\ (forall lam, In lam (w_eigs X) -> lam <> 0) /\
  before_ends (load_tables (bare (soil W))) 2 /\ (forall p, In p (listed (top_vs_time (soil W)) ++ listed (bot_vs_time (soil W))) -> no_jump p 2) /\
  exists a b A, well_solution (bare (soil W)) ph dr T0 (w_m X) a b (neig (soil W)) /\ soil_outputs inv1 eig1 W ph X a /\
    w_make_porwell inv1 eig1 W [0; 2] [1] [1%nat] = Ok A /\ entry A 0 0 = pore (bare (soil W)) ph (w_m X) b 1 2 - 45.
Proof.
  destruct (ex_well_represents 10) as (ph & F & HW & Emv & Ekv & Edv & Edh & Efx & HF & EB). destruct (ex_well_solved 10 ph HW Emv Ekv Edv Edh Efx) as (X & EX & Hnz).
  assert (O : before_ends (load_tables (bare (soil (ex_well 10)))) 2).
  { intros q Hq. assert (q = ex_load) by (cbn in Hq; intuition). subst. unfold before_end. cbn. lra. }
  assert (NJ : forall p, In p (listed (top_vs_time (soil (ex_well 10))) ++ listed (bot_vs_time (soil (ex_well 10)))) -> no_jump p 2).
  { intros p Hp. assert (p = ex_load) by (cbn in Hp; intuition). subst. intros k Hk. cbn in Hk. destruct k as [|[|[|[|k]]]]; cbn; try lra; lia. }
  exists (ex_well 10), ph, ex_drain, 0, X. split; [exact HW|]. split; [cbn; lia|]. split; [cbn; lra|]. split; [cbn; lra|]. split; [reflexivity|]. split; [exact EX|]. split; [exact Hnz|].
  split; [exact O|]. split; [exact NJ|].
  destruct (C101_solution inv1 eig1 inv1_inverts eig1_diagonalises (ex_well 10) ph ex_drain 0 X HW ltac:(cbn; lia) ltac:(cbn; lra) ltac:(cbn; lra) ltac:(cbn; lra) EX Hnz) as (a & b & b0 & H1 & _ & _ & _ & H5 & H6).
  destruct (H6 [0; 2] [1%nat] [1] ltac:(intros k [<-|[]]; cbn; lia) ltac:(intros z [<-|[]]; lra)) as (A & EA & _ & HA).
  exists a, b, A. split; [exact H1|]. split; [exact H5|]. split; [exact EA|].
  specialize (HA 0%nat 0%nat ltac:(cbn; lia) ltac:(cbn; lia) O NJ). cbn [nth map] in HA. rewrite HA. cbn [dT soil ex_well ex_soil]. rewrite EB.
  assert (EF : F 2 = 5).
  { destruct HF as (_ & _ & _ & (HF1 & _)). rewrite (HF1 2%nat 2 ltac:(cbn; lia) ltac:(cbn; lra)). cbn. unfold chord, SpecPiecewise.at_. cbn. field. }
  unfold total, bottom_factor. cbn [map fold_right drn soil ex_well ex_soil Z.eqb Pos.eqb Hh]. rewrite EF. field.
Qed.
Print Assumptions C101_drain_refuted.
(** The restricted statement applies when the height is 1. *)
Example C101_witness : exists ph X, represents_well 0 (ex_well 1) ph ex_drain /\ (1 <= neig (soil (ex_well 1)))%nat /\ Hh (soil (ex_well 1)) <> 0 /\ mvref (soil (ex_well 1)) <> 0 /\
  dT (soil (ex_well 1)) = 1 /\ w_time_independent inv1 eig1 (ex_well 1) = Ok X /\ (forall lam, In lam (w_eigs X) -> lam <> 0) /\
  bottom_factor (soil (ex_well 1)) = 1 /\ bot_vs_time (soil (ex_well 1)) <> None.
Proof.
  destruct (ex_well_represents 1) as (ph & F & HW & Emv & Ekv & Edv & Edh & Efx & HF & EB). destruct (ex_well_solved 1 ph HW Emv Ekv Edv Edh Efx) as (X & EX & Hnz).
  exists ph, X. split; [exact HW|]. split; [cbn; lia|]. split; [cbn; lra|]. split; [cbn; lra|]. split; [reflexivity|]. split; [exact EX|]. split; [exact Hnz|].
  split; [reflexivity|discriminate].
Qed.

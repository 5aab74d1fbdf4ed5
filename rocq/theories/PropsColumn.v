(** * C102: the spectral program for soil with stone columns *)
From Coq Require Import Reals List Arith ZArith Lia Lra Bool Sorted.
From Coquelicot Require Import Coquelicot.
From Verif Require Import Base PiecewiseModel LayersModel SpecPiecewise SpecPiecewiseApi PolyLineModel SpecPolyLine PolyLineProofs7 SpectralModel SpecSpectral SpectralProofs5
  WrapModel SpecWrap LoadModel LoadTrigModel SpecLoad TimeProofs TimeProofs2 PropsTime SpecSpeccon SpecconModel SpecconProofs SpecconProofs2 SpecconProofs4 PropsSpeccon SpecGalerkin SpecconProofs6 SpecconProofs7 SpecconProofs8 SpecconProofs9 SpecconProofs10 PropsGalerkin
  WellModel SpecWell WellProofs WellProofs2 WellProofs3 WellProofs4 WellProofs5 WellProofs6 ColumnModel SpecColumn ColumnProofs ColumnProofs2 ColumnProofs3 ColumnProofs4 ColumnProofs5.
Import ListNotations.
Open Scope R_scope.
Local Notation entry := SpecSpectral.entry.

Section Statements.
(** Any numpy.linalg.inv and numpy.linalg.eig that do what they promise when they return. *)
Variable inv : list (list R) -> result (list (list R)).
Variable eig : list (list R) -> result (list R * list (list R)).
Hypothesis Hinv : inverts inv.
Hypothesis Heig : diagonalises eig.
(** A problem W with the meaning ph (compressibility, loads) and co (flow), whose matrices could be inverted and diagonalised, without zero eigenvalue. *)
Variables (W : cproblem) (ph : physics) (co : column) (T0 : R) (X : carrays).
Hypothesis HW : represents_column T0 W ph co.
Hypothesis Hn : (1 <= neig (cbase W))%nat.
Hypothesis HH : Hh (cbase W) <> 0.
Hypothesis Hd : dT (cbase W) <> 0.
Hypothesis HI : c_time_independent inv eig W = Ok X.
Hypothesis Hnz : forall lam, In lam (c_eigs X) -> lam <> 0.

(** make_output gives the pressure and its averages over depth ranges for the overall average (None), the soil (Some 0) and the column
    (Some 1): taken from the coefficients b. *)
Definition reports (r : option nat) (b : nat -> R -> R) (good : R -> Prop) : Prop :=
  let P := frame (cbase W) in
  forall tvals idx, (forall k, In k idx -> (k < length tvals)%nat) ->
   let times := map (fun k => nth k tvals 0) idx in
   (forall zs, (forall z, In z zs -> 0 <= z <= 1) -> exists A, c_make_por inv eig W tvals zs idx r = Ok A /\ shape A (length zs) (length idx) /\
      forall i j, (i < length zs)%nat -> (j < length idx)%nat -> before_ends (load_tables P) (nth j times 0) -> good (nth j times 0) ->
        entry A i j = pore P ph (c_m X) b (nth i zs 0) (nth j times 0)) /\
   (forall zp, (forall q, In q zp -> 0 <= fst q /\ fst q < snd q /\ snd q <= 1) ->
      exists A, c_make_avp inv eig W tvals zp idx r = Ok A /\ shape A (length zp) (length idx) /\
        forall i j, (i < length zp)%nat -> (j < length idx)%nat -> before_ends (load_tables P) (nth j times 0) -> good (nth j times 0) ->
          let '(z1, z2) := nth i zp (0, 0) in is_RInt (fun z => pore P ph (c_m X) b z (nth j times 0)) z1 z2 (entry A i j * (z2 - z1))).
Definition reports_settlement (a : nat -> R -> R) : Prop :=
  let P := frame (cbase W) in
  forall tvals idx, (forall k, In k idx -> (k < length tvals)%nat) ->
   let times := map (fun k => nth k tvals 0) idx in
   forall zp, (forall q, In q zp -> 0 <= fst q /\ fst q < snd q /\ snd q <= 1) ->
      ((surcharge_vs_depth P = None -> surcharge_vs_time P = None) ->
       exists A, c_make_set inv eig W tvals zp idx = Ok A /\ shape A (length zp) (length idx) /\
        forall i j, (i < length zp)%nat -> (j < length idx)%nat -> before_ends (load_tables P) (nth j times 0) ->
          let '(z1, z2) := nth i zp (0, 0) in exists strain,
            is_RInt (fun z => f_mv ph z * (applied (f_surcharge ph) z (nth j times 0) - pore P ph (c_m X) a z (nth j times 0))) z1 z2 strain /\
            entry A i j = Hh P * mvref P * strain).
Definition no_load_jumps (t : R) : Prop := forall p, In p (listed (top_vs_time (cbase W)) ++ listed (bot_vs_time (cbase W))) -> no_jump p t.
Lemma overall_outputs a : (forall tvals, exists vE, c_solve inv eig W tvals = Ok (X, vE) /\ tabulates vE (neig (cbase W)) tvals a) -> reports None a (fun _ => True) /\ reports_settlement a.
Proof using Hinv Heig HW Hn HH Hd HI.
  intros Ha. destruct (c_pieces inv eig Hinv Heig W ph co T0 X HW Hn Hd HI) as (_ & _ & _ & _ & _ & Em & _).
  pose proof (HF W ph co T0 HW) as HR.
  split; [cbv delta [reports]|cbv delta [reports_settlement]]; cbv beta; set (P := frame (cbase W)); intros P0; subst P0; intros tvals idx Hi times;
    destruct (Ha tvals) as (vE & ES & HE); pose proof (pick_tabulates vE (neig (cbase W)) tvals a idx HE Hi) as HE';
    assert (Lt : length (pick idx tvals) = length idx) by (unfold pick; apply map_length); change (pick idx tvals) with times in *.
  - split.
    + intros zs Hz. destruct (por_ok P ph T0 (c_m X) times _ a HR Hn HH Em HE' zs Hz) as (A & EA & SA & HA). rewrite Lt in SA, HA.
      exists A. split; [unfold c_make_por, c_report; rewrite ES; exact EA|]. split; [exact SA|intros; apply HA; auto].
    + intros zp Hz. destruct (avp_ok P ph T0 (c_m X) times _ a HR Hn HH Em HE' zp Hz) as (A & EA & SA & HA). rewrite Lt in SA, HA.
      exists A. split; [unfold c_make_avp, c_report; rewrite ES; exact EA|]. split; [exact SA|]. intros i j Hi' Hj O _. specialize (HA i j Hi' Hj O). destruct (nth i zp (0, 0)) as [z1 z2]. exact HA.
  - intros zp Hz Hs. destruct (set_ok P ph T0 (c_m X) times _ a HR Hn HH Em HE' zp Hz Hs) as (A & EA & SA & HA). rewrite Lt in SA, HA.
    exists A. split; [unfold c_make_set; rewrite ES; exact EA|]. split; [exact SA|]. intros i j Hi' Hj O. specialize (HA i j Hi' Hj O). destruct (nth i zp (0, 0)) as [z1 z2]. exact HA.
Qed.
(** When the boundary loads cause no flow in the column by themselves, there are pressures u (average), us (soil), uc (column) and ui
    (interface) that satisfy the equations, and the program reports u and the settlement from it at all times, us and uc at times at
    which no boundary load jumps. *)
Theorem C102_solution : no_column_drive W co -> exists u us uc ui,
  column_solution (frame (cbase W)) ph co T0 (c_m X) u us uc ui (neig (cbase W)) /\
  reports None u (fun _ => True) /\ reports_settlement u /\
  (dT (cbase W) = 1 \/ (top_vs_time (cbase W) = None /\ bot_vs_time (cbase W) = None) ->
   reports (Some 0%nat) us no_load_jumps /\ reports (Some 1%nat) uc no_load_jumps).
Proof using Hinv Heig HW Hn HH Hd HI Hnz.
  intros ND. destruct (c_solution inv eig Hinv Heig W ph co T0 X HW Hn HH Hd HI Hnz ND) as (a & Ha & Hg).
  do 4 eexists. split; [exact Hg|]. destruct (overall_outputs a Ha) as (H1 & H2). split; [exact H1|]. split; [exact H2|]. intros HdT.
  assert (K : forall r, reports (Some r) (soil_coefs W ph co X r a) no_load_jumps).
  { intros r tvals idx Hi times. destruct (Ha tvals) as (vE & ES & HE). split.
    - intros zs Hz. destruct (rpor_ok inv eig Hinv Heig W ph co T0 X HW Hn HH Hd HI tvals vE a idx r ES HE Hi ND HdT zs Hz) as (A & EA & SA & HA).
      exists A. split; [exact EA|]. split; [exact SA|]. intros i j Hi' Hj O NJ. exact (HA i j Hi' Hj (conj O NJ)).
    - intros zp Hz. destruct (ravp_ok inv eig Hinv Heig W ph co T0 X HW Hn HH Hd HI tvals vE a idx r ES HE Hi ND HdT zp Hz) as (A & EA & SA & HA).
      exists A. split; [exact EA|]. split; [exact SA|]. intros i j Hi' Hj O NJ. specialize (HA i j Hi' Hj (conj O NJ)). destruct (nth i zp (0, 0)) as [z1 z2]. exact HA. }
  split; apply K.
Qed.
(** When no exact matrix entry is between 0 and 1e-8 the balance is exact. *)
Theorem C102_exact : forall u us uc ui, column_solution (frame (cbase W)) ph co T0 (c_m X) u us uc ui (neig (cbase W)) ->
  (forall i j x, (i < neig (cbase W))%nat -> (j < neig (cbase W))%nat ->
     storage_entry ph (c_m X) i j x \/ column_entry (frame (cbase W)) co (c_m X) (neig (cbase W)) i j x -> x = 0 \/ / 100000000 <= Rabs x) ->
  forall i t, (i < neig (cbase W))%nat -> T0 <= t -> before_ends (load_tables (frame (cbase W))) t ->
    column_balanced (frame (cbase W)) ph co T0 (c_m X) u us uc ui i t 0.
Proof using.
  clear. intros u us uc ui (_ & _ & dG & dP & H1 & H2) Hx i t Hi Ht O.
  destruct (H2 i t Hi Ht O) as (J & _ & M & rate & Q & E1 & E2 & E3 & E4).
  exists M, rate, Q. split; auto. split; auto. split; auto. rewrite E4. unfold sum.
  rewrite (fold_ext _ (fun _ => 0)), (fold_ext (fun j => dP i j * J j) (fun _ => 0)), !fold_zero; [ring| |].
  - intros j Hj. apply in_seq in Hj. destruct (H1 i j Hi ltac:(lia)) as (_ & x & X1 & X2 & X3). rewrite X3; [ring|]. apply (Hx i j x); auto; lia.
  - intros j Hj. apply in_seq in Hj. destruct (H1 i j Hi ltac:(lia)) as ((x & X1 & X2 & X3) & _). rewrite X3; [ring|]. apply (Hx i j x); auto; lia.
Qed.
End Statements.
Print Assumptions C102_solution.
Print Assumptions C102_exact.

(** ** A concrete problem with one mode: drained top and bottom, a quarter of the area taken by the column; the permeability kvc of the
    column and its time factor d are left open *)
Definition inv13 (A : list (list R)) : result (list (list R)) :=
  match A with
  | [[a; b; c]; [d; e; f]; [g; h; i]] =>
      let D := a * (e * i - f * h) - b * (d * i - f * g) + c * (d * h - e * g) in
      if Reqb D 0 then Err ValueError else
      Ok [[(e * i - f * h) / D; (c * h - b * i) / D; (b * f - c * e) / D];
          [(f * g - d * i) / D; (a * i - c * g) / D; (c * d - a * f) / D];
          [(d * h - e * g) / D; (b * g - a * h) / D; (a * e - b * d) / D]]
  | _ => inv1 A
  end.
Lemma inv13_inverts : inverts inv13.
Proof.
  intros A N H. destruct A as [|[|a [|b [|c [|]]]] [|[|d [|e [|f [|]]]] [|[|g [|h [|i [|]]]] [|]]]]; try (exact (inv1_inverts _ _ H)).
  unfold inv13 in H. set (D := a * (e * i - f * h) - b * (d * i - f * g) + c * (d * h - e * g)) in H. cbv zeta in H.
  destruct (Reqb D 0) eqn:E; [discriminate|]. apply Reqb_false in E. injection H as <-.
  split; [split; [reflexivity|intros row [<-|[<-|[<-|[]]]]; reflexivity]|].
  intros [|[|[|p]]] [|[|[|q]]] Hi Hj; cbn in Hi, Hj; try lia; unfold sum, coef; cbn [length seq map fold_right nth Nat.eqb]; apply (Rmult_eq_reg_r D); auto;
    unfold Rdiv; rewrite !Rmult_plus_distr_r, !Rmult_assoc, !Rinv_l, !Rmult_1_r by auto; unfold D; ring.
Qed.
Definition ramp : points := [(0, 0); (1, 1)].
Lemma ramp_profile : depth_profile 0 1 ramp (fun z => z).
Proof.
  change ramp with (draw (fun z => z) [0; 1]). apply (draw_profile (fun z => z) 0 1); auto.
  - repeat constructor. lra.
  - intros; ring.
Qed.
Definition ex_cbase : problem := mkProblem 1 0 vectorized 1 1 (/ 2) flat None None None None None
  (Some [flat]) (Some [ex_load]) None None None None (Some [ex_load]) None None None None None None None.
Definition ex_column (kvc : points) (d : R) : cproblem := mkCproblem ex_cbase 2 flat 0 flat flat 1 kvc d flat 1.
Definition ex_co (kvc : points) (f : R -> R) (d : R) : column :=
  mkColumn (fun _ => 1) (vleft flat 1) 0 (fun _ => 1) (fun _ => 1) 1 f (vleft kvc 1) d (fun _ => 1) 1 (1 / 2 ^ 2).
Lemma ex_column_represents kvc f d : depth_profile 0 1 kvc f -> px kvc = [0; 1] -> exists ph F, represents_column 0 (ex_column kvc d) ph (ex_co kvc f d) /\ f_mv ph = (fun _ => 1) /\
  is_load 0 ex_load None F /\ p_top ph = total [F] /\ p_bot ph = (fun _ => 0).
Proof.
  intros Hk Ek.
  assert (LC : forall om, exists F, is_load 0 ex_load om F).
  { intros om. eexists. split; [apply ex_load_proper|]. split; [cbn; lra|]. split; [left; cbn; lra|apply load_course_exists, ex_load_proper]. }
  destruct (LC None) as (F1 & HF1).
  exists (mkPhysics (fun _ => 1) (fun _ => 0) (fun _ => 0) (fun _ => 0) 0 0 0
    (total [F1]) (total0 [ex_load] None) (fun t => 0) 0
    [mkDepthLoad F1 (initial ex_load None) (fun _ => 1)] [] [] []), F1.
  split; [|repeat split; auto; apply HF1].
  assert (Sep : forall l, (forall p, In p l -> px p = [0; 1]) -> well_separated l).
  { intros l Hl. unfold well_separated. intros u w Hu Hw. unfold distinct_enough.
    assert (X : forall y, In y (concat (map px l)) -> y = 0 \/ y = 1).
    { intros y Hy. apply in_concat in Hy. destruct Hy as (q & Hq & Hy). apply in_map_iff in Hq. destruct Hq as (p & <- & Hp). rewrite (Hl p Hp) in Hy. destruct Hy as [<-|[<-|[]]]; auto. }
    apply X in Hu. apply X in Hw. destruct Hu as [-> | ->], Hw as [-> | ->]; auto; right;
    repeat (rewrite ?Rminus_0_r, ?Rabs_R1, ?Rabs_R0, ?Rminus_0_l, ?Rabs_Ropp); lra. }
  assert (Ef : px flat = [0; 1]) by reflexivity.
  split; [|split; [apply Sep; cbn; intuition (subst; auto)|repeat split; auto; try apply flat_profile; try apply Hk; cbn; field]].
  unfold represents, ex_column. cbn -[total total0 vleft]. split; [apply Sep; cbn; intuition (subst; auto)|].
  split; [apply flat_profile|]. split; [auto|]. split; [auto|].
  split; [exists [F1]; split; [split; [reflexivity|constructor; [exact HF1|constructor]]|auto]|].
  split; [exists []; split; [split; [reflexivity|constructor]|split; [apply FunctionalExtensionality.functional_extensionality; intros; unfold total; cbn; ring|unfold total0; cbn; ring]]|].
  split; [split; [reflexivity|split; [reflexivity|constructor; [split; [exact HF1|split; [reflexivity|apply flat_profile]]|constructor]]]|].
  split; [reflexivity|]. split; [reflexivity|]. split; [constructor|]. split; [reflexivity|constructor].
Qed.
Lemma ex_column_solved kvc f d V ph : represents_column 0 (ex_column kvc d) ph (ex_co kvc f d) -> f_mv ph = (fun _ => 1) -> depth_profile 0 1 kvc f ->
  is_RInt (fun z => f z * (PI * cos (PI * z)) * (PI * cos (PI * z))) 0 1 V -> d * V = / 2 ->
  exists X, c_time_independent inv13 eig1 (ex_column kvc d) = Ok X /\ (forall lam, In lam (c_eigs X) -> lam <> 0) /\ c_m X = [PI] /\
    c_bet X = [[8 / 7; 2 / 7; 0]; [4 / 7; - (6 / 7); 0]; [1; / 2; -2]].
Proof.
  intros HW Emv Hk HV EdV. set (W := ex_column kvc d) in *. set (co := ex_co kvc f d) in *.
  assert (Em : make_m ex_cbase = Ok [PI]).
  { unfold make_m. cbn [neig ex_cbase seq mapM drn]. rewrite m_from_0. cbn [bind]. do 2 f_equal. cbn. ring. }
  set (m := [PI]) in *.
  assert (S2 : is_RInt (fun z => 1 * sin (PI * z) * sin (PI * z)) 0 1 (/ 2)) by (apply orth_diag; [apply PI_neq0|rewrite sin_PI; ring]).
  assert (U : forall (f g : R -> R) x y, is_RInt f 0 1 x -> is_RInt g 0 1 y -> (forall z, f z = g z) -> x = y).
  { intros f0 g x y Hf Hg E. assert (f0 = g) by (apply FunctionalExtensionality.functional_extensionality; auto). subst g.
    apply (is_RInt_unique (V := R_CompleteNormedModule)) in Hf, Hg. congruence. }
  pose proof (HF W ph co 0 HW) as HR.
  assert (H1 : (1 <= neig ex_cbase)%nat) by (cbn; lia). assert (Hd : dT ex_cbase <> 0) by (cbn; lra).
  destruct (gam_cell (frame ex_cbase) ph 0 m HR Em H1 0 0 ltac:(cbn; lia) ltac:(cbn; lia)) as (g & G1 & G2).
  pose proof (gam_square (frame ex_cbase) m Em H1) as SG. change (make_gam (frame ex_cbase) m) with (make_gam ex_cbase m) in G2, SG.
  destruct (psi_vertical_ok W m Em H1 Hd 0 flat (fun _ => 1) flat_profile) as (SS & HS).
  destruct (psi_vertical_ok W m Em H1 Hd d kvc f Hk) as (SC & HC).
  destruct (psi_sh_ok W ph co 0 m HW Em H1 Hd) as (sh & Es & Ssh & Hsh).
  destruct (psi_ch_ok W ph co 0 m HW Em H1 Hd) as (Sch & Hch).
  destruct (HS 0%nat 0%nat ltac:(cbn; lia) ltac:(cbn; lia)) as (_ & K1). destruct (HC 0%nat 0%nat ltac:(cbn; lia) ltac:(cbn; lia)) as (K2 & K3).
  destruct (Hsh 0%nat 0%nat ltac:(cbn; lia) ltac:(cbn; lia)) as (K4 & K5). destruct (Hch 0%nat 0%nat ltac:(cbn; lia) ltac:(cbn; lia)) as (K6 & K7).
  change (cbase W) with ex_cbase in *. change (neig ex_cbase) with 1%nat in *. change (dT ex_cbase) with 1 in *.
  assert (Eg : g = / 2) by (unfold storage_entry in G1; rewrite Emv in G1; apply (U _ _ _ _ G1 S2); reflexivity).
  rewrite (U _ _ _ _ K2 HV) in K3 by (intros; reflexivity).
  rewrite (U _ _ _ _ K4 S2) in K5 by (intros z; cbn; ring). rewrite (U _ _ _ _ K6 S2) in K7 by (intros z; cbn; ring).
  cbn [s_dh c_dh co ex_co] in K5, K7. unfold co, ex_co in K5, K7. cbn [s_dh c_dh] in K5, K7. rewrite Rmult_1_l in K1, K3, K5, K7. rewrite EdV in K3. rewrite Rmult_1_l in K5, K7. rewrite Rmult_0_l, Ropp_0 in K1.
  assert (One : forall A, square 1 A -> A = [[cell A 0 0]]).
  { intros A (L & H). destruct A as [|r [|? ?]]; cbn in L; try lia. assert (length r = 1%nat) by (apply H; left; auto). destruct r as [|x [|? ?]]; cbn in *; try lia. reflexivity. }
  assert (Cg : cutv g = / 2).
  { unfold cutv. rewrite Eg. destruct (Rltb (Rabs (/ 2)) (/ 100000000)) eqn:E; auto. apply Rltb_true in E. rewrite Rabs_pos_eq in E; lra. }
  rewrite Cg in G2. apply One in SG, SS, SC, Ssh, Sch. rewrite G2 in SG. rewrite K1 in SS. rewrite K3 in SC. rewrite K5 in Ssh. rewrite K7 in Sch. subst sh.
  assert (Ea : alp W = / 4) by (unfold alp; cbn; field).
  assert (EI : inv13 (make_Ibet 1 (/ 4) [[0]] [[/ 2]] [[- / 2]] [[/ 2]]) = Ok [[8 / 7; 2 / 7; 0]; [4 / 7; - (6 / 7); 0]; [1; / 2; -2]]).
  { unfold make_Ibet, bmat3, table, diag, zero_table, table. cbn [Nat.mul Nat.add seq map Nat.div Nat.modulo Nat.divmod fst snd nth cell Nat.sub]. unfold cell. cbn [nth Nat.eqb].
    unfold inv13. cbv zeta. 
    assert (B : Reqb ((1 - / 4) * (- (/ 2 - - / 2) * - / 2 - (/ 2 - / 2) * (/ 4 * - / 2)) - / 4 * ((/ 2 - 0) * - / 2 - (/ 2 - / 2) * (/ 2 - / 4 * 0)) + 0 * ((/ 2 - 0) * (/ 4 * - / 2) - - (/ 2 - - / 2) * (/ 2 - / 4 * 0))) 0 = false) by (apply Reqb_false; intros E; lra).
    rewrite B.
    assert (L3 : forall a b c d e f g h i a' b' c' d' e' f' g' h' i' : R, a = a' -> b = b' -> c = c' -> d = d' -> e = e' -> f = f' -> g = g' -> h = h' -> i = i' ->
      Ok [[a; b; c]; [d; e; f]; [g; h; i]] = Ok [[a'; b'; c']; [d'; e'; f']; [g'; h'; i']]) by (intros; subst; reflexivity).
    apply L3; field. }
  assert (R0 : forall x, x <> 0 -> Reqb x 0 = false) by (intros x Hx; apply Reqb_false; auto).
  assert (I1 : forall x, x <> 0 -> inv13 [[x]] = Ok [[/ x]]) by (intros x Hx; unfold inv13, inv1; rewrite R0; auto).
  assert (D1 : forall x y, dot_mm [[x]] [[y]] = [[x * y]]) by (intros; unfold dot_mm; cbn [map seq length hd nth cell sumn fold_left]; unfold sumn, cell; cbn; do 2 f_equal; ring).
  set (bet := [[8 / 7; 2 / 7; 0]; [4 / 7; - (6 / 7); 0]; [1; / 2; -2]]) in *.
  assert (EP : cut (table 1 1 (fun i j => ((1 - / 4) * cell (dot_mm [[0]] (block 1 bet 0 0)) i j + / 4 * cell (dot_mm [[- / 2]] (block 1 bet 1 0)) i j) * -1)) = [[/ 14]]).
  { assert (B0 : block 1 bet 0 0 = [[8 / 7]]) by reflexivity. assert (B1 : block 1 bet 1 0 = [[4 / 7]]) by reflexivity. rewrite B0, B1, !D1.
    unfold cut, table. cbn [seq map cell nth]. unfold cell. cbn [nth]. destruct (Rltb _ _) eqn:E; [|do 2 f_equal; field]. exfalso. apply Rltb_true in E.
    replace (((1 - / 4) * (0 * (8 / 7)) + / 4 * (- / 2 * (4 / 7))) * -1) with (/ 14) in E by field. rewrite Rabs_pos_eq in E; lra. }
  assert (N2 : / 2 <> 0) by (intros E; lra). assert (N3 : / 2 * 1 <> 0) by (intros E; lra).
  eexists. split; [|split; [|split]].
  - unfold c_time_independent. change (cbase W) with ex_cbase. rewrite Em. cbn [bind]. cbv zeta. rewrite Es. cbn [bind]. rewrite Ea.
    change (cdTv W) with 0. change (ckv W) with flat. change (cdTvc W) with d. change (ckvc W) with kvc. change (neig ex_cbase) with 1%nat. rewrite SS, SC, Sch, EI. cbn [bind].
    rewrite EP, SG. unfold make_eigs_and_v. rewrite (I1 _ N2). cbn [bind]. rewrite D1. unfold eig1. cbn [bind fst snd]. rewrite D1, (I1 _ N3). cbn [bind]. reflexivity.
  - cbn [c_eigs]. intros lam [<-|[]]. intros E. assert (0 < / / 2) by lra. nra.
  - reflexivity.
  - reflexivity.
Qed.
Lemma vleft_flat : vleft flat 1 = 1.
Proof. unfold vleft, flat, at_x. cbn. destruct (Reqb 0 1) eqn:E1; [apply Reqb_true in E1; lra|]. destruct (Reqb 1 1) eqn:E2; [reflexivity|apply Reqb_false in E2; lra]. Qed.
Lemma vleft_ramp : vleft ramp 1 = 1.
Proof. unfold vleft, ramp, at_x. cbn. destruct (Reqb 0 1) eqn:E1; [apply Reqb_true in E1; lra|]. destruct (Reqb 1 1) eqn:E2; [reflexivity|apply Reqb_false in E2; lra]. Qed.
Lemma flat_energy : is_RInt (fun z => 1 * (PI * cos (PI * z)) * (PI * cos (PI * z))) 0 1 (PI * PI / 2).
Proof.
  set (Gf := fun z => PI * PI * z / 2 + PI * sin (2 * PI * z) / 4).
  assert (D : is_RInt (fun z => PI * PI / 2 + PI * PI / 2 * cos (2 * PI * z)) 0 1 (Gf 1 - Gf 0)).
  { apply (is_RInt_derive Gf).
    - intros x _. unfold Gf. auto_derive; auto. field.
    - intros x _. apply (ex_derive_continuous (V := R_NormedModule)). auto_derive. auto. }
  eapply RInt_eq; [exact D| |].
  - intros z. cbv beta. replace (2 * PI * z) with (2 * (PI * z)) by ring. rewrite cos_2a_cos. field.
  - unfold Gf. rewrite !Rmult_1_r, sin_2PI, !Rmult_0_r, sin_0. field.
Qed.
Lemma ramp_energy : is_RInt (fun z => z * (PI * cos (PI * z)) * (PI * cos (PI * z))) 0 1 (PI * PI / 4).
Proof.
  set (Gf := fun z => PI * PI * z * z / 4 + PI * z * sin (2 * PI * z) / 4 + cos (2 * PI * z) / 8).
  assert (D : is_RInt (fun z => z * (PI * PI / 2 + PI * PI / 2 * cos (2 * PI * z))) 0 1 (Gf 1 - Gf 0)).
  { apply (is_RInt_derive Gf).
    - intros x _. unfold Gf. auto_derive; auto. field.
    - intros x _. apply (ex_derive_continuous (V := R_NormedModule)). auto_derive. auto. }
  eapply RInt_eq; [exact D| |].
  - intros z. cbv beta. replace (2 * PI * z) with (2 * (PI * z)) by ring. rewrite cos_2a_cos. field.
  - unfold Gf. rewrite !Rmult_1_r, sin_2PI, cos_2PI, !Rmult_0_r, sin_0, cos_0. field.
Qed.
Lemma ramp_flux c : is_RInt (fun z => z * c * (PI * cos (PI * z))) 0 1 (- (2 * c / PI)).
Proof.
  set (Gf := fun z => c * (z * sin (PI * z) + cos (PI * z) / PI)). pose proof PI_neq0 as Np.
  assert (D : is_RInt (fun z => z * c * (PI * cos (PI * z))) 0 1 (Gf 1 - Gf 0)).
  { apply (is_RInt_derive Gf).
    - intros x _. unfold Gf. auto_derive; auto. field. auto.
    - intros x _. apply (ex_derive_continuous (V := R_NormedModule)). auto_derive. auto. }
  eapply RInt_eq; [exact D|reflexivity|]. unfold Gf. rewrite !Rmult_1_r, sin_PI, cos_PI, !Rmult_0_r, sin_0, cos_0. field. auto.
Qed.
Lemma ex_times kvc d t : t = 2 -> before_ends (load_tables (frame (cbase (ex_column kvc d)))) t /\ no_load_jumps (ex_column kvc d) t.
Proof.
  intros ->. split.
  - intros q Hq. assert (q = ex_load) by (cbn in Hq; intuition). subst. unfold before_end. cbn. lra.
  - intros p Hp. assert (p = ex_load) by (cbn in Hp; intuition). subst. intros k Hk. cbn in Hk. destruct k as [|[|[|[|k]]]]; cbn; try lra; lia.
Qed.
(** The hypotheses of C102_solution hold with a load on top, a column of constant permeability and flow everywhere in it. *)
Example C102_witness : exists ph X, let W := ex_column flat (/ (PI * PI)) in let co := ex_co flat (fun _ => 1) (/ (PI * PI)) in
  inverts inv13 /\ diagonalises eig1 /\ represents_column 0 W ph co /\ (1 <= neig (cbase W))%nat /\ Hh (cbase W) <> 0 /\ dT (cbase W) = 1 /\
  c_time_independent inv13 eig1 W = Ok X /\ (forall lam, In lam (c_eigs X) -> lam <> 0) /\ no_column_drive W co /\ c_dv co <> 0 /\ top_vs_time (cbase W) <> None /\
  before_ends (load_tables (frame (cbase W))) 2 /\ no_load_jumps W 2.
Proof.
  pose proof PI_neq0 as Np.
  destruct (ex_column_represents flat (fun _ => 1) (/ (PI * PI)) flat_profile eq_refl) as (ph & F & HW & Emv & _).
  destruct (ex_column_solved flat (fun _ => 1) (/ (PI * PI)) _ ph HW Emv flat_profile flat_energy ltac:(field; auto)) as (X & EX & Hnz & _).
  exists ph, X. cbv zeta. split; [exact inv13_inverts|]. split; [exact eig1_diagonalises|]. split; [exact HW|]. split; [cbn; lia|]. split; [cbn; lra|]. split; [reflexivity|].
  split; [exact EX|]. split; [exact Hnz|]. split; [right; right; exists 1; split; [exact vleft_flat|reflexivity]|].
  split; [cbn; apply Rinv_neq_0_compat; intros E; apply Rmult_integral in E; tauto|]. split; [discriminate|]. apply ex_times; auto.
Qed.
(** Without the restriction: a column whose permeability increases with depth.  The pressures reported for the soil and the column are
    not the values of any pressures with which soil and column lose the same volume. *)
Theorem C102_column_refuted : exists inv eig W ph co T0 X,
  inverts inv /\ diagonalises eig /\ represents_column T0 W ph co /\ (1 <= neig (cbase W))%nat /\ Hh (cbase W) <> 0 /\ dT (cbase W) = 1 /\
  c_time_independent inv eig W = Ok X /\ (forall lam, In lam (c_eigs X) -> lam <> 0) /\
  before_ends (load_tables (frame (cbase W))) 2 /\ no_load_jumps W 2 /\
  exists S C, c_make_por inv eig W [2] [/ 2] [0%nat] (Some 0%nat) = Ok S /\ c_make_por inv eig W [2] [/ 2] [0%nat] (Some 1%nat) = Ok C /\
    forall us uc ui r, entry S 0 0 = pore (frame (cbase W)) ph (c_m X) us (/ 2) 2 -> entry C 0 0 = pore (frame (cbase W)) ph (c_m X) uc (/ 2) 2 ->
      ~ column_loss (frame (cbase W)) ph co (c_m X) us uc ui 0 2 r.
Proof.
  pose proof PI_neq0 as Np. set (d := 2 / (PI * PI)).
  destruct (ex_column_represents ramp (fun z => z) d ramp_profile eq_refl) as (ph & F & HW & Emv & HF & ETp & EBt).
  destruct (ex_column_solved ramp (fun z => z) d _ ph HW Emv ramp_profile ramp_energy ltac:(unfold d; field; auto)) as (X & EX & Hnz & Em & Eb).
  set (W := ex_column ramp d) in *. set (co := ex_co ramp (fun z => z) d) in *.
  destruct (ex_times ramp d 2 eq_refl) as (O & NJ). fold W in O, NJ.
  assert (H1 : (1 <= neig (cbase W))%nat) by (cbn; lia). assert (H2 : Hh (cbase W) <> 0) by (cbn; lra). assert (H3 : dT (cbase W) <> 0) by (cbn; lra).
  exists inv13, eig1, W, ph, co, 0, X. split; [exact inv13_inverts|]. split; [exact eig1_diagonalises|]. split; [exact HW|]. split; [exact H1|]. split; [exact H2|]. split; [reflexivity|].
  split; [exact EX|]. split; [exact Hnz|]. split; [exact O|]. split; [exact NJ|].
  destruct (c_total inv13 eig1 inv13_inverts eig1_diagonalises W ph co 0 X HW H1 H2 H3 EX Hnz) as (a & Ha). destruct (Ha [2]) as (vE & ES & HE).
  assert (EF : F 2 = 5).
  { destruct HF as (_ & _ & _ & (HF1 & _)). rewrite (HF1 2%nat 2 ltac:(cbn; lia) ltac:(cbn; lra)). cbn. unfold chord, SpecPiecewise.at_. cbn. field. }
  assert (Ept : p_top ph 2 = 5) by (rewrite ETp; unfold total; cbn; rewrite EF; ring).
  assert (FL : are_loads 0 (listed (top_vs_time (cbase W))) (top_omega_phase (cbase W)) [F]) by (split; [reflexivity|constructor; [exact HF|constructor]]).
  assert (FB : are_loads 0 (listed (normalised_bot (cbase W))) (bot_omega_phase (cbase W)) []) by (split; [reflexivity|constructor]).
  assert (C5 : c0T (top_vs_time (cbase W)) (top_omega_phase (cbase W)) 2 = 5).
  { unfold c0T. destruct FL as (_ & FL). rewrite (courses_agree 0 _ _ [F] 2 FL); [unfold total; cbn; rewrite EF; ring| |].
    - exact (top_ok _ 2 O).
    - intros p Hp. apply NJ. apply in_or_app. left. exact Hp. }
  set (q := d * (-2 / PI) * 5).
  assert (K : forall r, exists A, c_make_por inv13 eig1 W [2] [/ 2] [0%nat] (Some r) = Ok A /\
    entry A 0 0 = cell (c_bet X) (r * 1 + 0) 0 * a 0%nat 2 + (cell (c_bet X) (r * 1 + 0) 1 + / 4 * cell (c_bet X) (r * 1 + 0) 2) * q + 5 * / 2).
  { intros r. destruct (report_parts inv13 eig1 inv13_inverts eig1_diagonalises W ph co 0 X HW H1 H2 H3 EX [2] vE a [0%nat] r ES HE ltac:(intros k [<-|[]]; cbn; lia) (fun m tv A => dim1sin_f m [/ 2] tv A))
      as (A1 & A2 & T1 & T2 & Er).
    cbn [map nth] in *.
    destruct (C99_pressure (drn (cbase W)) (c_m X) [2] A1 _ 0 _ _ _ _ [F] [] ltac:(rewrite Em; exact T1) ltac:(rewrite Em; cbn; lia) FL FB [/ 2] ltac:(intros z [<-|[]]; lra)) as (O1 & EO1 & SO1 & HO1).
    destruct (C99_pressure (drn (cbase W)) (c_m X) [2] A2 _ 0 None None None None [] [] ltac:(rewrite Em; exact T2) ltac:(rewrite Em; cbn; lia) ltac:(split; [reflexivity|constructor]) ltac:(split; [reflexivity|constructor]) [/ 2] ltac:(intros z [<-|[]]; lra)) as (O2 & EO2 & SO2 & HO2).
    exists (madd O1 O2). split.
    - unfold c_make_por. rewrite Er. change (top_vs_time (cbase W)) with (Some [ex_load]) at 1. cbv iota. rewrite EO1. cbn [bind]. rewrite EO2. reflexivity.
    - change (entry (madd O1 O2) 0 0) with (PolyLineProofs7.entry (madd O1 O2) 0 0). rewrite (madd_entry _ _ 1 1) by (auto; lia).
      change (PolyLineProofs7.entry O1 0 0) with (entry O1 0 0). change (PolyLineProofs7.entry O2 0 0) with (entry O2 0 0).
      rewrite (HO1 0%nat 0%nat ltac:(cbn; lia) ltac:(cbn; lia)); [|split; [exact (top_ok _ 2 O)|intros p []]].
      rewrite (HO2 0%nat 0%nat ltac:(cbn; lia) ltac:(cbn; lia) ltac:(split; intros ? [])).
      cbn [nth]. unfold pressure, series. rewrite Em. cbn [length seq map fold_right nth]. replace (PI * / 2) with (PI / 2) by field. rewrite sin_PI2.
      unfold total. cbn [map fold_right]. rewrite EF. change (neig (cbase W)) with 1%nat. unfold top_shape. change (drn (cbase W)) with 0%Z. cbn [Z.eqb].
      unfold foft_coef. change (Sg 1) with (fun f : nat -> R => f 0%nat + 0). cbv beta. rewrite C5.
      change (c0B (normalised_bot (cbase W)) (bot_omega_phase (cbase W)) 2) with 0.
      change (cdTv W) with 0. change (cdTvc W) with d. change (ckvc W) with ramp. unfold fT. change (drn (cbase W)) with 0%Z. cbn [Z.eqb]. rewrite vleft_ramp. cbn [nth]. change (c_k co) with (fun z : R => z). cbv beta.
      rewrite (is_unique _ _ _ _ (ramp_flux (-1))). rewrite (Rmult_1_r PI), sin_PI.
      unfold drive_block. rewrite cell_table by lia. rewrite !cell_block by lia. replace (alp W) with (/ 4) by (unfold alp; cbn; field).
      cbn [Nat.mul Nat.add]. unfold q. field. auto. }
  destruct (K 0%nat) as (A & EA & VA). destruct (K 1%nat) as (C & EC & VC). exists A, C. split; [exact EA|]. split; [exact EC|].
  intros us uc ui r Hs Hc (Vs & Es & Vc & Ec & L1 & L2 & L3 & L4 & L5 & L6 & L7).
  rewrite VA in Hs. rewrite VC in Hc. rewrite Eb in Hs, Hc. unfold cell in Hs, Hc. cbn [nth Nat.mul Nat.add] in Hs, Hc.
  assert (U : forall (f g : R -> R) x y, is_RInt f 0 1 x -> is_RInt g 0 1 y -> (forall z, f z = g z) -> x = y).
  { intros f0 g x y Hf Hg E. assert (f0 = g) by (apply FunctionalExtensionality.functional_extensionality; auto). subst g.
    apply (is_RInt_unique (V := R_CompleteNormedModule)) in Hf, Hg. congruence. }
  assert (PE : forall b z, pore (frame (cbase W)) ph (c_m X) b z 2 = b 0%nat 2 * sin (PI * z) + 5 * (1 - z)).
  { intros b z. unfold pore, pressure, series. rewrite Em, Ept, EBt. cbn [length seq map fold_right nth]. unfold top_shape. change (drn (frame (cbase W))) with 0%Z. cbn [Z.eqb]. ring. }
  assert (PZ : forall b z, pore_z (frame (cbase W)) ph (c_m X) b z 2 = b 0%nat 2 * (PI * cos (PI * z)) + 5 * -1).
  { intros b z. unfold pore_z, sum. rewrite Em, Ept, EBt. cbn [length seq map fold_right nth]. change (drn (frame (cbase W))) with 0%Z. cbn [Z.eqb]. ring. }
  rewrite PE in Hs, Hc. rewrite Em in PE, PZ. replace (PI * / 2) with (PI / 2) in Hs, Hc by field. rewrite sin_PI2 in Hs, Hc.
  assert (S2 : is_RInt (fun z => 1 * sin (PI * z) * sin (PI * z)) 0 1 (/ 2)) by (apply orth_diag; [exact Np|rewrite sin_PI; ring]).
  destruct L3 as (Ic & HIc & EVc). rewrite Em in HIc. cbn [nth] in HIc.
  assert (EIc : Ic = uc 0%nat 2 * (PI * PI / 4) + - (2 * (5 * -1) / PI)).
  { eapply U; [exact HIc|exact (RInt_add _ _ _ _ _ _ (RInt_mull _ _ _ (uc 0%nat 2) _ ramp_energy) (ramp_flux (5 * -1)))|].
    intros z. cbv beta. rewrite PZ. change (c_k co z) with z. ring. }
  rewrite EIc, Em in EVc. cbn [nth] in EVc. rewrite (Rmult_1_r PI), sin_PI in EVc.
  unfold radial in L2, L4. rewrite Em in L2, L4. cbn [nth] in L2, L4.
  assert (EEs : Es = (us 0%nat 2 - ui 0%nat 2) * / 2).
  { eapply U; [exact L2|exact (RInt_mull _ _ _ (us 0%nat 2 - ui 0%nat 2) _ S2)|]. intros z. cbv beta. rewrite !PE. change (s_kh co z) with 1. change (s_et co z) with 1. ring. }
  assert (EEc : Ec = (uc 0%nat 2 - ui 0%nat 2) * / 2).
  { eapply U; [exact L4|exact (RInt_mull _ _ _ (uc 0%nat 2 - ui 0%nat 2) _ S2)|]. intros z. cbv beta. rewrite !PE. change (c_kh co z) with 1. ring. }
  change (s_dv co) with 0 in L5. change (s_dh co) with 1 in L5, L7. change (c_dh co) with 1 in L6, L7. change (c_dv co) with d in L6.
  assert (EdV : d * Vc = uc 0%nat 2 * / 2 - q) by (rewrite EVc; unfold d, q, d; field; auto). rewrite EdV in L6.
  assert (Hq : q < 0).
  { unfold q, d. pose proof PI_RGT_0. assert (0 < PI * (PI * PI)) by (apply Rmult_lt_0_compat; [lra|apply Rmult_lt_0_compat; lra]). assert (0 < / (PI * (PI * PI))) by (apply Rinv_0_lt_compat; lra).
    replace (2 / (PI * PI) * (-2 / PI) * 5) with (- (20 * / (PI * (PI * PI)))) by (field; auto). lra. }
  rewrite EEs in L5. rewrite EEc in L6. lra.
Qed.
Print Assumptions C102_column_refuted.

(** * C100: the spectral program solves the consolidation equation *)
From Coq Require Import Reals List Arith ZArith Lia Lra Bool Sorted.
From Coquelicot Require Import Coquelicot.
From Verif Require Import Base PiecewiseModel LayersModel SpecPiecewise SpecPiecewiseApi PolyLineModel SpecPolyLine PolyLineProofs7 SpectralModel SpecSpectral SpectralProofs5
  WrapModel SpecWrap LoadModel LoadTrigModel SpecLoad TimeProofs TimeProofs2 PropsTime SpecSpeccon SpecconModel SpecconProofs SpecconProofs2 SpecconProofs4 PropsSpeccon SpecGalerkin SpecconProofs6 SpecconProofs7 SpecconProofs8 SpecconProofs9 SpecconProofs10.
Import ListNotations.
Open Scope R_scope.
Local Notation entry := SpecSpectral.entry.

Section Statements.
(** Any numpy.linalg.inv and numpy.linalg.eig that do what they promise when they return. *)
Variable inv : list (list R) -> result (list (list R)).
Variable eig : list (list R) -> result (list R * list (list R)).
Hypothesis Hinv : inverts inv.
Hypothesis Heig : diagonalises eig.
(** A problem P with physical meaning ph, whose matrices could be inverted and diagonalised, without zero eigenvalue. *)
Variables (P : problem) (ph : physics) (T0 : R) (m eigs : list R) (v Igamv : list (list R)).
Hypothesis HR : represents T0 P ph.
Hypothesis Hn : (1 <= neig P)%nat.
Hypothesis HH : Hh P <> 0.
Hypothesis Hv : mvref P <> 0.
Hypothesis Hd : dT P <> 0.
Hypothesis HI : time_independent inv eig P = Ok (m, eigs, v, Igamv).
Hypothesis Hnz : forall lam, In lam eigs -> lam <> 0.

(** One pressure field satisfies the equation, and all outputs, for whatever times and depths, are taken from it. *)
Theorem C100_consolidation : exists a,
  galerkin_solution P ph T0 m a (neig P) /\
  (forall z t, is_derive (fun z => pore P ph m a z t) z (pore_z P ph m a z t)) /\
  (forall tvals idx, (forall k, In k idx -> (k < length tvals)%nat) ->
     let times := map (fun k => nth k tvals 0) idx in
     (forall zs, (forall z, In z zs -> 0 <= z <= 1) -> exists A, make_por inv eig P tvals zs idx = Ok A /\ shape A (length zs) (length idx) /\
        forall i j, (i < length zs)%nat -> (j < length idx)%nat -> before_ends (load_tables P) (nth j times 0) ->
          entry A i j = pore P ph m a (nth i zs 0) (nth j times 0)) /\
     (forall zp, (forall q, In q zp -> 0 <= fst q /\ fst q < snd q /\ snd q <= 1) ->
        (exists A, make_avp inv eig P tvals zp idx = Ok A /\ shape A (length zp) (length idx) /\
          forall i j, (i < length zp)%nat -> (j < length idx)%nat -> before_ends (load_tables P) (nth j times 0) ->
            let '(z1, z2) := nth i zp (0, 0) in is_RInt (fun z => pore P ph m a z (nth j times 0)) z1 z2 (entry A i j * (z2 - z1))) /\
        ((surcharge_vs_depth P = None -> surcharge_vs_time P = None) ->
         exists A, make_set inv eig P tvals zp idx = Ok A /\ shape A (length zp) (length idx) /\
          forall i j, (i < length zp)%nat -> (j < length idx)%nat -> before_ends (load_tables P) (nth j times 0) ->
            let '(z1, z2) := nth i zp (0, 0) in exists strain,
              is_RInt (fun z => f_mv ph z * (applied (f_surcharge ph) z (nth j times 0) - pore P ph m a z (nth j times 0))) z1 z2 strain /\
              entry A i j = Hh P * mvref P * strain))).
Proof using Hinv Heig HR Hn HH Hv Hd HI Hnz.
  destruct (solution inv eig Hinv Heig P ph T0 m eigs v Igamv HR Hn HH Hv Hd HI Hnz) as (a & Ha & Hg).
  destruct (pieces inv eig Hinv Heig P ph T0 m eigs v Igamv HR Hn Hd HI) as (_ & _ & _ & Em & _). destruct (m_facts P m Em Hn) as (_ & _ & _ & Hdrn & _).
  exists a. split; [exact Hg|]. split; [intros; apply pore_derive; auto|]. intros tvals idx Hi times.
  destruct (Ha tvals) as (vE & ES & HE). pose proof (pick_tabulates vE (neig P) tvals a idx HE Hi) as HE'.
  assert (Lt : length (pick idx tvals) = length idx) by (unfold pick; apply map_length). change (pick idx tvals) with times in *.
  split; [|intros zp Hz; split].
  - intros zs Hz. destruct (por_ok P ph T0 m times _ a HR Hn HH Em HE' zs Hz) as (A & EA & SA & HA). rewrite Lt in SA, HA.
    exists A. split; [unfold make_por; rewrite ES; exact EA|]. split; [exact SA|exact HA].
  - destruct (avp_ok P ph T0 m times _ a HR Hn HH Em HE' zp Hz) as (A & EA & SA & HA). rewrite Lt in SA, HA.
    exists A. split; [unfold make_avp; rewrite ES; exact EA|]. split; [exact SA|]. intros i j Hi' Hj O. specialize (HA i j Hi' Hj O). destruct (nth i zp (0, 0)) as [z1 z2]. exact HA.
  - intros Hs. destruct (set_ok P ph T0 m times _ a HR Hn HH Em HE' zp Hz Hs) as (A & EA & SA & HA). rewrite Lt in SA, HA.
    exists A. split; [unfold make_set; rewrite ES; exact EA|]. split; [exact SA|]. intros i j Hi' Hj O. specialize (HA i j Hi' Hj O). destruct (nth i zp (0, 0)) as [z1 z2]. exact HA.
Qed.
(** When no exact matrix entry is between 0 and 1e-8 the balance is exact. *)
Theorem C100_exact : forall a, galerkin_solution P ph T0 m a (neig P) ->
  (forall i j x, (i < neig P)%nat -> (j < neig P)%nat -> storage_entry ph m i j x \/ outflow_entry P ph m i j x -> x = 0 \/ / 100000000 <= Rabs x) ->
  forall i t, (i < neig P)%nat -> T0 <= t -> before_ends (load_tables P) t -> balanced P ph T0 m a i t 0.
Proof using.
  clear. intros a (dG & dP & H1 & H2) Hx i t Hi Ht O. destruct (H2 i t Hi Ht O) as (J & _ & M & rate & Q & E1 & E2 & E3 & E4).
  exists M, rate, Q. split; auto. split; auto. split; auto. rewrite E4. unfold sum.
  rewrite (fold_ext _ (fun _ => 0)), (fold_ext (fun j => dP i j * J j) (fun _ => 0)), !fold_zero; [ring| |].
  - intros j Hj. apply in_seq in Hj. destruct (H1 i j Hi ltac:(lia)) as (_ & x & X1 & X2 & X3). rewrite X3; [ring|]. apply (Hx i j x); auto; lia.
  - intros j Hj. apply in_seq in Hj. destruct (H1 i j Hi ltac:(lia)) as ((x & X1 & X2 & X3) & _). rewrite X3; [ring|]. apply (Hx i j x); auto; lia.
Qed.
End Statements.
Print Assumptions C100_consolidation.
Print Assumptions C100_exact.

(** ** A concrete problem that meets the hypotheses *)
Definition inv1 (A : list (list R)) : result (list (list R)) :=
  match A with [[x]] => if Reqb x 0 then Err ValueError else Ok [[/ x]] | _ => Err ValueError end.
Definition eig1 (A : list (list R)) : result (list R * list (list R)) :=
  match A with [[x]] => Ok ([x], [[1]]) | _ => Err ValueError end.
Definition flat : points := [(0, 1); (1, 1)].
Definition ex_problem : problem := mkProblem 1 0 vectorized 1 10 (/ 2) flat (Some flat) (Some 1) None None None
  (Some [flat]) (Some [ex_load]) None None None None (Some [ex_load; ex_load]) (Some [None; Some (2, 1)]) None None
  (Some [(/ 2, 3, Some ex_load)]) None (Some [(/ 4, ex_load)]) None.
Lemma inv1_inverts : inverts inv1.
Proof.
  intros A N H. destruct A as [|[|x [|y r]] [|r' A]]; try discriminate H. cbn in H. destruct (Reqb x 0) eqn:E; [discriminate|]. apply Reqb_false in E. injection H as <-.
  split; [split; [reflexivity|intros row [<-|[]]; reflexivity]|]. intros [|i] [|j] Hi Hj; cbn in Hi, Hj; try lia. unfold sum, coef. cbn. field. auto.
Qed.
Lemma eig1_diagonalises : diagonalises eig1.
Proof.
  intros A w V H. destruct A as [|[|x [|y r]] [|r' A]]; try discriminate H. cbn in H. injection H as <- <-.
  split; [split; [reflexivity|intros row [<-|[]]; reflexivity]|]. split; [reflexivity|]. intros [|i] [|j] Hi Hj; cbn in Hi, Hj; try lia. unfold sum, coef. cbn. ring.
Qed.
Lemma flat_profile : depth_profile 0 1 flat (fun _ => 1).
Proof.
  change flat with (draw (fun _ => 1) [0; 1]). apply (draw_profile (fun _ => 1) 1 0); auto.
  - repeat constructor. lra.
  - intros; ring.
Qed.
Lemma ex_represents : exists ph, represents 0 ex_problem ph /\ f_mv ph = (fun _ => 1) /\ f_kv ph = (fun _ => 1) /\ d_v ph = 1 /\ d_h ph = 0 /\ map (fun f => fst f) (f_fixed ph) = [(/ 2, 3)].
Proof.
  assert (LC : forall om, exists F, is_load 0 ex_load om F).
  { intros om. eexists. split; [apply ex_load_proper|]. split; [cbn; lra|]. split; [left; cbn; lra|apply load_course_exists, ex_load_proper]. }
  destruct (LC None) as (F1 & HF1). destruct (LC (Some (2, 1))) as (F2 & HF2).
  exists (mkPhysics (fun _ => 1) (fun _ => 1) (fun _ => 0) (fun _ => 0) (vleft flat 1) 1 0
    (total [F1; F2]) (total0 [ex_load; ex_load] (Some [None; Some (2, 1)])) (fun t => 1 * total [] t) (1 * total0 [] None)
    [mkDepthLoad F1 (initial ex_load None) (fun _ => 1)] [] [(/ 2, 3, F1)] [(/ 4, F1)]).
  split; [|repeat split; reflexivity]. unfold represents, ex_problem. cbn -[total total0 vleft].
  split.
  { unfold well_separated, profiles. cbn. intros u w Hu Hw. unfold distinct_enough.
    assert (X : forall y, (0 = y \/ 1 = y \/ 0 = y \/ 1 = y \/ 0 = y \/ 1 = y \/ False) -> y = 0 \/ y = 1) by (intros y [<-|[<-|[<-|[<-|[<-|[<-|[]]]]]]]; auto).
    apply X in Hu. apply X in Hw. destruct Hu as [-> | ->], Hw as [-> | ->]; auto; right;
    repeat (rewrite ?Rminus_0_r, ?Rabs_R1, ?Rabs_R0, ?Rminus_0_l, ?Rabs_Ropp); lra. }
  split; [apply flat_profile|]. split; [split; [apply flat_profile|auto]|]. split; [auto|].
  split; [exists [F1; F2]; split; [split; [reflexivity|constructor; [exact HF1|constructor; [exact HF2|constructor]]]|auto]|].
  split; [exists []; split; [split; [reflexivity|constructor]|auto]|].
  split; [split; [reflexivity|split; [reflexivity|constructor; [split; [exact HF1|split; [reflexivity|apply flat_profile]]|constructor]]]|].
  split; [reflexivity|]. split; [reflexivity|]. split; [constructor; [split; [reflexivity|exact HF1]|constructor]|].
  split; [reflexivity|]. constructor; [split; [reflexivity|exact HF1]|constructor].
Qed.
Example C100_witness : exists ph m eigs v Igamv,
  inverts inv1 /\ diagonalises eig1 /\ represents 0 ex_problem ph /\ (1 <= neig ex_problem)%nat /\ Hh ex_problem <> 0 /\ mvref ex_problem <> 0 /\ dT ex_problem <> 0 /\
  time_independent inv1 eig1 ex_problem = Ok (m, eigs, v, Igamv) /\ (forall lam, In lam eigs -> lam <> 0) /\ before_ends (load_tables ex_problem) 1.
Proof.
  destruct ex_represents as (ph & HR & Emv & Ekv & Edv & Edh & Efx).
  assert (Em : make_m ex_problem = Ok [PI * INR 1]) by (unfold make_m; cbn [neig ex_problem seq mapM drn]; rewrite m_from_0; reflexivity).
  rewrite Rmult_1_r in Em. set (m := [PI]) in *. pose proof PI_RGT_0 as HPI. assert (HP1 : 3 < PI) by (pose proof PI2_3_2; lra).
  assert (S2 : is_RInt (fun z => 1 * sin (PI * z) * sin (PI * z)) 0 1 (/ 2)) by (apply orth_diag; [lra|rewrite sin_PI; ring]).
  destruct (gam_cell ex_problem ph 0 m HR Em ltac:(cbn; lia) 0 0 ltac:(cbn; lia) ltac:(cbn; lia)) as (g & G1 & G2).
  pose proof (gam_square ex_problem m Em ltac:(cbn; lia)) as SG.
  destruct (psi_ok ex_problem ph 0 m HR Em ltac:(cbn; lia) ltac:(cbn; lra)) as (psi & Ep & SP & CP). destruct (CP 0%nat 0%nat ltac:(cbn; lia) ltac:(cbn; lia)) as (p & P1 & P2).
  assert (Eg : g = / 2).
  { unfold storage_entry in G1. rewrite Emv in G1. apply (is_RInt_unique (V := R_CompleteNormedModule)) in G1. apply (is_RInt_unique (V := R_CompleteNormedModule)) in S2. rewrite <- G1, <- S2. reflexivity. }
  assert (Hp : 1 <= p).
  { destruct P1 as (V & X & HV & HX & E). rewrite Ekv in HV. rewrite Edv, Edh in E.
    assert (EV : V = PI * PI * / 2).
    { pose proof (RInt_mull _ _ _ (- (PI * PI)) _ S2) as Y. pose proof (is_RInt_const (V := R_NormedModule) 0 1 (PI * PI)) as Z'. unfold scal in Z'; cbn in Z'; unfold Hierarchy.mult in Z'; cbn in Z'.
      pose proof (RInt_add _ _ _ _ _ _ Z' Y) as U.
      assert (HV' : is_RInt (fun z => 1 * (nth 0 m 0 * cos (nth 0 m 0 * z)) * (nth 0 m 0 * cos (nth 0 m 0 * z))) 0 1 ((1 - 0) * (PI * PI) + - (PI * PI) * / 2)).
      { eapply RInt_eq; [exact U| |reflexivity]. intros s. cbv beta. cbn [nth m]. replace (1 * (PI * cos (PI * s)) * (PI * cos (PI * s))) with (PI * PI * (cos (PI * s))²) by (unfold Rsqr; ring).
        rewrite cos2. unfold Rsqr. ring. }
      apply (is_RInt_unique (V := R_CompleteNormedModule)) in HV. apply (is_RInt_unique (V := R_CompleteNormedModule)) in HV'. rewrite <- HV. rewrite HV'. match goal with |- ?p = ?q => change (@eq R p q) end. field. }
    assert (EF : 0 <= fold_right Rplus 0 (map (fun f => snd (fst f) * sin (nth 0 m 0 * fst (fst f)) * sin (nth 0 m 0 * fst (fst f))) (f_fixed ph))).
    { destruct (f_fixed ph) as [|[[z k] F] [|? ?]]; cbn in Efx; try discriminate. injection Efx as -> ->. cbn. nra. }
    cbn [dT ex_problem] in E. rewrite Rmult_1_l in E. rewrite E, EV. nra. }
  assert (Cg : cutv g = / 2).
  { unfold cutv. rewrite Eg. destruct (Rltb (Rabs (/ 2)) (/ 100000000)) eqn:E; auto. apply Rltb_true in E. rewrite Rabs_pos_eq in E; lra. }
  assert (Cp : cutv p = p).
  { unfold cutv. destruct (Rltb (Rabs p) (/ 100000000)) eqn:E; auto. apply Rltb_true in E. rewrite Rabs_pos_eq in E; lra. }
  rewrite Cg in G2. rewrite Cp in P2.
  assert (One : forall A, square 1 A -> A = [[cell A 0 0]]).
  { intros A (L & H). destruct A as [|r [|? ?]]; cbn in L; try lia. assert (length r = 1%nat) by (apply H; left; auto). destruct r as [|x [|? ?]]; cbn in *; try lia. reflexivity. }
  apply One in SG, SP. rewrite G2 in SG. rewrite P2 in SP.
  exists ph, m. do 3 eexists. split; [apply inv1_inverts|]. split; [apply eig1_diagonalises|]. split; [exact HR|]. split; [cbn; lia|]. split; [cbn; lra|]. split; [cbn; lra|]. split; [cbn; lra|].
  assert (R0 : forall x, x <> 0 -> Reqb x 0 = false) by (intros x Hx; apply Reqb_false; auto).
  split; [|split].
  - unfold time_independent. rewrite Em. cbn [bind]. rewrite Ep. cbn [bind]. rewrite SG, SP. unfold make_eigs_and_v, inv1 at 1. rewrite R0 by lra. cbn [bind].
    unfold dot_mm at 1. cbn [map seq length hd nth cell sumn fold_left]. unfold eig1. cbn [bind fst snd].
    unfold dot_mm. cbn [map seq length hd nth cell]. unfold inv1. rewrite R0; [reflexivity|]. unfold sumn, cell. cbn. lra.
  - intros lam [<-|[]]. unfold sumn, cell. cbn. nra.
  - intros q Hq. assert (q = ex_load) by (cbn in Hq; intuition). subst. unfold before_end. cbn. lra.
Qed.

(** * C108: the unsaturated program conserves water and air *)
From Coq Require Import Reals List Arith ZArith Lia Lra Bool Sorted.
From Coquelicot Require Import Coquelicot.
From Verif Require Import Base PiecewiseModel LayersModel SpecPiecewise SpecPiecewiseApi PolyLineModel SpecPolyLine PolyLineProofs7 SpectralModel SpecSpectral SpectralProofs5
  WrapModel SpecWrap PropsWrap LoadModel LoadTrigModel SpecLoad TimeProofs TimeProofs2 PropsTime SpecSpeccon SpecconModel SpecconProofs SpecconProofs2 SpecconProofs4 PropsSpeccon SpecGalerkin SpecconProofs6 SpecconProofs7 SpecconProofs8 SpecconProofs9 SpecconProofs10 PropsGalerkin
  UnsatModel SpecUnsat UnsatProofs UnsatProofs2 UnsatProofs3 UnsatProofs4.
Import ListNotations.
Open Scope R_scope.
Local Notation entry := SpecSpectral.entry.

Section Statements.
(** Any numpy.linalg.inv and numpy.linalg.eig that do what they promise when they return. *)
Variable inv : list (list R) -> result (list (list R)).
Variable eig : list (list R) -> result (list R * list (list R)).
Hypothesis Hinv : inverts inv.
Hypothesis Heig : diagonalises eig.
(** A problem U with physical meaning w (water), a (air), sk (soil), whose boundary loads the program takes into account,
    whose matrices could be inverted and diagonalised, without zero eigenvalue. *)
Variables (U : uproblem) (w a : physics) (sk : skeleton) (T0 : R) (m eigs : list R) (v Igamv : list (list R)).
Hypothesis HR : represents_unsat T0 U w a sk.
Hypothesis Hn : (1 <= u_neig U)%nat.
Hypothesis HH : u_H U <> 0.
Hypothesis Hv : u_mvref U <> 0.
Hypothesis Hua : u_ua U <> 0.
Hypothesis Hd : u_dT U <> 0.
Hypothesis HL : loads_seen U.
Hypothesis HI : u_time_independent inv eig U = Ok (m, eigs, v, Igamv).
Hypothesis Hnz : forall lam, In lam eigs -> lam <> 0.

(** One field of water pressure and one of air pressure satisfy the two equations, and all outputs are taken from them. *)
Theorem C108_unsaturated : exists cw ca,
  let uw := water_pressure U w m cw in let ua := air_pressure U a m ca in
  unsat_solution U w a sk T0 m cw ca (u_neig U) /\
  (forall z t, is_derive (fun z => uw z t) z (pore_z (water U) w m cw z t) /\ is_derive (fun z => ua z t) z (pore_z (air U) a m ca z t)) /\
  (forall tvals idx, (forall k, In k idx -> (k < length tvals)%nat) ->
     let times := map (fun k => nth k tvals 0) idx in
     (forall zs, (forall z, In z zs -> 0 <= z <= 1) -> exists A B, u_make_por inv eig U tvals zs idx = Ok (A, B) /\
        shape A (length zs) (length idx) /\ shape B (length zs) (length idx) /\
        forall i j, (i < length zs)%nat -> (j < length idx)%nat -> u_before U (nth j times 0) ->
          entry A i j = uw (nth i zs 0) (nth j times 0) /\ entry B i j = ua (nth i zs 0) (nth j times 0)) /\
     (forall zp, (forall q, In q zp -> 0 <= fst q /\ fst q < snd q /\ snd q <= 1) ->
        (exists A B, u_make_avp inv eig U tvals zp idx = Ok (A, B) /\ shape A (length zp) (length idx) /\ shape B (length zp) (length idx) /\
          forall i j, (i < length zp)%nat -> (j < length idx)%nat -> u_before U (nth j times 0) ->
            let '(z1, z2) := nth i zp (0, 0) in
            is_RInt (fun z => uw z (nth j times 0)) z1 z2 (entry A i j * (z2 - z1)) /\
            is_RInt (fun z => ua z (nth j times 0)) z1 z2 (entry B i j * (z2 - z1))) /\
        ((u_surcharge_vs_depth U = None -> u_surcharge_vs_time U = None) -> subtractable U ->
         exists S Sw Sa, u_make_set inv eig U tvals zp idx = Ok (S, Sw, Sa) /\
          shape S (length zp) (length idx) /\ shape Sw (length zp) (length idx) /\ shape Sa (length zp) (length idx) /\
          forall i j, (i < length zp)%nat -> (j < length idx)%nat -> u_before U (nth j times 0) ->
            let '(z1, z2) := nth i zp (0, 0) in let t := nth j times 0 in let sig := applied (f_surcharge w) in
            exists x y q,
              is_RInt (fun z => f_1kw sk z * (sig z t - ua z t) + f_mv w z * (ua z t - uw z t)) z1 z2 x /\
              is_RInt (fun z => f_1ka sk z * (sig z t - ua z t) + f_mv a z * (ua z t - uw z t)) z1 z2 y /\
              is_RInt (fun z => f_mv a z * uw z t) z1 z2 q /\
              entry S i j = u_H U * u_mvref U * (x + y) /\
              entry Sw i j = u_H U * u_mvref U * (x - q) /\ entry Sa i j = u_H U * u_mvref U * (y + q)))).
Proof using Hinv Heig HR Hn HH Hv Hua Hd HL HI Hnz.
  destruct (u_solution inv eig Hinv Heig U w a sk T0 m eigs v Igamv HR Hn HH Hv Hua Hd HL HI Hnz) as (cw & ca & Hs & Hg).
  exists cw, ca. cbv zeta. split; [exact Hg|].
  assert (Em : u_make_m U = Ok m) by (destruct (u_make_m U) as [m'|] eqn:E; unfold u_time_independent in HI; rewrite E in HI; cbn [bind] in HI; [|discriminate];
    destruct (u_make_gam U m') as [g|]; cbn [bind] in HI; [|discriminate]; destruct (make_eigs_and_v inv eig g (u_make_psi U m')) as [[[? ?] ?]|]; cbn [bind] in HI; [|discriminate]; congruence).
  pose proof HR as (RW & RA & _).
  assert (Emw : make_m (water U) = Ok m) by exact Em. assert (Ema : make_m (air U) = Ok m) by exact Em.
  destruct (m_facts (water U) m Emw Hn) as (_ & _ & _ & Hdrn & _). destruct (m_facts (air U) m Ema Hn) as (_ & _ & _ & Hdrna & _).
  split; [intros z t; split; unfold water_pressure, air_pressure; apply pore_derive; auto|]. intros tvals idx Hi. set (times := map (fun k => nth k tvals 0) idx).
  destruct (Hs tvals) as (vE & ES & HW & HA).
  pose proof (pick_tabulates _ _ tvals cw idx HW Hi) as HW'. pose proof (pick_tabulates _ _ tvals ca idx HA Hi) as HA'.
  assert (Lt : length (pick idx tvals) = length idx) by (unfold pick; apply map_length). change (pick idx tvals) with times in *.
  split; [|intros zp Hz; split].
  - intros zs Hz. destruct (por_ok (water U) w T0 m times _ cw RW Hn HH Em HW' zs Hz) as (A & EA & SA & HA1).
    destruct (por_ok (air U) a T0 m times _ ca RA Hn HH Em HA' zs Hz) as (B & EB & SB & HB1). rewrite Lt in *.
    exists A, B. split.
    { unfold u_make_por. rewrite ES. cbn [bind].
      match goal with |- bind ?u _ = _ => change u with (dim1sin_f m zs times (pick_columns idx (water_part U vE)) (drn (water U)) (top_vs_time (water U)) (normalised_bot (water U)) (top_omega_phase (water U)) (bot_omega_phase (water U))) end.
      rewrite EA. cbn [bind].
      match goal with |- bind ?u _ = _ => change u with (dim1sin_f m zs times (pick_columns idx (air_part U vE)) (drn (air U)) (top_vs_time (air U)) (normalised_bot (air U)) (top_omega_phase (air U)) (bot_omega_phase (air U))) end.
      rewrite EB. reflexivity. }
    split; [exact SA|]. split; [exact SB|]. intros i j Hi' Hj (O1 & O2). split; [apply HA1|apply HB1]; auto.
  - destruct (avp_ok (water U) w T0 m times _ cw RW Hn HH Em HW' zp Hz) as (A & EA & SA & HA1).
    destruct (avp_ok (air U) a T0 m times _ ca RA Hn HH Em HA' zp Hz) as (B & EB & SB & HB1). rewrite Lt in *.
    exists A, B. split.
    { unfold u_make_avp. rewrite ES. cbn [bind].
      match goal with |- bind ?u _ = _ => change u with (dim1sin_avgf m zp times (pick_columns idx (water_part U vE)) (drn (water U)) (top_vs_time (water U)) (normalised_bot (water U)) (top_omega_phase (water U)) (bot_omega_phase (water U))) end.
      rewrite EA. cbn [bind].
      match goal with |- bind ?u _ = _ => change u with (dim1sin_avgf m zp times (pick_columns idx (air_part U vE)) (drn (air U)) (top_vs_time (air U)) (normalised_bot (air U)) (top_omega_phase (air U)) (bot_omega_phase (air U))) end.
      rewrite EB. reflexivity. }
    split; [exact SA|]. split; [exact SB|]. intros i j Hi' Hj (O1 & O2). specialize (HA1 i j Hi' Hj O1). specialize (HB1 i j Hi' Hj O2).
    destruct (nth i zp (0, 0)) as [z1 z2]. split; [exact HA1|exact HB1].
  - intros Hsv Hsub. destruct (u_set_ok U w a sk T0 m times _ _ cw ca HR Hn HH Em HW' HA' zp Hz Hsv Hsub) as (S0 & Sw & Sa & EE & SS & SSw & SSa & HH').
    rewrite Lt in *. exists S0, Sw, Sa. split; [unfold u_make_set; rewrite ES; exact EE|]. split; [exact SS|]. split; [exact SSw|]. split; [exact SSa|].
    intros i j Hi' Hj O. specialize (HH' i j Hi' Hj O). destruct (nth i zp (0, 0)) as [z1 z2]. exact HH'.
Qed.
(** When no exact entry of the storage matrix is between 0 and 1e-8 the balances are exact. *)
Theorem C108_exact : forall cw ca, unsat_solution U w a sk T0 m cw ca (u_neig U) ->
  (forall i j x, (i < u_neig U)%nat -> (j < u_neig U)%nat ->
     stored_by m (f_mv w) i j x \/ stored_by m (fun z => f_1kw sk z - f_mv w z) i j x \/ stored_by m (f_mv a) i j x \/
     stored_by m (fun z => f_1ka sk z - f_mv a z - f_n sk z * (1 - f_S sk z) / (u_ua U * u_mvref U)) i j x -> x = 0 \/ / 100000000 <= Rabs x) ->
  forall i t, (i < u_neig U)%nat -> T0 <= t -> u_before U t ->
    water_balanced U w a sk T0 m cw ca i t 0 /\ air_balanced U w a sk T0 m cw ca i t 0.
Proof using.
  clear. intros cw ca (ww & wa & aw & aa & H1 & H2) Hx i t Hi Ht O. destruct (H2 i t Hi Ht O) as (W & A).
  assert (Z0 : forall (d : nat -> nat -> R) c, (forall j, (j < u_neig U)%nat -> d i j = 0) -> sum (u_neig U) (fun j => d i j * c j t) = 0).
  { intros d c Hd. unfold sum. rewrite (fold_ext _ (fun _ => 0)), fold_zero; [reflexivity|]. intros j Hj. apply in_seq in Hj. rewrite Hd by lia. ring. }
  rewrite !Z0, Rplus_0_r in W; [rewrite !Z0, Rplus_0_r in A; [split; [exact W|exact A]| |]| |];
  intros j Hj; destruct (H1 i j Hi Hj) as ((x1 & A1 & _ & B1) & (x2 & A2 & _ & B2) & (x3 & A3 & _ & B3) & (x4 & A4 & _ & B4));
  [apply B4, (Hx i j)|apply B3, (Hx i j)|apply B2, (Hx i j)|apply B1, (Hx i j)]; auto.
Qed.
End Statements.
Print Assumptions C108_unsaturated.
Print Assumptions C108_exact.

(** ** Concrete problems: uniform soil, one mode *)
Definition inv2 (A : list (list R)) : result (list (list R)) :=
  match A with
  | [[p; q]; [r; s]] => let D := p * s - q * r in if Reqb D 0 then Err ValueError else Ok [[s / D; - q / D]; [- r / D; p / D]]
  | _ => Err ValueError
  end.
Definition eig2 (A : list (list R)) : result (list R * list (list R)) :=
  match A with
  | [[p; z]; [q; r]] => if Reqb z 0 then if Reqb p r then Err ValueError else Ok ([p; r], [[1; 0]; [q / (p - r); 1]]) else Err ValueError
  | _ => Err ValueError
  end.
Lemma inv2_inverts : inverts inv2.
Proof.
  intros A N H. destruct A as [|[|p [|q [|? ?]]] [|[|r [|s [|? ?]]] [|? ?]]]; try discriminate H. cbn -[Reqb] in H. destruct (Reqb (p * s - q * r) 0) eqn:E; [discriminate|]. apply Reqb_false in E. injection H as <-.
  split; [split; [reflexivity|intros row [<-|[<-|[]]]; reflexivity]|]. intros [|[|i]] [|[|j]] Hi Hj; cbn in Hi, Hj; try lia; unfold sum, coef; cbn; field; auto.
Qed.
Lemma eig2_diagonalises : diagonalises eig2.
Proof.
  intros A w V H. destruct A as [|[|p [|z [|? ?]]] [|[|q [|r [|? ?]]] [|? ?]]]; try discriminate H. cbn -[Reqb] in H.
  destruct (Reqb z 0) eqn:Ez; [|discriminate]. destruct (Reqb p r) eqn:E; [discriminate|]. apply Reqb_false in E. apply Reqb_true in Ez. subst z. injection H as <- <-.
  split; [split; [reflexivity|intros row [<-|[<-|[]]]; reflexivity]|]. split; [reflexivity|].
  intros [|[|i]] [|[|j]] Hi Hj; cbn in Hi, Hj; try lia; unfold sum, coef; cbn; field; intros X; apply E; lra.
Qed.
Definition uniform (c : R) : points := [(0, c); (1, c)].
Lemma uniform_profile c : depth_profile 0 1 (uniform c) (fun _ => c).
Proof.
  change (uniform c) with (draw (fun _ => c) [0; 1]). apply (draw_profile (fun _ => c) c 0); auto.
  - repeat constructor. lra.
  - intros; ring.
Qed.
(** The compressibilities are negative, as in the literature. *)
Definition ex_unsat (sz st wt wb at_ ab : option (list points)) : uproblem :=
  mkUproblem 1 0 vectorized 1 10 (/ 2) 4 (uniform (-1)) (uniform (-1)) (uniform (-1)) (uniform (-1)) (uniform (/ 2)) (uniform (/ 2))
    (uniform 1) (uniform 1) 1 2 sz st None wt None wb None at_ None ab None.
Lemma PI_mode : eigenvalues [PI].
Proof.
  assert (Em : mapM (fun k => m_from_sin_mx k 0) (seq 0 1) = Ok [PI]) by (cbn [seq mapM]; rewrite m_from_0; cbn; f_equal; f_equal; ring).
  pose proof (m_facts ex_problem [PI] Em ltac:(cbn; lia)) as (_ & _ & E & _). exact E.
Qed.
Lemma m22 (a b c d a' b' c' d' : R) : a = a' -> b = b' -> c = c' -> d = d' -> [[a; b]; [c; d]] = [[a'; b']; [c'; d']].
Proof. intros -> -> -> ->. reflexivity. Qed.
Lemma ex_solved sz st wt wb at_ ab : exists eigs v Ig, u_time_independent inv2 eig2 (ex_unsat sz st wt wb at_ ab) = Ok ([PI], eigs, v, Ig) /\
  (forall lam, In lam eigs -> lam <> 0) /\ square 2 v /\ length eigs = 2%nat.
Proof.
  pose proof PI_RGT_0 as HPI. assert (HP1 : 3 < PI) by (pose proof PI2_3_2; lra).
  assert (S2 : is_RInt (fun z => 1 * sin (PI * z) * sin (PI * z)) 0 1 (/ 2)) by (apply orth_diag; [lra|rewrite sin_PI; ring]).
  assert (G : forall c, cell (pdim1sin_af_linear vectorized [PI] (uniform c)) 0 0 = c / 2).
  { intros c. pose proof (C97_af vectorized [PI] 0 1 _ _ 0 0 (uniform_profile c) PI_mode ltac:(cbn; lia) ltac:(cbn; lia)) as X.
    assert (Y : is_RInt (fun z => c * sin (nth 0 [PI] 0 * z) * sin (nth 0 [PI] 0 * z)) 0 1 (c / 2)).
    { eapply RInt_eq; [exact (RInt_mull _ _ _ c _ S2)|intros s; cbn; ring|unfold Rdiv; ring]. }
    apply (is_RInt_unique (V := R_CompleteNormedModule)) in X. apply (is_RInt_unique (V := R_CompleteNormedModule)) in Y. cbv beta in X. change (entry (pdim1sin_af_linear vectorized [PI] (uniform c)) 0 0) with (cell (pdim1sin_af_linear vectorized [PI] (uniform c)) 0 0) in X. rewrite <- X. exact Y. }
  assert (D : cell (pdim1sin_D_aDf_linear vectorized [PI] (uniform 1)) 0 0 = - (PI * PI / 2)).
  { pose proof (C97_D_aDf vectorized [PI] 0 1 _ _ 0 0 (uniform_profile 1) PI_mode ltac:(cbn; lia) ltac:(cbn; lia)) as X.
    pose proof (RInt_mull _ _ _ (PI * PI) _ S2) as Y. pose proof (is_RInt_const (V := R_NormedModule) 0 1 (- (PI * PI))) as Z'. unfold scal in Z'; cbn in Z'; unfold Hierarchy.mult in Z'; cbn in Z'.
    pose proof (RInt_add _ _ _ _ _ _ Z' Y) as V.
    assert (HV : is_RInt (fun z => - (1 * (nth 0 [PI] 0 * cos (nth 0 [PI] 0 * z)) * (nth 0 [PI] 0 * cos (nth 0 [PI] 0 * z)))) 0 1 (- (PI * PI / 2))).
    { eapply RInt_eq; [exact V| |field]. intros s. cbv beta. cbn [nth]. replace (1 * (PI * cos (PI * s)) * (PI * cos (PI * s))) with (PI * PI * (cos (PI * s))²) by (unfold Rsqr; ring).
      rewrite cos2. unfold Rsqr. ring. }
    apply (is_RInt_unique (V := R_CompleteNormedModule)) in X. apply (is_RInt_unique (V := R_CompleteNormedModule)) in HV. rewrite <- HV. symmetry. exact X. }
  destruct (C97_abf vectorized [PI] 0 1 _ _ _ _ (uniform_profile (/ 2)) (uniform_profile (/ 2))) as (sn & Esn & Hsn); [|exact PI_mode|].
  { unfold well_separated. cbn. intros u w Hu Hw. unfold distinct_enough.
    assert (X : forall y, (0 = y \/ 1 = y \/ 0 = y \/ 1 = y \/ False) -> y = 0 \/ y = 1) by (intros y [<-|[<-|[<-|[<-|[]]]]]; auto).
    apply X in Hu. apply X in Hw. destruct Hu as [-> | ->], Hw as [-> | ->]; auto; right;
    repeat (rewrite ?Rminus_0_r, ?Rabs_R1, ?Rabs_R0, ?Rminus_0_l, ?Rabs_Ropp); lra. }
  assert (SN : cell sn 0 0 = / 8).
  { specialize (Hsn 0%nat 0%nat ltac:(cbn; lia) ltac:(cbn; lia)).
    assert (Y : is_RInt (fun z => / 2 * / 2 * sin (nth 0 [PI] 0 * z) * sin (nth 0 [PI] 0 * z)) 0 1 (/ 8)).
    { eapply RInt_eq; [exact (RInt_mull _ _ _ (/ 4) _ S2)|intros s; cbn [nth]; field|field]. }
    apply (is_RInt_unique (V := R_CompleteNormedModule)) in Hsn. apply (is_RInt_unique (V := R_CompleteNormedModule)) in Y. change (entry sn 0 0) with (cell sn 0 0) in Hsn. rewrite <- Hsn. exact Y. }
  assert (Em : u_make_m (ex_unsat sz st wt wb at_ ab) = Ok [PI]) by (unfold u_make_m; cbn [u_neig ex_unsat seq mapM u_drn]; rewrite m_from_0; cbn; f_equal; f_equal; ring).
  assert (C0 : forall x y, x = y -> y = 0 -> (if Rltb (Rabs x) (/ 100000000) then 0 else x) = 0).
  { intros x y -> ->. destruct (Rltb _ _); auto. }
  assert (C1 : forall x y, x = y -> y <= - / 16 -> (if Rltb (Rabs x) (/ 100000000) then 0 else x) = y).
  { intros x y -> Hy. destruct (Rltb (Rabs y) (/ 100000000)) eqn:E; auto. apply Rltb_true in E. rewrite Rabs_left in E; lra. }
  assert (EG : u_make_gam (ex_unsat sz st wt wb at_ ab) [PI] = Ok [[- (1) / 2; 0]; [- (1) / 2; - / 16]]).
  { unfold u_make_gam. cbn [u_im u_n u_S m1kw m1ka m2w m2a u_ua u_mvref u_neig ex_unsat]. rewrite Esn. cbn [bind]. f_equal.
    unfold cut, blocks2, table. cbn [map seq Nat.mul Nat.add Nat.ltb Nat.leb Nat.sub]. rewrite !G, SN.
    apply m22.
    - apply C1; lra.
    - apply (C0 _ 0); auto. field.
    - apply C1; lra.
    - apply C1; [field|lra]. }
  assert (EP : u_make_psi (ex_unsat sz st wt wb at_ ab) [PI] = [[- (PI * PI / 2); 0]; [0; - (PI * PI)]]).
  { unfold u_make_psi. cbn [u_im u_kw u_Da dTw dTa u_dT u_neig ex_unsat].
    unfold blocks2, table. cbn [map seq Nat.mul Nat.add Nat.ltb Nat.leb Nat.sub]. rewrite !D. apply m22; field. }
  assert (R0 : forall x, x <> 0 -> Reqb x 0 = false) by (intros x Hx; apply Reqb_false; auto).
  assert (I1 : inv2 [[- (1) / 2; 0]; [- (1) / 2; - / 16]] = Ok [[-2; 0]; [16; -16]]).
  { unfold inv2. rewrite R0 by (intros X; lra). f_equal. apply m22; field. }
  assert (M1 : dot_mm [[-2; 0]; [16; -16]] [[- (PI * PI / 2); 0]; [0; - (PI * PI)]] = [[PI * PI; 0]; [- (8 * (PI * PI)); 16 * (PI * PI)]]).
  { unfold dot_mm, cell. cbn. unfold sumn. cbn. apply m22; field. }
  do 3 eexists. split.
  { unfold u_time_independent. rewrite Em. cbn [bind]. rewrite EG. cbn [bind]. rewrite EP. unfold make_eigs_and_v. rewrite I1. cbn [bind]. rewrite M1.
    unfold eig2. rewrite (proj2 (Reqb_true 0 0) eq_refl). rewrite (proj2 (Reqb_false (PI * PI) (16 * (PI * PI)))) by (intros X; nra). cbn [bind fst snd].
    unfold dot_mm, cell. cbn [map seq length hd nth]. unfold sumn. cbn [fold_left]. unfold inv2. cbv zeta. rewrite R0; [cbn [bind]; reflexivity|]. intros X. remember (- (8 * (PI * PI)) / (PI * PI - 16 * (PI * PI))) as kk. clear - X. cbn in X. match type of X with ?u = 0 => replace u with (/ 32) in X by field end. lra. }
  split; [|split; [split; [reflexivity|intros row [<-|[<-|[]]]; reflexivity]|reflexivity]]. intros lam [<-|[<-|[]]]; intros X; nra.
Qed.
Lemma load_exists om : exists F, is_load 0 ex_load om F.
Proof. eexists. split; [apply ex_load_proper|]. split; [cbn; lra|]. split; [left; cbn; lra|apply load_course_exists, ex_load_proper]. Qed.
Definition soil_parts (f : R -> R) (dv : R) (tp bt : R -> R) (tp0 bt0 : R) (L : list depth_load) : physics :=
  mkPhysics f (fun _ => 1) (fun _ => 0) (fun _ => 0) (vleft (uniform 1) 1) dv 0 tp tp0 bt bt0 L [] [] [].
Definition courses (o : option (list points)) (Fs : list (R -> R)) : Prop := are_loads 0 (listed o) None Fs.
Lemma ex_represents_unsat sz st wt wb at_ ab Tw Bw Ta Ba L :
  courses wt Tw -> courses wb Bw -> courses at_ Ta -> courses ab Ba ->
  are_depth_loads 0 sz st None L -> (forall p, In p (listed sz) -> exists c, p = uniform c) ->
  represents_unsat 0 (ex_unsat sz st wt wb at_ ab)
    (soil_parts (fun _ => -1) 1 (total Tw) (fun t => 1 * total Bw t) (total0 (listed wt) None) (1 * total0 (listed wb) None) L)
    (soil_parts (fun _ => -1) 2 (total Ta) (fun t => 1 * total Ba t) (total0 (listed at_) None) (1 * total0 (listed ab) None) L)
    (mkSkeleton (fun _ => -1) (fun _ => -1) (fun _ => / 2) (fun _ => / 2)).
Proof.
  intros H1 H2 H3 H4 HL Hsz.
  assert (W : forall l, (forall p, In p l -> exists c, p = uniform c) -> well_separated l).
  { intros l Hl u w Hu Hw. unfold distinct_enough.
    assert (X : forall y, In y (concat (map px l)) -> y = 0 \/ y = 1).
    { intros y Hy. apply in_concat in Hy. destruct Hy as (q & Hq & Hy). apply in_map_iff in Hq. destruct Hq as (p & <- & Hp). destruct (Hl p Hp) as (c & ->). cbn in Hy. destruct Hy as [<-|[<-|[]]]; auto. }
    apply X in Hu. apply X in Hw. destruct Hu as [-> | ->], Hw as [-> | ->]; auto; right;
    repeat (rewrite ?Rminus_0_r, ?Rabs_R1, ?Rabs_R0, ?Rminus_0_l, ?Rabs_Ropp); lra. }
  assert (RP : forall c d mvp top bot Ts Bs, courses top Ts -> courses bot Bs -> 
    represents 0 (mkProblem 1 0 vectorized 1 10 (/ 2) (uniform mvp) (Some (uniform c)) (Some d) None None None sz st None None None None top None bot None None None None None)
     (mkPhysics (fun _ => mvp) (fun _ => c) (fun _ => 0) (fun _ => 0) (vleft (uniform c) 1) d 0 (total Ts) (total0 (listed top) None) (fun t => 1 * total Bs t) (1 * total0 (listed bot) None) L [] [] [])).
  { intros c d mvp top bot Ts Bs C1 C2. unfold represents. cbn -[total total0 vleft uniform are_depth_loads well_separated profiles].
    split; [apply W; unfold profiles; cbn -[uniform]; intros p [<-|[<-|Hp]]; [eexists; reflexivity|eexists; reflexivity|rewrite app_nil_r in Hp; auto]|].
    split; [apply uniform_profile|]. split; [split; [apply uniform_profile|auto]|]. split; [auto|].
    split; [exists Ts; split; [exact C1|auto]|]. split; [exists Bs; split; [exact C2|auto]|]. split; [exact HL|].
    split; [reflexivity|]. split; [reflexivity|]. split; [constructor|]. split; [reflexivity|constructor]. }
  unfold represents_unsat. split; [apply (RP 1 1 (-1)); auto|]. split; [apply (RP 1 2 (-1)); auto|]. split; [reflexivity|].
  split; [apply W; cbn -[uniform]; intros p [<-|[<-|[<-|[<-|[<-|[<-|Hp]]]]]]; auto; eexists; reflexivity|].
  repeat split; apply uniform_profile.
Qed.
Lemma one_course F : is_load 0 ex_load None F -> courses (Some [ex_load]) [F].
Proof. intros H. split; [reflexivity|]. constructor; [exact H|constructor]. Qed.
Lemma no_course : courses None [].
Proof. split; [reflexivity|constructor]. Qed.
Definition ex_U : uproblem := ex_unsat (Some [uniform 1]) (Some [ex_load]) (Some [ex_load]) None (Some [ex_load; ex_load]) None.
Lemma ex_U_subtractable : subtractable ex_U.
Proof.
  repeat split; try reflexivity; intros x; left; cbn [m2w m1kw m2a m1ka ex_U ex_unsat]; ring.
Qed.
Lemma ex_U_meets : exists w a sk eigs v Ig, represents_unsat 0 ex_U w a sk /\
  u_time_independent inv2 eig2 ex_U = Ok ([PI], eigs, v, Ig) /\ (forall lam, In lam eigs -> lam <> 0) /\
  f_mv a = (fun _ => -1) /\ is_load 0 ex_load None (p_top w) /\ (forall t, p_bot w t = 0).
Proof.
  destruct (load_exists None) as (F & HF). destruct (ex_solved (Some [uniform 1]) (Some [ex_load]) (Some [ex_load]) None (Some [ex_load; ex_load]) None) as (eigs & v & Ig & E & Hz & _).
  do 3 eexists. exists eigs, v, Ig. split.
  { refine (ex_represents_unsat (Some [uniform 1]) (Some [ex_load]) (Some [ex_load]) None (Some [ex_load; ex_load]) None [F] [] [F; F] [] [mkDepthLoad F (initial ex_load None) (fun _ => 1)] _ _ _ _ _ _).
    - apply one_course; auto.
    - apply no_course.
    - split; [reflexivity|]. constructor; [exact HF|constructor; [exact HF|constructor]].
    - apply no_course.
    - split; [reflexivity|]. split; [reflexivity|]. constructor; [|constructor]. split; [exact HF|]. split; [reflexivity|apply uniform_profile].
    - intros p [<-|[]]. eexists; reflexivity. }
  split; [exact E|]. split; [exact Hz|]. cbn [soil_parts f_mv p_top p_bot]. split; [reflexivity|]. split; [|intros t; unfold total; cbn; ring].
  destruct HF as (A & B & D & E1 & E2). split; [exact A|]. split; [exact B|]. split; [exact D|]. unfold total. cbn [map fold_right].
  split; intros; [rewrite <- E1 by auto|rewrite <- E2 by auto]; ring.
Qed.
Example C108_witness : exists w a sk m eigs v Igamv,
  inverts inv2 /\ diagonalises eig2 /\ represents_unsat 0 ex_U w a sk /\ (1 <= u_neig ex_U)%nat /\ u_H ex_U <> 0 /\ u_mvref ex_U <> 0 /\ u_ua ex_U <> 0 /\
  u_dT ex_U <> 0 /\ loads_seen ex_U /\ u_time_independent inv2 eig2 ex_U = Ok (m, eigs, v, Igamv) /\ (forall lam, In lam eigs -> lam <> 0) /\
  u_before ex_U 1 /\ subtractable ex_U.
Proof.
  destruct ex_U_meets as (w & a & sk & eigs & v & Ig & HR & E & Hz & _). exists w, a, sk, [PI], eigs, v, Ig.
  split; [apply inv2_inverts|]. split; [apply eig2_diagonalises|]. split; [exact HR|]. split; [cbn; lia|]. do 4 (split; [cbn; lra|]).
  split; [right; left; reflexivity|]. split; [exact E|]. split; [exact Hz|]. split; [|apply ex_U_subtractable].
  split; intros q Hq; (assert (q = ex_load) by (cbn in Hq; intuition); subst; unfold before_end; cbn; lra).
Qed.

(** ** Known defects *)
(** With all four boundary loads given, none of them is taken into account, and the balance of water does not hold. *)
Definition ex_four : uproblem := ex_unsat None None (Some [ex_load]) (Some [ex_load]) (Some [ex_load]) (Some [ex_load]).
Theorem C108_four_boundary_loads_refuted : exists w a sk,
  represents_unsat 0 ex_four w a sk /\ (exists eigs v Ig, u_time_independent inv2 eig2 ex_four = Ok ([PI], eigs, v, Ig) /\ forall lam, In lam eigs -> lam <> 0) /\
  (forall tvals, exists vE, u_solve inv2 eig2 ex_four tvals = Ok ([PI], vE)) /\
  forall cw ca, (forall tvals vE, u_solve inv2 eig2 ex_four tvals = Ok ([PI], vE) ->
      tabulates (water_part ex_four vE) 1 tvals cw /\ tabulates (air_part ex_four vE) 1 tvals ca) ->
    ~ unsat_solution ex_four w a sk 0 [PI] cw ca 1.
Proof.
  destruct (load_exists None) as (F & HF). destruct (ex_solved None None (Some [ex_load]) (Some [ex_load]) (Some [ex_load]) (Some [ex_load])) as (eigs & v & Ig & E & Hz & Sv & Le).
  pose proof (one_course F HF) as OC. change (ex_unsat None None (Some [ex_load]) (Some [ex_load]) (Some [ex_load]) (Some [ex_load])) with ex_four in E.
  do 3 eexists. split; [refine (ex_represents_unsat None None (Some [ex_load]) (Some [ex_load]) (Some [ex_load]) (Some [ex_load]) [F] [F] [F] [F] [] OC OC OC OC eq_refl _); intros p []|].
  split; [exists eigs, v, Ig; auto|].
  assert (ES : forall tvals, u_solve inv2 eig2 ex_four tvals = Ok ([PI], dot_mm v (zero_table 2 (length tvals)))).
  { intros tvals. unfold u_solve. rewrite E. cbn [bind]. reflexivity. }
  split; [intros tvals; eexists; apply ES|]. intros cw ca HT (ww & wa & aw & aa & _ & HB).
  assert (V : exists p q r s, v = [[p; q]; [r; s]]).
  { destruct Sv as (L & HLr). destruct v as [|r1 [|r2 [|? ?]]]; cbn in L; try lia. pose proof (HLr r1 ltac:(cbn; auto)). pose proof (HLr r2 ltac:(cbn; auto)).
    destruct r1 as [|p [|q [|? ?]]]; cbn in *; try lia. destruct r2 as [|r [|s [|? ?]]]; cbn in *; try lia. exists p, q, r, s. reflexivity. }
  destruct V as (p & q & r & s & ->).
  assert (Z0 : forall t, cw 0%nat t = 0 /\ ca 0%nat t = 0).
  { intros t. destruct (HT [t] _ (ES [t])) as ((_ & _ & H1) & (_ & _ & H2)). specialize (H1 0%nat 0%nat ltac:(lia) ltac:(cbn; lia)). specialize (H2 0%nat 0%nat ltac:(lia) ltac:(cbn; lia)).
    cbn in H1, H2. unfold cell, zero_table, table in H1, H2. cbn in H1, H2. rewrite <- H1, <- H2. split; ring. }
  assert (O : u_before ex_four (/ 2)) by (split; intros q0 Hq; (assert (q0 = ex_load) by (cbn in Hq; intuition); subst; unfold before_end; cbn; lra)).
  destruct (HB 0%nat (/ 2) ltac:(lia) ltac:(lra) O) as ((M & rate & Q & HM & Hr & HQ & EQ) & _).
  destruct (Z0 (/ 2)) as (Zw & Za). unfold sum in EQ. cbn [seq map fold_right] in EQ. rewrite Zw, Za in EQ.
  assert (EF : F (/ 2) = 1).
  { destruct HF as (_ & _ & _ & HF & _). rewrite (HF 0%nat (/ 2) ltac:(cbn; lia)) by (cbn; lra). unfold chord, modulation. cbn. field. }
  assert (UP : forall P ph c z t, drn P = 0%Z -> p_top ph = total [F] -> p_bot ph = (fun t => 1 * total [F] t) -> c 0%nat t = 0 -> pore P ph [PI] c z t = F t /\ pore_z P ph [PI] c z t = 0).
  { intros P ph c z t D1 E1 E2 Ec. unfold pore, pore_z, pressure, series, top_shape, sum. rewrite D1, E1, E2. cbn. unfold total. cbn. rewrite Ec. split; ring. }
  assert (EM : M = 2 / PI).
  { pose proof PI_RGT_0 as HPI.
    assert (Y : is_RInt (fun z => sin (PI * z)) 0 1 (2 / PI)).
    { assert (Y : is_RInt (fun z => sin (PI * z)) 0 1 (- cos (PI * 1) / PI - - cos (PI * 0) / PI)).
      { apply (is_RInt_derive (fun z => - cos (PI * z) / PI)).
        - intros x _. auto_derive; auto. field. lra.
        - intros x _. apply (ex_derive_continuous (V := R_NormedModule)). auto_derive. auto. }
      replace (2 / PI) with (- cos (PI * 1) / PI - - cos (PI * 0) / PI); [exact Y|]. rewrite Rmult_1_r, Rmult_0_r, cos_PI, cos_0. field. lra. }
    apply (is_RInt_unique (V := R_CompleteNormedModule)) in HM. apply (is_RInt_unique (V := R_CompleteNormedModule)) in Y. rewrite <- HM. rewrite <- Y.
    apply (RInt_ext (V := R_CompleteNormedModule)). intros z _. unfold water_gain, water_change, air_change, stress_change, water_pressure, air_pressure. cbn [nth].
    match goal with |- context [pore (water ex_four) ?ph [PI] cw] => rewrite (proj1 (UP (water ex_four) ph cw z (/ 2) eq_refl eq_refl eq_refl Zw)) end.
    match goal with |- context [pore (air ex_four) ?ph [PI] ca] => rewrite (proj1 (UP (air ex_four) ph ca z (/ 2) eq_refl eq_refl eq_refl Za)) end. rewrite EF.
    unfold pore0, applied, applied0. cbn [soil_parts f_surcharge map fold_right p_top0 p_bot0 drn water air ex_four ex_unsat u_drn f_1kw f_mv listed]. unfold top_shape, total0, initial. cbn. match goal with |- ?u = ?v => change (@eq R u v) end. ring. }
  assert (EQ0 : Q = 0).
  { apply (is_RInt_unique (V := R_CompleteNormedModule)) in HQ. rewrite <- HQ. transitivity (RInt (fun _ => 0) 0 (/ 2)).
    - apply (RInt_ext (V := R_CompleteNormedModule)). intros x Hx. rewrite Rmin_left, Rmax_right in Hx by lra. destruct (Hr x ltac:(lra)) as (V & X & HV & HX & ->).
      destruct (Z0 x) as (Zwx & _). cbn [soil_parts d_v d_h f_fixed f_pumps map fold_right].
      assert (EV : V = 0).
      { apply (is_RInt_unique (V := R_CompleteNormedModule)) in HV. rewrite <- HV. transitivity (RInt (fun _ => 0) 0 1).
        - apply (RInt_ext (V := R_CompleteNormedModule)). intros z _. match goal with |- context [pore_z (water ex_four) ?ph [PI] cw] => rewrite (proj2 (UP (water ex_four) ph cw z x eq_refl eq_refl eq_refl Zwx)) end. match goal with |- ?u = ?v => change (@eq R u v) end. ring.
        - rewrite (RInt_const (V := R_CompleteNormedModule)). unfold scal; cbn; unfold Hierarchy.mult; cbn; match goal with |- ?u = ?v => change (@eq R u v) end; ring. }
      rewrite EV. match goal with |- context [pore_z (water ex_four) ?ph [PI] cw] => rewrite (proj2 (UP (water ex_four) ph cw 1 x eq_refl eq_refl eq_refl Zwx)) end. match goal with |- ?u = ?v => change (@eq R u v) end. ring.
    - rewrite (RInt_const (V := R_CompleteNormedModule)). unfold scal; cbn; unfold Hierarchy.mult; cbn; match goal with |- ?u = ?v => change (@eq R u v) end; ring. }
  rewrite EM, EQ0 in EQ. pose proof PI_RGT_0. assert (0 < 2 / PI) by (apply Rdiv_lt_0_compat; lra). lra.
Qed.
Print Assumptions C108_four_boundary_loads_refuted.
(** The part of the settlement reported for water is not the water's: a piece of the air's part has been taken from it. *)
Theorem C108_water_settlement_refuted : exists w a sk cw ca zp S Sw Sa x,
  represents_unsat 0 ex_U w a sk /\ unsat_solution ex_U w a sk 0 [PI] cw ca 1 /\ u_make_set inv2 eig2 ex_U [1] zp [0%nat] = Ok (S, Sw, Sa) /\
  (let '(z1, z2) := nth 0 zp (0, 0) in let uw := water_pressure ex_U w [PI] cw in let ua := air_pressure ex_U a [PI] ca in
   is_RInt (fun z => f_1kw sk z * (applied (f_surcharge w) z 1 - ua z 1) + f_mv w z * (ua z 1 - uw z 1)) z1 z2 x) /\
  entry Sw 0 0 <> u_H ex_U * u_mvref ex_U * x.
Proof.
  destruct ex_U_meets as (w & a & sk & eigs & v & Ig & HR & E & Hz & Ea & Ht & Hb).
  assert (N1 : u_H ex_U <> 0) by (cbn; lra). assert (N2 : u_mvref ex_U <> 0) by (cbn; lra). assert (N3 : u_ua ex_U <> 0) by (cbn; lra). assert (N4 : u_dT ex_U <> 0) by (cbn; lra).
  destruct (C108_unsaturated inv2 eig2 inv2_inverts eig2_diagonalises ex_U w a sk 0 [PI] eigs v Ig HR (le_n 1) N1 N2 N3 N4 (or_intror (or_introl eq_refl)) E Hz)
    as (cw & ca & Hs & Hd & Ho). set (uw := water_pressure ex_U w [PI] cw) in *. set (ua := air_pressure ex_U a [PI] ca) in *. cbv zeta in Hd, Ho.
  assert (U0 : uw 0 1 = 5).
  { unfold uw, water_pressure, pore, pressure, series, top_shape. cbn [water ex_U ex_unsat drn u_drn Z.eqb]. rewrite Hb. cbn [length seq map fold_right nth]. rewrite Rmult_0_r, sin_0.
    destruct Ht as (_ & _ & _ & HF & _). rewrite (HF 2%nat 1 ltac:(cbn; lia)) by (cbn; lra). unfold chord, modulation. cbn. field. }
  destruct (Hd 0 1) as (D0 & _). assert (CU : continuous (fun z => uw z 1) 0) by (exact (ex_derive_continuous (V := R_NormedModule) (fun z => uw z 1) 0 (ex_intro _ _ D0))).
  assert (exists d, 0 < d <= 1 /\ forall z, 0 <= z <= d -> 4 < uw z 1) as (d & Hd01 & Hpos).
  { destruct (CU (fun y => 4 < y)) as (e & He).
    - rewrite U0. exists (mkposreal 1 Rlt_0_1). intros y Hy. unfold ball in Hy; cbn in Hy; unfold AbsRing_ball, abs, minus, plus, opp in Hy; cbn in Hy. apply Rabs_def2 in Hy. cbn in Hy. lra.
    - exists (Rmin (e / 2) 1). pose proof (cond_pos e). pose proof (Rmin_l (e / 2) 1). pose proof (Rmin_r (e / 2) 1). split; [split; auto; apply Rmin_glb_lt; lra|].
      intros z Hz'. apply He. unfold ball; cbn; unfold AbsRing_ball, abs, minus, plus, opp; cbn. rewrite Ropp_0, Rplus_0_r, Rabs_pos_eq; lra. }
  destruct (Ho [1] [0%nat]) as (_ & Hset); [intros k [<-|[]]; cbn; lia|].
  destruct (Hset [(0, d)]) as (_ & Hset'); [intros q [<-|[]]; cbn; lra|].
  destruct Hset' as (S0 & Sw & Sa & EE & _ & _ & _ & Hv); [intros X; discriminate X|apply ex_U_subtractable|].
  assert (O : u_before ex_U 1) by (split; intros q0 Hq; (assert (q0 = ex_load) by (cbn in Hq; intuition); subst; unfold before_end; cbn; lra)).
  specialize (Hv 0%nat 0%nat ltac:(cbn; lia) ltac:(cbn; lia) O). cbn [nth map] in Hv. destruct Hv as (x & y & q & Hx & Hy & Hq & _ & Ew & _).
  exists w, a, sk, cw, ca, [(0, d)], S0, Sw, Sa, x. split; [exact HR|]. split; [exact Hs|]. split; [exact EE|]. split; [exact Hx|]. rewrite Ew. cbn [u_H u_mvref ex_U ex_unsat].
  assert (q <= d * -4).
  { pose proof (is_RInt_const (V := R_NormedModule) 0 d (-4)) as Z'. unfold scal in Z'; cbn in Z'; unfold Hierarchy.mult in Z'; cbn in Z'. rewrite Rminus_0_r in Z'.
    refine (is_RInt_le _ _ 0 d _ _ _ Hq Z' _); [lra|]. intros z Hz'. rewrite Ea. cbv beta. specialize (Hpos z ltac:(lra)). lra. }
  intros X. assert (q = 0) by lra. nra.
Qed.
Print Assumptions C108_water_settlement_refuted.

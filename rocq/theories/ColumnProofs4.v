(** * Assembly for the program for stone columns *)
From Coq Require Import Reals List Arith ZArith Lia Lra Bool Sorted.
From Coquelicot Require Import Coquelicot.
From Verif Require Import Base PiecewiseModel LayersModel SpecPiecewise SpecPiecewiseApi PolyLineModel SpecPolyLine PolyLineProofs7 SpectralModel SpecSpectral
  WrapModel SpecWrap PropsWrap LoadModel LoadTrigModel SpecLoad SpecSpeccon SpecconModel SpecconProofs SpecconProofs2 SpecconProofs3 SpecconProofs4 SpecconProofs5 SpecGalerkin SpecconProofs6 SpecconProofs7 SpecconProofs8 SpecconProofs9
  WellModel SpecWell WellProofs WellProofs2 WellProofs3 ColumnModel SpecColumn ColumnProofs ColumnProofs2 ColumnProofs3.
Import ListNotations.
Open Scope R_scope.
Local Notation entry := SpecSpectral.entry.
Local Notation RI f := (RInt f 0 1).

Lemma mode_flux c : is_RInt (fun z => c * cos (c * z)) 0 1 (sin (c * 1)).
Proof.
  pose proof (is_RInt_derive (fun z => sin (c * z)) (fun z => c * cos (c * z)) 0 1) as H. cbv beta in H.
  eapply RInt_eq; [apply H| |].
  - intros z _. auto_derive; auto. ring.
  - intros z _. apply (ex_derive_continuous (V := R_NormedModule)). auto_derive; auto.
  - reflexivity.
  - unfold minus, plus, opp. cbn. match goal with |- ?u = ?v => change (@eq R u v) end. rewrite (Rmult_0_r c), sin_0. ring.
Qed.

Section Assembly.
Variable inv : list (list R) -> result (list (list R)).
Variable eig : list (list R) -> result (list R * list (list R)).
Hypothesis Hinv : inverts inv.
Hypothesis Heg : diagonalises eig.
Variables (W : cproblem) (ph : physics) (co : column) (T0 : R) (X : carrays).
Let P := cbase W.
Let B := frame P.
Let n := neig P.
Let m := c_m X.
Let eigs := c_eigs X.
Let v := c_v X.
Let Igamv := c_Igamv X.
Let bet := c_bet X.
Let sv := c_psi_sv X.
Let cv := c_psi_cv X.
Let al := alp W.
Hypothesis HW : represents_column T0 W ph co.
Hypothesis Hn : (1 <= n)%nat.
Hypothesis HH : Hh P <> 0.
Hypothesis Hd : dT P <> 0.
Hypothesis HI : c_time_independent inv eig W = Ok X.
Hypothesis Hnz0 : forall lam, In lam eigs -> lam <> 0.
Let phi (k : nat) (z : R) := sin (nth k m 0 * z).
Let dphi (k : nat) (z : R) := nth k m 0 * cos (nth k m 0 * z).
Let st : R := if Z.eqb (drn P) 1 then 0 else -1.
Let Gx i j : R := RI (fun z => f_mv ph z * phi i z * phi j z).
(** exact outflow matrix *)
Let Ex i j : R := ((1 - al) * Sg n (fun k => cell sv i k * cell (block n bet 0 0) k j) + al * Sg n (fun k => cell cv i k * cell (block n bet 1 0) k j)) * -1.
Let ap (M : list (list R)) (x : nat -> R) (i : nat) : R := Sg n (fun j => cell M i j * x j).

Lemma share_al : share co = al.
Proof using HW. pose proof HW as (_ & _ & _ & _ & _ & _ & _ & _ & _ & _ & _ & _ & _ & E). rewrite E. unfold al, alp. cbn [pow]. rewrite Rmult_1_r. reflexivity. Qed.
Lemma c_pieces : exists gam psi ig sh ch, make_m P = Ok m /\ square n gam /\ square n psi /\ square n ig /\ square n v /\ square n Igamv /\ length eigs = n /\ square n sv /\ square n cv /\
  (forall i j, (i < n)%nat -> (j < n)%nat -> is_RInt (fun z => s_k co z * dphi i z * dphi j z) 0 1 (KV m (s_k co) i j) /\ dT P * cell sv i j = - (s_dv co * KV m (s_k co) i j)) /\
  (forall i j, (i < n)%nat -> (j < n)%nat -> is_RInt (fun z => c_k co z * dphi i z * dphi j z) 0 1 (KV m (c_k co) i j) /\ dT P * cell cv i j = - (c_dv co * KV m (c_k co) i j)) /\
  (forall i j, (i < n)%nat -> (j < n)%nat -> is_RInt (fun z => s_kh co z * s_et co z * phi i z * phi j z) 0 1 (KX m (fun z => s_kh co z * s_et co z) i j) /\
     dT P * cell sh i j = s_dh co * KX m (fun z => s_kh co z * s_et co z) i j) /\
  (forall i j, (i < n)%nat -> (j < n)%nat -> is_RInt (fun z => c_kh co z * phi i z * phi j z) 0 1 (KX m (c_kh co) i j) /\ dT P * cell ch i j = c_dh co * KX m (c_kh co) i j) /\
  (forall i j, (i < 3 * n)%nat -> (j < 3 * n)%nat -> Sg (3 * n) (fun k => cell (make_Ibet n al sv sh cv ch) i k * cell bet k j) = if Nat.eqb i j then 1 else 0) /\
  (forall i j, (i < n)%nat -> (j < n)%nat -> storage_entry ph m i j (Gx i j) /\ cell gam i j = cutv (Gx i j)) /\
  (forall i j, (i < n)%nat -> (j < n)%nat -> cell psi i j = cutv (Ex i j)) /\
  (forall i j, (i < n)%nat -> (j < n)%nat -> Sg n (fun k => cell gam i k * cell ig k j) = if Nat.eqb i j then 1 else 0) /\
  (forall i j, (i < n)%nat -> (j < n)%nat -> Sg n (fun k => Sg n (fun p => cell ig i p * cell psi p k) * cell v k j) = cell v i j * lam eigs j) /\
  (forall i j, (i < n)%nat -> (j < n)%nat -> Sg n (fun k => Sg n (fun p => cell gam i p * cell v p k) * cell Igamv k j) = if Nat.eqb i j then 1 else 0).
Proof using Hinv Heg HW Hn Hd HI.
  pose proof HI as E. unfold c_time_independent in E. fold P n al in E. destruct (make_m P) as [m'|] eqn:Em; cbn [bind] in E; [|discriminate].
  destruct (make_psi_sh W m') as [sh|] eqn:Es; cbn [bind] in E; [|discriminate].
  set (sv' := psi_vertical P m' (cdTv W) (ckv W)) in E. set (cv' := psi_vertical P m' (cdTvc W) (ckvc W)) in E. set (ch := make_psi_ch W m') in E.
  destruct (inv (make_Ibet n al sv' sh cv' ch)) as [bet'|] eqn:EI; cbn [bind] in E; [|discriminate].
  set (psi := cut _) in E.
  unfold make_eigs_and_v in E. destruct (inv (make_gam P m')) as [ig|] eqn:Eig; cbn [bind] in E; [|discriminate].
  destruct (eig (dot_mm ig psi)) as [[w V]|] eqn:Ew; cbn [bind fst snd] in E; [|discriminate].
  destruct (inv (dot_mm (make_gam P m') V)) as [igv|] eqn:Eigv; cbn [bind] in E; [|discriminate].
  injection E as EX. assert (Q1 : m' = m) by (unfold m; rewrite <- EX; reflexivity). assert (Q2 : w = eigs) by (unfold eigs; rewrite <- EX; reflexivity).
  assert (Q3 : V = v) by (unfold v; rewrite <- EX; reflexivity). assert (Q4 : igv = Igamv) by (unfold Igamv; rewrite <- EX; reflexivity).
  assert (Q5 : sv' = sv) by (unfold sv; rewrite <- EX; reflexivity). assert (Q6 : cv' = cv) by (unfold cv; rewrite <- EX; reflexivity).
  assert (Q7 : bet' = bet) by (unfold bet; rewrite <- EX; reflexivity). clear EX. subst m' w V igv.
  pose proof HW as (_ & _ & Pk & _ & _ & Pc & _ & _ & _ & Ed1 & _ & Ed2 & _).
  destruct (psi_vertical_ok W m Em Hn Hd (cdTv W) (ckv W) (s_k co) Pk) as (SS & HS). destruct (psi_vertical_ok W m Em Hn Hd (cdTvc W) (ckvc W) (c_k co) Pc) as (SC & HC).
  fold P n sv' in SS, HS. fold P n cv' in SC, HC. rewrite Q5 in *. rewrite Q6 in *. rewrite Q7 in *.
  destruct (psi_sh_ok W ph co T0 m HW Em Hn Hd) as (sh' & Es' & SSh & HSh). assert (sh' = sh) by congruence. subst sh'.
  destruct (psi_ch_ok W ph co T0 m HW Em Hn Hd) as (SCh & HCh). fold ch in SCh, HCh.
  destruct (Hinv _ _ EI) as (SIw & HIw).
  assert (LI : length (make_Ibet n al sv sh cv ch) = (3 * n)%nat) by (apply (table_shape (3 * n) (3 * n))). rewrite LI in SIw, HIw.
  assert (SP : square n psi) by (unfold psi; apply cut_square, table_square).
  pose proof (gam_square P m Em Hn) as SG. fold n in SG.
  destruct (Hinv _ _ Eig) as (SI & HIc). rewrite (proj1 SG) in SI, HIc.
  destruct (Heg _ _ _ Ew) as (SV & Lw & HE). pose proof (square_dot n ig psi SI SP Hn) as SD. rewrite (proj1 SD) in SV, Lw, HE.
  destruct (Hinv _ _ Eigv) as (SN & HN). pose proof (square_dot n _ v SG SV Hn) as SD2. rewrite (proj1 SD2) in SN, HN.
  exists (make_gam P m), psi, ig, sh, ch. split; [reflexivity|]. do 8 (split; [assumption|]).
  split; [rewrite Ed1; exact HS|]. split; [rewrite Ed2; exact HC|]. split; [exact HSh|]. split; [exact HCh|]. split; [intros i j Hi Hj; apply (HIw i j Hi Hj)|]. split; [|split; [|split; [|split]]].
  - intros i j Hi Hj. destruct (gam_cell B ph T0 m (HF W ph co T0 HW) Em Hn i j Hi Hj) as (x & S2 & S3). assert (EG : Gx i j = x) by (symmetry; exact (storage_unique ph m _ _ _ S2)). rewrite EG. auto.
  - intros i j Hi Hj. unfold psi. rewrite cell_cut, cell_table by auto. unfold Ex. f_equal. rewrite Q5, Q6, Q7. rewrite !(cell_dot n) by (auto; apply table_square). reflexivity.
  - intros i j Hi Hj. apply (HIc i j Hi Hj).
  - intros i j Hi Hj. pose proof (HE i j Hi Hj) as Y. etransitivity; [|exact Y]. apply Sg_ext. intros k Hk.
    change (coef (dot_mm ig psi) i k) with (cell (dot_mm ig psi) i k). rewrite (cell_dot n) by auto. reflexivity.
  - intros i j Hi Hj. pose proof (HN i j Hi Hj) as Y. etransitivity; [|exact Y]. apply Sg_ext. intros k Hk.
    change (coef (dot_mm (make_gam P m) v) i k) with (cell (dot_mm (make_gam P m) v) i k). rewrite (cell_dot n) by auto. reflexivity.
Qed.

(** The loss of the responding soil and column. *)
Let G := make_G n al X.
Lemma loss_response pt pb u i : square n sv -> square n cv -> (i < n)%nat ->
  let g := drive W co m pt pb in
  loss W co m sv cv pt pb (response n al bet 0 u g) (response n al bet 1 u g) i =
  dT P * Sg n (fun j => Ex i j * u j) - (Sg n (fun l => cell (IG W X) i l * (s_dv co * ths W co m pt pb l)) + Sg n (fun l => cell G i l * (c_dv co * thc W co m pt pb l))).
Proof using HW Hn Hd.
  intros SS SC Hi g.
  assert (R : forall M r, square n M -> ap M (response n al bet r u g) i =
    Sg n (fun j => Sg n (fun k => cell M i k * cell (block n bet r 0) k j) * u j) + Sg n (fun l => cell (dot_mm M (drive_block n al bet r)) i l * g l)).
  { intros M r SM. unfold ap, response. rewrite (Sg_ext n _ (fun j => cell M i j * Sg n (fun k => cell (block n bet r 0) j k * u k) + cell M i j * Sg n (fun k => cell (drive_block n al bet r) j k * g k))) by (intros; ring).
    rewrite Sg_plus, <- !massoc. f_equal. apply Sg_ext. intros l Hl. rewrite (cell_dot n) by (auto; apply table_square). reflexivity. }
  unfold loss. rewrite share_al. fold P n.
  change (fun j => cell sv i j * response n al bet 0 u g j) with (fun j => cell sv i j * response n al bet 0 u g j).
  pose proof (R sv 0%nat SS) as R0. pose proof (R cv 1%nat SC) as R1. unfold ap in R0, R1.
  match goal with |- context [(1 - al) * ?x + al * ?y] => replace x with (Sg n (fun j => cell sv i j * response n al bet 0 u g j)) by reflexivity; replace y with (Sg n (fun j => cell cv i j * response n al bet 1 u g j)) by reflexivity end.
  rewrite R0, R1.
  set (S := fun l => s_dv co * ths W co m pt pb l). set (C' := fun l => c_dv co * thc W co m pt pb l).
  assert (EG : forall l, (l < n)%nat -> (1 - al) * cell (dot_mm sv (drive_block n al bet 0)) i l + al * cell (dot_mm cv (drive_block n al bet 1)) i l = cell (diag n al) i l - cell G i l).
  { intros l Hl. unfold G, make_G. cbv zeta. rewrite cell_table by auto. fold sv cv bet. ring. }
  assert (Eg : forall l, dT P * g l = S l - C' l) by (intros l; unfold g, drive, S, C'; fold P; field; auto).
  assert (E1 : dT P * Sg n (fun j => Ex i j * u j) = - dT P * ((1 - al) * Sg n (fun j => Sg n (fun k => cell sv i k * cell (block n bet 0 0) k j) * u j) + al * Sg n (fun j => Sg n (fun k => cell cv i k * cell (block n bet 1 0) k j) * u j))).
  { rewrite <- (Sg_scal n (1 - al)), <- (Sg_scal n al), <- Sg_plus, <- !Sg_scal. apply Sg_ext. intros j Hj. unfold Ex. ring. }
  assert (E2 : dT P * ((1 - al) * Sg n (fun l => cell (dot_mm sv (drive_block n al bet 0)) i l * g l) + al * Sg n (fun l => cell (dot_mm cv (drive_block n al bet 1)) i l * g l)) =
     al * (S i - C' i) - Sg n (fun l => cell G i l * S l) + Sg n (fun l => cell G i l * C' l)).
  { rewrite <- (Sg_scal n (1 - al)), <- (Sg_scal n al), <- Sg_plus, <- !Sg_scal.
    rewrite (Sg_ext n _ (fun l => cell (diag n al) i l * (S l - C' l) - cell G i l * S l + cell G i l * C' l)).
    - rewrite Sg_plus, Sg_minus, Sg_diag by auto. ring.
    - intros l Hl. replace (dT P * ((1 - al) * (cell (dot_mm sv (drive_block n al bet 0)) i l * g l) + al * (cell (dot_mm cv (drive_block n al bet 1)) i l * g l)))
        with (((1 - al) * cell (dot_mm sv (drive_block n al bet 0)) i l + al * cell (dot_mm cv (drive_block n al bet 1)) i l) * (dT P * g l)) by ring.
      rewrite EG, Eg by auto. ring. }
  assert (E3 : Sg n (fun l => cell (IG W X) i l * S l) = S i - Sg n (fun l => cell G i l * S l)).
  { rewrite (Sg_ext n _ (fun l => cell (diag n 1) i l * S l - cell G i l * S l)).
    - rewrite Sg_minus, Sg_diag by auto. ring.
    - intros l Hl. unfold IG. fold P n al. rewrite cell_table by auto. fold G. ring. }
  change (Sg n (fun l => cell (IG W X) i l * (s_dv co * ths W co m pt pb l))) with (Sg n (fun l => cell (IG W X) i l * S l)). rewrite E3.
  change (Sg n (fun l => cell G i l * (c_dv co * thc W co m pt pb l))) with (Sg n (fun l => cell G i l * C' l)).
  change (s_dv co * ths W co m pt pb i) with (S i). change (c_dv co * thc W co m pt pb i) with (C' i). rewrite E1. lra.
Qed.

(** The program returns, whatever the loads. *)
Lemma c_total : exists a, forall tvals, exists vE, c_solve inv eig W tvals = Ok (X, vE) /\ tabulates vE n tvals a.
Proof using Hinv Heg HW Hn HH Hd HI Hnz0.
  destruct c_pieces as (gam & psi & ig & sh & ch & Em & SG & SP & SI & SV & SN & Le & SS & SC & Hsv & Hcv & Hsh & Hch & HNb & CG & CP & AI & AE & AN).
  destruct (m_facts P m Em Hn) as (Lm & Nm & _ & Hdrn & _). fold n in Lm.
  assert (Hnz : forall lam, In lam eigs -> dT P * lam <> 0) by (intros lam Hl; apply Rmult_integral_contrapositive_currified; auto).
  pose proof (HF W ph co T0 HW) as HR. fold B in HR. pose proof HR as (_ & _ & _ & _ & (Ts & HTs & ET & ET0) & (Bs0 & HBs & EB & EB0) & _).
  destruct (c_all_contribute W ph co T0 X HW SN Hn Le Hnz Lm Nm HH Hdrn Ts Bs0 HTs HBs) as (c & Mc & Hc). fold P n eigs Igamv in Mc, Hc.
  exists (fun j t => Sg n (fun l => cell v j l * c l t)). intros tvals. destruct (Hc tvals) as (A & EA & CA). exists (dot_mm v A). split.
  + unfold c_solve. rewrite HI. cbn [bind]. rewrite EA. reflexivity.
  + destruct (c_make_E_shape _ _ _ _ EA) as (LA & RA). fold P n in LA.
    assert (HA : length (hd [] A) = length tvals) by (destruct A as [|r A]; [cbn in LA; lia|apply RA; left; auto]).
    pose proof (dot_mm_shape v A) as (D1 & D2). rewrite HA in D2. destruct SV as (LV & RV). rewrite LV in D1.
    split; [exact D1|]. split; [exact D2|]. intros j i Hj Hi.
    change (nth i (nth j (dot_mm v A) []) 0) with (cell (dot_mm v A) j i). rewrite cell_dot_mm by lia. rewrite LA. apply Sg_ext. intros k Hk. rewrite CA by auto. reflexivity.
Qed.
(** Boundary loads that do not drive flow in the column. *)
Hypothesis ND : no_column_drive W co.
Lemma no_drive Ts Bs0 : are_loads T0 (listed (top_vs_time P)) (top_omega_phase P) Ts -> are_loads T0 (listed (bot_vs_time P)) (bot_omega_phase P) Bs0 ->
  p_top ph = total Ts -> p_bot ph = (fun t => bottom_factor B * total Bs0 t) ->
  (forall l s, (l < n)%nat -> c_dv co * thc W co m (p_top ph s) (p_bot ph s) l = 0) /\
  (forall l t, (l < n)%nat -> flux_src W T0 X Ts Bs0 (c_dv co) (c_k co) (c_bottom co) l t = 0).
Proof using ND.
  intros HTs HBs ET EB.
  assert (Z : forall l (x y : R), (top_vs_time (cbase W) = None /\ bot_vs_time (cbase W) = None -> x = 0 /\ y = 0) ->
    c_dv co * (tht W m (c_k co) (c_bottom co) l * x + thb m (c_k co) (c_bottom co) l * y) = 0).
  { intros l x y Hxy. destruct ND as [N|[E|(k & Eb & Ek)]].
    - destruct (Hxy N) as (-> & ->). ring.
    - rewrite E. ring.
    - pose proof (mode_flux (nth l m 0)) as F.
      assert (Q : forall s, RI (fun z => c_k co z * s * dphi l z) = k * s * phi l 1).
      { intros s. apply (is_RInt_unique (V := R_CompleteNormedModule)). pose proof (RInt_mull _ _ _ (k * s) _ F) as F'.
        eapply (is_RInt_ext (V := R_NormedModule)); [|exact F']. intros z Hz. cbv beta. rewrite Rmin_left, Rmax_right in Hz by lra. rewrite Ek by lra. reflexivity. }
      unfold tht, thb. fold m. change (fun z => c_k co z * (if (drn (cbase W) =? 1)%Z then 0 else -1) * (nth l m 0 * cos (nth l m 0 * z))) with (fun z => c_k co z * st * dphi l z).
      change (fun z => c_k co z * 1 * (nth l m 0 * cos (nth l m 0 * z))) with (fun z => c_k co z * 1 * dphi l z). rewrite !Q, Eb. fold (phi l 1). unfold st, P. ring. }
  assert (N : top_vs_time (cbase W) = None /\ bot_vs_time (cbase W) = None -> Ts = [] /\ Bs0 = []).
  { intros (N1 & N2). destruct HTs as (_ & FT). destruct HBs as (_ & FB). unfold P in FT, FB. rewrite N1 in FT. rewrite N2 in FB. cbn in FT, FB. inversion FT; inversion FB; auto. }
  split.
  - intros l s _. unfold thc. apply Z. intros Hn'. destruct (N Hn') as (-> & ->). rewrite ET, EB. split; cbn; ring.
  - intros l t _. unfold flux_src. fold P n. rewrite (Sg_ext n _ (fun _ => 0)); [apply Sg_zero|]. intros q Hq. fold m. rewrite Z; [ring|].
    intros Hn'. destruct (N Hn') as (-> & ->). split; reflexivity.
Qed.

Definition soil_coefs (r : nat) (a : nat -> R -> R) (j : nat) (t : R) : R := response n al bet r (fun k => a k t) (drive W co m (p_top ph t) (p_bot ph t)) j.
Lemma pore_diff_f a b z t : make_m P = Ok m -> pore B ph m a z t - pore B ph m b z t = Sg n (fun j => (a j t - b j t) * phi j z).
Proof using Hn.
  intros Em. unfold pore, pressure, series. destruct (m_facts P m Em Hn) as (L & _). rewrite L. fold n.
  rewrite (Sg_ext n (fun j => (a j t - b j t) * phi j z) (fun j => a j t * phi j z - b j t * phi j z)) by (intros; ring). rewrite Sg_minus. unfold Sg, phi. ring.
Qed.
Lemma pore_z_f b z t : make_m P = Ok m -> pore_z B ph m b z t = Sg n (fun j => b j t * dphi j z) + p_top ph t * st + p_bot ph t.
Proof using Hn. intros Em. unfold pore_z. destruct (m_facts P m Em Hn) as (L & _). rewrite L. reflexivity. Qed.
Theorem c_solution : exists a, (forall tvals, exists vE, c_solve inv eig W tvals = Ok (X, vE) /\ tabulates vE n tvals a) /\
  column_solution B ph co T0 m a (soil_coefs 0 a) (soil_coefs 1 a) (soil_coefs 2 a) n.
Proof using Hinv Heg HW Hn HH Hd HI Hnz0 ND.
  destruct c_pieces as (gam & psi & ig & sh & ch & Em & SG & SP & SI & SV & SN & Le & SS & SC & Hsv & Hcv & Hsh & Hch & HNb & CG & CP & AI & AE & AN).
  destruct (m_facts P m Em Hn) as (Lm & Nm & _ & Hdrn & _). fold n in Lm.
  assert (Hnz : forall lam, In lam eigs -> dT P * lam <> 0) by (intros lam Hl; apply Rmult_integral_contrapositive_currified; auto).
  pose proof (HF W ph co T0 HW) as HR. fold B in HR. pose proof HR as (_ & _ & (Ekv & Edv) & (Ekh & Eet & Edh) & (Ts & HTs & ET & ET0) & (Bs0 & HBs & EB & EB0) & _ & _ & _ & Ffx & _).
  assert (Efx : f_fixed ph = []) by (cbn in Ffx; inversion Ffx; auto).
  pose proof HW as (_ & _ & Pk & _ & _ & Pc & _ & Eb1 & Eb2 & _).
  destruct (flux_contributes W ph co T0 X HW SN Hn Le Hnz Lm Nm HH Ts Bs0 HTs HBs 0 (ckv W) (s_k co) (s_bottom co) ltac:(cbn; auto) Pk Eb1) as (Hxs & _).
  destruct (flux_contributes W ph co T0 X HW SN Hn Le Hnz Lm Nm HH Ts Bs0 HTs HBs 0 (ckvc W) (c_k co) (c_bottom co) ltac:(cbn; auto) Pc Eb2) as (Hxc & _).
  destruct (c_all_contribute W ph co T0 X HW SN Hn Le Hnz Lm Nm HH Hdrn Ts Bs0 HTs HBs) as (c & Mc & Hc). fold P n eigs Igamv in Mc, Hc.
  destruct (no_drive Ts Bs0 HTs HBs ET EB) as (ND1 & ND2).
  set (a := fun j t => Sg n (fun l => cell v j l * c l t)).
  assert (Mx : forall u g i, (i < n)%nat -> (1 - al) * response n al bet 0 u g i + al * response n al bet 1 u g i = u i) by (intros; apply (mixture n al sv sh cv ch bet HNb); auto).
  assert (CL : forall i t, (i < n)%nat -> column_loss B ph co m (soil_coefs 0 a) (soil_coefs 1 a) (soil_coefs 2 a) i t
     (loss W co m sv cv (p_top ph t) (p_bot ph t) (fun j => soil_coefs 0 a j t) (fun j => soil_coefs 1 a j t) i)).
  { intros i t Hi. apply (together_ok W co m Em Hn Hd sv sh cv ch Hsv Hcv Hsh Hch Hxs Hxc (fun j => soil_coefs 0 a j t) (fun j => soil_coefs 1 a j t) (fun j => soil_coefs 2 a j t) (p_top ph t) (p_bot ph t) _ _ _ _ _ i Hi).
    - apply (equal_loss n al sv sh cv ch bet HNb (fun k => a k t) (drive W co m (p_top ph t) (p_bot ph t)) i Hi).
    - rewrite share_al. apply (interface n al sv sh cv ch bet HNb (fun k => a k t) (drive W co m (p_top ph t) (p_bot ph t)) i Hi).
    - intros z. apply pore_z_f; auto.
    - intros z. apply pore_z_f; auto.
    - intros z. apply pore_diff_f; auto.
    - intros z. apply pore_diff_f; auto. }
  exists a. split; [|split; [|split]].
  - intros tvals. destruct (Hc tvals) as (A & EA & CA). exists (dot_mm v A). split.
    + unfold c_solve. rewrite HI. cbn [bind]. rewrite EA. reflexivity.
    + destruct (c_make_E_shape _ _ _ _ EA) as (LA & RA). fold P n in LA.
      assert (HA : length (hd [] A) = length tvals) by (destruct A as [|r A]; [cbn in LA; lia|apply RA; left; auto]).
      pose proof (dot_mm_shape v A) as (D1 & D2). rewrite HA in D2. destruct SV as (LV & RV). rewrite LV in D1.
      split; [exact D1|]. split; [exact D2|]. intros j i Hj Hi.
      change (nth i (nth j (dot_mm v A) []) 0) with (cell (dot_mm v A) j i). rewrite cell_dot_mm by lia. rewrite LA. apply Sg_ext. intros k Hk. rewrite CA by auto. reflexivity.
  - intros z t. rewrite share_al. unfold pore, pressure, series. rewrite Lm.
    change (Sg n (fun j => a j t * sin (nth j m 0 * z)) + p_top ph t * top_shape (drn B) z + p_bot ph t * z =
      (1 - al) * (Sg n (fun j => soil_coefs 0 a j t * sin (nth j m 0 * z)) + p_top ph t * top_shape (drn B) z + p_bot ph t * z) +
      al * (Sg n (fun j => soil_coefs 1 a j t * sin (nth j m 0 * z)) + p_top ph t * top_shape (drn B) z + p_bot ph t * z)).
    rewrite (Sg_ext n (fun j => a j t * _) (fun j => (1 - al) * (soil_coefs 0 a j t * sin (nth j m 0 * z)) + al * (soil_coefs 1 a j t * sin (nth j m 0 * z)))).
    + rewrite Sg_plus, !Sg_scal. ring.
    + intros j Hj. rewrite <- (Mx (fun k => a k t) (drive W co m (p_top ph t) (p_bot ph t)) j Hj) at 1. unfold soil_coefs. ring.
  - intros i t Hi. eexists. apply CL; auto.
  - exists (fun i j => Gx i j - cutv (Gx i j)), (fun i j => Ex i j - cutv (Ex i j)). split.
    + intros i j Hi Hj. split; [exists (Gx i j); split; [apply CG; auto|apply cutv_neglected]|exists (Ex i j); split; [|apply cutv_neglected]].
      set (dl := fun l => if Nat.eqb j l then 1 else 0). set (g := drive W co m 0 0).
      exists (response n al bet 0 dl g), (response n al bet 1 dl g), (response n al bet 2 dl g). split.
      * intros l Hl. rewrite share_al. apply Mx; auto.
      * intros k Hk. exists (loss W co m sv cv 0 0 (response n al bet 0 dl g) (response n al bet 1 dl g) k). split.
        -- apply (together_ok W co m Em Hn Hd sv sh cv ch Hsv Hcv Hsh Hch Hxs Hxc (response n al bet 0 dl g) (response n al bet 1 dl g) (response n al bet 2 dl g) 0 0 _ _ _ _ _ k Hk).
           ++ apply (equal_loss n al sv sh cv ch bet HNb dl g k Hk).
           ++ rewrite share_al. apply (interface n al sv sh cv ch bet HNb dl g k Hk).
           ++ intros z. rewrite Rmult_0_l, !Rplus_0_r. reflexivity.
           ++ intros z. rewrite Rmult_0_l, !Rplus_0_r. reflexivity.
           ++ intros z. match goal with |- sum _ ?f - sum _ ?h = _ => change (Sg n f - Sg n h = Sg n (fun l => (response n al bet 0 dl g l - response n al bet 2 dl g l) * phi l z)) end. rewrite <- Sg_minus. apply Sg_ext. intros; unfold phi; ring.
           ++ intros z. match goal with |- sum _ ?f - sum _ ?h = _ => change (Sg n f - Sg n h = Sg n (fun l => (response n al bet 1 dl g l - response n al bet 2 dl g l) * phi l z)) end. rewrite <- Sg_minus. apply Sg_ext. intros; unfold phi; ring.
        -- intros ->. unfold g. rewrite loss_response by auto. change (dT B) with (dT P).
           rewrite (Sg_ext n (fun l => cell (IG W X) i l * _) (fun _ => 0)) by (intros l Hl; unfold ths; ring).
           rewrite (Sg_ext n (fun l => cell G i l * _) (fun _ => 0)) by (intros l Hl; unfold thc; ring). rewrite !Sg_zero.
           rewrite (Sg_ext n (fun l => Ex i l * dl l) (fun l => (if Nat.eqb j l then 1 else 0) * Ex i l)) by (intros; unfold dl; ring). rewrite Sg_pick by auto. ring.
    + intros i t Hi Ht O.
      assert (Cl : forall l, (l < n)%nat -> is_RInt (c l) T0 t (RInt (c l) T0 t) /\ c l t + dT P * lam eigs l * RInt (c l) T0 t = Sg n (fun k => cell Igamv l k * c_source W ph co T0 X Ts Bs0 k t)).
      { intros l Hl. destruct (Mc l t Hl Ht O) as (I & H1 & H2). pose proof (is_RInt_unique (V := R_CompleteNormedModule) _ _ _ _ H1) as U. rewrite <- U in H1, H2. auto. }
      set (J := fun j => Sg n (fun l => cell v j l * RInt (c l) T0 t)).
      assert (HJ : forall j, (j < n)%nat -> is_RInt (a j) T0 t (J j)).
      { intros j Hj. apply (Sg_RInt n (fun l s => cell v j l * c l s)). intros l Hl. apply RInt_mull. apply Cl; auto. }
      exists J. split; [exact HJ|].
      set (Bs := map (fun F s => bottom_factor B * F s) Bs0).
      assert (X2 : is_RInt (fun s => p_top ph s) T0 t (total (integrals T0 Ts) t)).
      { eapply RInt_eq; [apply (loads_RInt T0 _ _ Ts t HTs Ht (top_ok B t O))|intros s; rewrite ET; reflexivity|reflexivity]. }
      assert (X3 : is_RInt (fun s => p_bot ph s) T0 t (total (integrals T0 Bs) t)).
      { eapply RInt_eq; [apply (loads_RInt T0 _ _ Bs t (bot_loads B T0 HH Bs0 HBs) Ht (bot_ok B t O))|intros s; unfold Bs; rewrite total_map, EB; reflexivity|reflexivity]. }
      assert (LV : forall s, loss W co m sv cv (p_top ph s) (p_bot ph s) (fun j => soil_coefs 0 a j s) (fun j => soil_coefs 1 a j s) i =
        Sg n (fun j => dT P * Ex i j * a j s) + Sg n (fun l => cell (IG W X) i l * (- s_dv co * (tht W m (s_k co) (s_bottom co) l * p_top ph s + thb m (s_k co) (s_bottom co) l * p_bot ph s)))).
      { intros s. etransitivity; [exact (loss_response (p_top ph s) (p_bot ph s) (fun k => a k s) i SS SC Hi)|].
        rewrite (Sg_ext n (fun l => cell G i l * _) (fun _ => 0)) by (intros l Hl; rewrite ND1 by auto; ring). rewrite Sg_zero.
        rewrite (Sg_ext n (fun l => cell (IG W X) i l * (- s_dv co * _)) (fun l => (-1) * (cell (IG W X) i l * (s_dv co * ths W co m (p_top ph s) (p_bot ph s) l)))) by (intros; unfold ths; ring).
        rewrite Sg_scal. rewrite (Sg_ext n (fun j => dT P * Ex i j * a j s) (fun j => dT P * (Ex i j * a j s))) by (intros; ring). rewrite Sg_scal. ring. }
      exists (stored_value B ph m Gx i a t), (fun s => loss W co m sv cv (p_top ph s) (p_bot ph s) (fun j => soil_coefs 0 a j s) (fun j => soil_coefs 1 a j s) i),
        (Sg n (fun j => dT P * Ex i j * J j) + - flux_src W T0 X Ts Bs0 (s_dv co) (s_k co) (s_bottom co) i t).
      split; [|split; [|split]].
      * apply (stored_ok B ph T0 m HR Em Hn HH eigs Igamv (proj1 SN) Le Hnz Ts Bs0 HTs HBs Gx i Hi); auto. intros; apply CG; auto.
      * intros s Hs. apply CL; auto.
      * eapply RInt_eq; [apply (RInt_add (fun s => Sg n (fun j => dT P * Ex i j * a j s)) (fun s => Sg n (fun l => cell (IG W X) i l * (- s_dv co * (tht W m (s_k co) (s_bottom co) l * p_top ph s + thb m (s_k co) (s_bottom co) l * p_bot ph s)))))|intros s; cbv beta; symmetry; apply LV|reflexivity].
        -- apply (Sg_RInt n (fun j s => dT P * Ex i j * a j s) (fun j => dT P * Ex i j * J j)). intros j Hj. apply RInt_mull. auto.
        -- eapply RInt_eq; [apply (Sg_RInt n (fun l s => cell (IG W X) i l * (- s_dv co * (tht W m (s_k co) (s_bottom co) l * p_top ph s + thb m (s_k co) (s_bottom co) l * p_bot ph s)))
             (fun l => cell (IG W X) i l * (- s_dv co * (tht W m (s_k co) (s_bottom co) l * total (integrals T0 Ts) t + thb m (s_k co) (s_bottom co) l * total (integrals T0 Bs) t))))|reflexivity|].
           ++ intros l Hl. do 2 apply RInt_mull. apply RInt_add; apply RInt_mull; auto.
           ++ unfold flux_src. fold P n. change (map (fun (F : R -> R) (s : R) => bottom_factor P * F s) Bs0) with Bs. fold m.
              match goal with |- ?u = ?v => change (@eq R u v) end.
              rewrite (Sg_ext n _ (fun l => (-1) * (cell (IG W X) i l * (s_dv co * (tht W m (s_k co) (s_bottom co) l * total (integrals T0 Ts) t + thb m (s_k co) (s_bottom co) l * total (integrals T0 Bs) t))))) by (intros; ring).
              rewrite Sg_scal. ring.
      * pose proof (modal_to_matrix n (dT P) (cell gam) (cell ig) (cell psi) (cell v) (cell Igamv) (lam eigs) (fun l => c l t) (fun l => RInt (c l) T0 t)
          (fun k => c_source W ph co T0 X Ts Bs0 k t) AI AE AN (fun j Hj => proj2 (Cl j Hj)) i Hi) as MM.
        cbv beta in MM.
        rewrite (Sg_ext n (fun j => cell gam i j * _) (fun j => cutv (Gx i j) * a j t)) in MM by (intros j Hj; rewrite (proj2 (CG i j Hi Hj)); reflexivity).
        rewrite (Sg_ext n (fun j => cell psi i j * _) (fun j => cutv (Ex i j) * J j)) in MM by (intros j Hj; rewrite (CP i j Hi Hj); reflexivity).
        match goal with |- ?l = _ => change (l = Sg n (fun j => (Gx i j - cutv (Gx i j)) * a j t) + dT P * Sg n (fun j => (Ex i j - cutv (Ex i j)) * J j)) end.
        rewrite (Sg_ext n (fun j => (Gx i j - cutv (Gx i j)) * a j t) (fun j => Gx i j * a j t - cutv (Gx i j) * a j t)) by (intros; ring).
        rewrite (Sg_ext n (fun j => (Ex i j - cutv (Ex i j)) * J j) (fun j => Ex i j * J j - cutv (Ex i j) * J j)) by (intros; ring).
        rewrite !Sg_minus.
        rewrite (Sg_ext n (fun j => dT P * Ex i j * J j) (fun j => dT P * (Ex i j * J j))) by (intros; ring). rewrite Sg_scal.
        unfold c_source in MM. rewrite (ND2 i t Hi) in MM. fold m in MM. change (frame (cbase W)) with B in MM.
        assert (SB : stored_value B ph m Gx i a t = Sg n (fun j => Gx i j * a j t) - (surcharge_src ph m i t + bc_src B ph T0 m Ts Bs0 i t)).
        { unfold stored_value, bc_src. cbv zeta beta. change (map (fun (F : R -> R) (s : R) => bottom_factor B * F s) Bs0) with Bs.
          unfold Bs at 1. rewrite total_map. change (fun t0 => bottom_factor B * total Bs0 t0) with (fun t0 => bottom_factor B * total Bs0 t0).
          assert (ET0' : total0 (listed (top_vs_time B)) (top_omega_phase B) = p_top0 ph) by (symmetry; exact ET0).
          rewrite (eq_trans (bot_total0 B T0 Bs0 HBs) (eq_sym EB0)), ET0', <- ET. rewrite Edv, Edh, Efx. cbn [map fold_right]. rewrite EB. change (neig B) with n. change (bottom_factor (frame (cbase W))) with (bottom_factor B). ring. }
        rewrite SB. lra.
Qed.
End Assembly.

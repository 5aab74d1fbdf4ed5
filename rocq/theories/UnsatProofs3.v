(** * Matrices and weak form of the unsaturated problem *)
From Coq Require Import Reals List Arith ZArith Lia Lra Bool Sorted.
From Coquelicot Require Import Coquelicot.
From Verif Require Import Base PiecewiseModel LayersModel SpecPiecewise SpecPiecewiseApi PolyLineModel SpecPolyLine
  SpectralModel SpecSpectral WrapModel SpecWrap WrapProofs PropsWrap LoadModel LoadTrigModel SpecLoad
  SpecSpeccon SpecconModel SpecconProofs SpecconProofs2 SpecconProofs4 SpecconProofs5 SpecGalerkin SpecconProofs6 SpecconProofs7 SpecconProofs8 PolyLineProofs4 PolyLineProofs7 ColumnProofs
  UnsatModel SpecUnsat UnsatProofs UnsatProofs2.
Import ListNotations.
Open Scope R_scope.
Local Notation RI f := (RInt f 0 1).
Local Notation entry := SpecSpectral.entry.

(** ** The change of one pressure, weighted *)
Section Field.
Variables (P : problem) (ph : physics) (m : list R) (c : nat -> R -> R).
Let n := length m.
Let phi (k : nat) (z : R) := sin (nth k m 0 * z).
Variables (f : R -> R) (G : nat -> R) (i : nat).
Hypothesis HG : forall j, (j < n)%nat -> is_RInt (fun z => f z * phi i z * phi j z) 0 1 (G j).
Hypothesis HS : ex_RInt (fun z => f z * top_shape (drn P) z * phi i z) 0 1 /\ ex_RInt (fun z => f z * z * phi i z) 0 1.
Lemma change_RInt t : is_RInt (fun z => f z * (pore P ph m c z t - pore0 P ph z) * phi i z) 0 1 (Sg n (fun j => G j * c j t) + edge m P ph f i t).
Proof using HG HS.
  destruct HS as (I1 & I2).
  pose proof (Sg_RInt n (fun j z => c j t * (f z * phi i z * phi j z)) (fun j => c j t * G j) 0 1
    ltac:(intros k Hk; cbv beta; apply RInt_mull; apply HG; auto)) as X1.
  pose proof (RInt_mulr _ 0 1 (p_top ph t - p_top0 ph) _ (RI_is _ I1)) as X2. pose proof (RInt_mulr _ 0 1 (p_bot ph t - p_bot0 ph) _ (RI_is _ I2)) as X3.
  eapply RInt_eq; [exact (RInt_add _ _ _ _ _ _ X1 (RInt_add _ _ _ _ _ _ X2 X3))| |].
  - intros z. cbv beta. unfold pore, pressure, series, pore0. match goal with |- context [fold_right Rplus 0 (map ?g (seq 0 (length m)))] => change (fold_right Rplus 0 (map g (seq 0 (length m)))) with (Sg n (fun j => c j t * phi j z)) end.
    rewrite (Sg_ext n (fun j => c j t * (f z * phi i z * phi j z)) (fun j => (f z * phi i z) * (c j t * phi j z))) by (intros; ring). rewrite Sg_scal. ring.
  - rewrite (Sg_ext n (fun j => c j t * G j) (fun j => G j * c j t)) by (intros; ring). unfold edge, phi. reflexivity.
Qed.
End Field.
Lemma stress_RInt (L : list depth_load) (m : list R) (f : R -> R) i t :
  (forall d, In d L -> ex_RInt (fun z => f z * mag d z * sin (nth i m 0 * z)) 0 1) ->
  is_RInt (fun z => f z * (applied L z t - applied0 L z) * sin (nth i m 0 * z)) 0 1 (pushed m f L i t).
Proof.
  intros HI. pose proof (is_RInt_fold (fun d z => (amp d t - amp0 d) * (f z * mag d z * sin (nth i m 0 * z))) (fun d => (amp d t - amp0 d) * RI (fun z => f z * mag d z * sin (nth i m 0 * z))) L 0 1
    ltac:(intros d Hd; cbv beta; apply RInt_mull; apply RI_is; apply HI; auto)) as X.
  eapply RInt_eq; [exact X| |].
  - intros z. cbv beta. unfold applied, applied0.
    rewrite (fold_ext _ (fun d => (f z * sin (nth i m 0 * z)) * (amp d t * mag d z - amp0 d * mag d z)) L) by (intros; ring).
    rewrite fold_scal, fold_minus. ring.
  - unfold pushed. apply fold_ext. intros; ring.
Qed.
Lemma blocks_cell n ww wa aw aa i j : (i < 2 * n)%nat -> (j < 2 * n)%nat -> cell (blocks2 n ww wa aw aa) i j =
  if Nat.ltb i n then (if Nat.ltb j n then ww i j else wa i (j - n)%nat) else (if Nat.ltb j n then aw (i - n)%nat j else aa (i - n)%nat (j - n)%nat).
Proof. intros Hi Hj. unfold blocks2. apply cell_table; auto. Qed.
Lemma blocks_ww n ww wa aw aa i j : (i < n)%nat -> (j < n)%nat -> cell (blocks2 n ww wa aw aa) i j = ww i j.
Proof. intros Hi Hj. rewrite blocks_cell by lia. rewrite !(proj2 (Nat.ltb_lt _ _)) by auto. reflexivity. Qed.
Lemma blocks_wa n ww wa aw aa i j : (i < n)%nat -> (j < n)%nat -> cell (blocks2 n ww wa aw aa) i (n + j) = wa i j.
Proof.
  intros Hi Hj. rewrite blocks_cell by lia. rewrite (proj2 (Nat.ltb_lt i n)) by auto. rewrite (proj2 (Nat.ltb_ge (n + j) n)) by lia. f_equal. lia.
Qed.
Lemma blocks_aw n ww wa aw aa i j : (i < n)%nat -> (j < n)%nat -> cell (blocks2 n ww wa aw aa) (n + i) j = aw i j.
Proof.
  intros Hi Hj. rewrite blocks_cell by lia. rewrite (proj2 (Nat.ltb_lt j n)) by auto. rewrite (proj2 (Nat.ltb_ge (n + i) n)) by lia. f_equal. lia.
Qed.
Lemma blocks_aa n ww wa aw aa i j : (i < n)%nat -> (j < n)%nat -> cell (blocks2 n ww wa aw aa) (n + i) (n + j) = aa i j.
Proof.
  intros Hi Hj. rewrite blocks_cell by lia. rewrite !(proj2 (Nat.ltb_ge _ n)) by lia. f_equal; lia.
Qed.
Lemma cutv_neglected' x : neglected x (cutv x - x).
Proof.
  destruct (cutv_neglected x) as (A & B). replace (cutv x - x) with (- (x - cutv x)) by ring. split; [rewrite Rabs_Ropp; auto|]. intros H. rewrite (B H). ring.
Qed.

(** The outflow of a problem with vertical flow alone. *)
Lemma simple_total P ph T0 m Ts Bs0 Px i t J : d_h ph = 0 -> f_vacuum ph = [] -> f_fixed ph = [] -> f_pumps ph = [] ->
  outflow_total P ph T0 m Ts Bs0 Px i t J = dT P * Sg (neig P) (fun j => Px i j * J j) - d_v ph * edge_flow T0 m P Ts Bs0 (f_kv ph) (kv_bottom ph) i t.
Proof.
  intros E1 E2 E3 E4. unfold outflow_total. rewrite E1, E2, E3, E4. cbn [map fold_right].
  rewrite (Sg_ext (neig P) (fun j => dT P * Px i j * J j) (fun j => dT P * (Px i j * J j))) by (intros; ring). rewrite Sg_scal. unfold edge_flow.
  match goal with |- ?u = ?v => change (@eq R u v) end. ring.
Qed.
Lemma simple_facts T0 P ph : represents T0 P ph -> kh P = None -> vacuum_vs_depth P = None -> fixed_ppress P = None -> pumping P = None ->
  d_h ph = 0 /\ f_vacuum ph = [] /\ f_fixed ph = [] /\ f_pumps ph = [].
Proof.
  intros (_ & _ & _ & Hh & _ & _ & _ & Hv & _ & Hf & _ & Hp) E1 E2 E3 E4. rewrite E1 in Hh. rewrite E2 in Hv. rewrite E3 in Hf. rewrite E4 in Hp. cbn in Hf, Hp.
  destruct Hh as (_ & _ & Hh). split; auto. split; [exact Hv|]. split; [inversion Hf; auto|inversion Hp; auto].
Qed.
Lemma firstn_tab (vE : list (list R)) n tvals (c : nat -> R -> R) : tabulates vE (2 * n) tvals c -> tabulates (firstn n vE) n tvals c.
Proof.
  intros (L & Rw & H). split; [rewrite firstn_length; lia|]. split; [intros row Hr; apply Rw; rewrite <- (firstn_skipn n vE); apply in_or_app; auto|].
  intros j i Hj Hi. rewrite <- (H j i) by lia. f_equal. rewrite <- (firstn_skipn n vE) at 2. rewrite app_nth1; auto. rewrite firstn_length. lia.
Qed.
Lemma skipn_tab (vE : list (list R)) n tvals (c : nat -> R -> R) : tabulates vE (2 * n) tvals c -> tabulates (skipn n vE) n tvals (fun j => c (n + j)%nat).
Proof.
  intros (L & Rw & H). split; [rewrite skipn_length; lia|]. split; [intros row Hr; apply Rw; rewrite <- (firstn_skipn n vE); apply in_or_app; auto|].
  intros j i Hj Hi. rewrite <- (H (n + j)%nat i) by lia. f_equal. rewrite <- (firstn_skipn n vE) at 2. rewrite app_nth2; rewrite firstn_length, Nat.min_l by lia; [|lia]. f_equal. lia.
Qed.

Section Assembly.
Variable inv : list (list R) -> result (list (list R)).
Variable eig : list (list R) -> result (list R * list (list R)).
Hypothesis Hinv : inverts inv.
Hypothesis Heg : diagonalises eig.
Variables (U : uproblem) (w a : physics) (sk : skeleton) (T0 : R) (m eigs : list R) (v Igamv : list (list R)).
Let n := u_neig U.
Let nn := (2 * n)%nat.
Hypothesis HR : represents_unsat T0 U w a sk.
Hypothesis Hn : (1 <= n)%nat.
Hypothesis HH : u_H U <> 0.
Hypothesis Hv : u_mvref U <> 0.
Hypothesis Hua : u_ua U <> 0.
Hypothesis Hd : u_dT U <> 0.
Hypothesis HL : loads_seen U.
Hypothesis HI : u_time_independent inv eig U = Ok (m, eigs, v, Igamv).
Hypothesis Hnz0 : forall lam, In lam eigs -> lam <> 0.
Let phi (k : nat) (z : R) := sin (nth k m 0 * z).
Let dphi (k : nat) (z : R) := nth k m 0 * cos (nth k m 0 * z).
Let Gx (c : R -> R) i j : R := RI (fun z => c z * phi i z * phi j z).
Let d := u_ua U * u_mvref U.
Let c_aa (z : R) : R := f_1ka sk z - f_mv a z - f_n sk z * (1 - f_S sk z) / d.
Let c_wa (z : R) : R := f_1kw sk z - f_mv w z.
Let fsn (z : R) : R := f_S sk z * f_n sk z.
Let Pw i j : R := d_v w * RI (fun z => f_kv w z * dphi i z * dphi j z) / u_dT U.
Let Pa i j : R := d_v a * RI (fun z => f_kv a z * dphi i z * dphi j z) / u_dT U.

Lemma u_m : u_make_m U = Ok m.
Proof using HI. unfold u_time_independent in HI. destruct (u_make_m U) as [m'|]; cbn [bind] in HI; [|discriminate].
  destruct (u_make_gam U m') as [gm|]; cbn [bind] in HI; [|discriminate].
  destruct (make_eigs_and_v inv eig gm (u_make_psi U m')) as [[[? ?] ?]|]; cbn [bind] in HI; [|discriminate]. congruence.
Qed.
Lemma w_m : make_m (water U) = Ok m. Proof using HI. exact u_m. Qed.
Lemma a_m : make_m (air U) = Ok m. Proof using HI. exact u_m. Qed.
Lemma af_cell c f i j : depth_profile 0 1 c f -> (i < n)%nat -> (j < n)%nat ->
  cell (pdim1sin_af_linear (u_im U) m c) i j = Gx f i j /\ is_RInt (fun z => f z * phi i z * phi j z) 0 1 (Gx f i j).
Proof using HI Hn. clear HR HL Hnz0.
  intros Pc Hi Hj. destruct (m_facts (water U) m w_m Hn) as (L & _ & Ev & _). change (neig (water U)) with n in L.
  pose proof (C97_af (u_im U) m 0 1 c f i j Pc Ev ltac:(lia) ltac:(lia)) as X.
  assert (E : Gx f i j = entry (pdim1sin_af_linear (u_im U) m c) i j) by (apply (is_RInt_unique (V := R_CompleteNormedModule)); exact X).
  split; [symmetry; exact E|]. rewrite E. exact X.
Qed.
Lemma D_cell (P : problem) (ph : physics) k i j : depth_profile 0 1 k (f_kv ph) -> (i < n)%nat -> (j < n)%nat ->
  cell (pdim1sin_D_aDf_linear (u_im U) m k) i j = - RI (fun z => f_kv ph z * dphi i z * dphi j z) /\
  is_RInt (fun z => f_kv ph z * dphi i z * dphi j z) 0 1 (RI (fun z => f_kv ph z * dphi i z * dphi j z)).
Proof using HI Hn. clear HR HL Hnz0.
  intros Pc Hi Hj. destruct (m_facts (water U) m w_m Hn) as (L & _ & Ev & _). change (neig (water U)) with n in L.
  pose proof (C97_D_aDf (u_im U) m 0 1 k (f_kv ph) i j Pc Ev ltac:(lia) ltac:(lia)) as X.
  apply (RInt_mull _ 0 1 (-1)) in X.
  assert (X' : is_RInt (fun z => f_kv ph z * dphi i z * dphi j z) 0 1 (- entry (pdim1sin_D_aDf_linear (u_im U) m k) i j)).
  { eapply RInt_eq; [exact X| |].
    - intros z. cbv beta. unfold dphi. ring.
    - ring. }
  pose proof (is_RInt_unique (V := R_CompleteNormedModule) _ _ _ _ X') as E. split; [|rewrite E; exact X'].
  rewrite E. change (cell (pdim1sin_D_aDf_linear (u_im U) m k) i j) with (entry (pdim1sin_D_aDf_linear (u_im U) m k) i j). ring.
Qed.
(** What the program has computed before the loads are known. *)
Lemma u_pieces : exists gam psi ig, square nn gam /\ square nn psi /\ square nn ig /\ square nn v /\ square nn Igamv /\ length eigs = nn /\
  (forall i j, (i < n)%nat -> (j < n)%nat ->
    cell gam i j = cutv (Gx (f_mv w) i j) /\ cell gam i (n + j) = cutv (Gx c_wa i j) /\
    cell gam (n + i) j = cutv (Gx (f_mv a) i j) /\ cell gam (n + i) (n + j) = cutv (Gx c_aa i j) /\
    is_RInt (fun z => f_1kw sk z * phi i z * phi j z) 0 1 (Gx (f_1kw sk) i j) /\ is_RInt (fun z => f_1ka sk z * phi i z * phi j z) 0 1 (Gx (f_1ka sk) i j) /\
    is_RInt (fun z => f_mv w z * phi i z * phi j z) 0 1 (Gx (f_mv w) i j) /\ is_RInt (fun z => f_mv a z * phi i z * phi j z) 0 1 (Gx (f_mv a) i j) /\
    is_RInt (fun z => f_n sk z * phi i z * phi j z) 0 1 (Gx (f_n sk) i j) /\ is_RInt (fun z => fsn z * phi i z * phi j z) 0 1 (Gx fsn i j) /\
    is_RInt (fun z => c_wa z * phi i z * phi j z) 0 1 (Gx c_wa i j) /\ is_RInt (fun z => c_aa z * phi i z * phi j z) 0 1 (Gx c_aa i j) /\
    Gx c_wa i j = Gx (f_1kw sk) i j - Gx (f_mv w) i j /\ Gx c_aa i j = Gx (f_1ka sk) i j - Gx (f_mv a) i j - Gx (f_n sk) i j / d + Gx fsn i j / d) /\
  (forall i j, (i < n)%nat -> (j < n)%nat -> outflow_entry (water U) w m i j (Pw i j) /\ outflow_entry (air U) a m i j (Pa i j) /\
    cell psi i j = - Pw i j /\ cell psi i (n + j) = 0 /\ cell psi (n + i) j = 0 /\ cell psi (n + i) (n + j) = - Pa i j) /\
  (forall i j, (i < nn)%nat -> (j < nn)%nat -> Sg nn (fun k => cell gam i k * cell ig k j) = if Nat.eqb i j then 1 else 0) /\
  (forall i j, (i < nn)%nat -> (j < nn)%nat -> Sg nn (fun k => Sg nn (fun p => cell ig i p * cell psi p k) * cell v k j) = cell v i j * lam eigs j) /\
  (forall i j, (i < nn)%nat -> (j < nn)%nat -> Sg nn (fun k => Sg nn (fun p => cell gam i p * cell v p k) * cell Igamv k j) = if Nat.eqb i j then 1 else 0).
Proof using Hinv Heg HR Hn Hd HI Hua Hv.
  pose proof u_m as Em. pose proof HI as E. unfold u_time_independent in E. rewrite Em in E. cbn [bind] in E.
  pose proof HR as (RW & RA & Es & W & P1 & P2 & P3 & P4). pose proof RW as (_ & Qw & Kw & _ & _ & _ & _ & _ & _ & Fw & _). pose proof RA as (_ & Qa & Ka & _ & _ & _ & _ & _ & _ & Fa & _).
  cbn [kv dTv mv water air] in Kw, Ka, Qw, Qa. destruct Kw as (Kw & _ & Dw). destruct Ka as (Ka & _ & Da).
  destruct (m_facts (water U) m w_m Hn) as (L & _ & Ev & _). change (neig (water U)) with n in L.
  destruct (C97_abf (u_im U) m 0 1 (u_n U) (u_S U) (f_n sk) (f_S sk) P3 P4 ltac:(apply (u_sep U w a sk T0 HR); intros p [<-|[<-|[]]]; cbn; tauto) Ev) as (sn & Esn & Hsn).
  assert (EG : exists gam, u_make_gam U m = Ok gam /\ gam = cut (blocks2 n (cell (pdim1sin_af_linear (u_im U) m (m2w U)))
      (fun i j => cell (pdim1sin_af_linear (u_im U) m (m1kw U)) i j - cell (pdim1sin_af_linear (u_im U) m (m2w U)) i j) (cell (pdim1sin_af_linear (u_im U) m (m2a U)))
      (fun i j => cell (pdim1sin_af_linear (u_im U) m (m1ka U)) i j - cell (pdim1sin_af_linear (u_im U) m (m2a U)) i j - cell (pdim1sin_af_linear (u_im U) m (u_n U)) i j / d + cell sn i j / d))).
  { unfold u_make_gam. rewrite Esn. cbn [bind]. eexists. split; reflexivity. }
  destruct EG as (gam & EG & Egam). rewrite EG in E. cbn [bind] in E.
  remember (u_make_psi U m) as psi eqn:Epsi. unfold make_eigs_and_v in E. destruct (inv gam) as [ig|] eqn:Eig; cbn [bind] in E; [|discriminate].
  destruct (eig (dot_mm ig psi)) as [[w' V]|] eqn:Ew; cbn [bind fst snd] in E; [|discriminate].
  destruct (inv (dot_mm gam V)) as [igv|] eqn:Eigv; cbn [bind] in E; [|discriminate].
  injection E as E2 E3 E4. subst w' V igv.
  assert (SG : square nn gam) by (rewrite Egam; apply cut_square; apply table_square).
  assert (SP : square nn psi) by (rewrite Epsi; apply table_square).
  assert (Hnn : (1 <= nn)%nat) by (unfold nn; lia).
  destruct (Hinv _ _ Eig) as (SI & HIc). rewrite (proj1 SG) in SI, HIc.
  destruct (Heg _ _ _ Ew) as (SV & Lw & HE). pose proof (square_dot nn ig psi SI SP Hnn) as SD. rewrite (proj1 SD) in SV, Lw, HE.
  destruct (Hinv _ _ Eigv) as (SN & HN). pose proof (square_dot nn _ v SG SV Hnn) as SD2. rewrite (proj1 SD2) in SN, HN.
  exists gam, psi, ig. do 6 (split; [assumption|]). split; [|split; [|split; [|split]]].
  - intros i j Hi Hj.
    destruct (af_cell (m1kw U) (f_1kw sk) i j P1 Hi Hj) as (A1 & B1). destruct (af_cell (m1ka U) (f_1ka sk) i j P2 Hi Hj) as (A2 & B2).
    destruct (af_cell (m2w U) (f_mv w) i j Qw Hi Hj) as (A3 & B3). destruct (af_cell (m2a U) (f_mv a) i j Qa Hi Hj) as (A4 & B4).
    destruct (af_cell (u_n U) (f_n sk) i j P3 Hi Hj) as (A5 & B5).
    assert (B6' : is_RInt (fun z => fsn z * phi i z * phi j z) 0 1 (cell sn i j)).
    { eapply RInt_eq; [apply (Hsn i j); lia| |reflexivity]. intros z. unfold fsn, phi. ring. }
    assert (A6 : cell sn i j = Gx fsn i j) by (symmetry; apply (is_RInt_unique (V := R_CompleteNormedModule)); exact B6').
    rewrite A6 in B6'.
    assert (B7 : is_RInt (fun z => c_wa z * phi i z * phi j z) 0 1 (Gx (f_1kw sk) i j - Gx (f_mv w) i j)).
    { eapply RInt_eq; [exact (RInt_add _ _ _ _ _ _ B1 (RInt_mull _ _ _ (-1) _ B3))|intros z; cbv beta; unfold c_wa; ring|ring]. }
    assert (A7 : Gx c_wa i j = Gx (f_1kw sk) i j - Gx (f_mv w) i j) by (apply (is_RInt_unique (V := R_CompleteNormedModule)); exact B7).
    assert (B8 : is_RInt (fun z => c_aa z * phi i z * phi j z) 0 1 (Gx (f_1ka sk) i j - Gx (f_mv a) i j - Gx (f_n sk) i j / d + Gx fsn i j / d)).
    { eapply RInt_eq; [exact (RInt_add _ _ _ _ _ _ (RInt_add _ _ _ _ _ _ B2 (RInt_mull _ _ _ (-1) _ B4)) (RInt_add _ _ _ _ _ _ (RInt_mull _ _ _ (- / d) _ B5) (RInt_mull _ _ _ (/ d) _ B6')))| |].
      - intros z; cbv beta; unfold c_aa, fsn, Rdiv; ring.
      - unfold Rdiv; ring. }
    assert (A8 : Gx c_aa i j = Gx (f_1ka sk) i j - Gx (f_mv a) i j - Gx (f_n sk) i j / d + Gx fsn i j / d) by (apply (is_RInt_unique (V := R_CompleteNormedModule)); exact B8).
    rewrite Egam, !cell_cut, blocks_ww, blocks_wa, blocks_aw, blocks_aa, A1, A2, A3, A4, A5, A6 by auto. rewrite <- A7, <- A8. rewrite <- A7 in B7. rewrite <- A8 in B8.
    do 12 (split; [first [reflexivity|assumption]|]). split; reflexivity.
  - intros i j Hi Hj. destruct (D_cell (water U) w (u_kw U) i j Kw Hi Hj) as (A1 & B1). destruct (D_cell (air U) a (u_Da U) i j Ka Hi Hj) as (A2 & B2).
    pose proof RW as (_ & _ & _ & (Zw1 & Zw2 & Zw3) & _). pose proof RA as (_ & _ & _ & (Za1 & Za2 & Za3) & _).
    assert (F1 : f_fixed w = []) by (cbn in Fw; inversion Fw; auto). assert (F2 : f_fixed a = []) by (cbn in Fa; inversion Fa; auto).
    assert (OE : forall (P : problem) (ph : physics), dT P = u_dT U -> f_kh ph = (fun _ => 0) -> f_fixed ph = [] ->
      is_RInt (fun z => f_kv ph z * dphi i z * dphi j z) 0 1 (RI (fun z => f_kv ph z * dphi i z * dphi j z)) -> outflow_entry P ph m i j (d_v ph * RI (fun z => f_kv ph z * dphi i z * dphi j z) / u_dT U)).
    { intros P ph ED EK EF HB. exists (RI (fun z => f_kv ph z * dphi i z * dphi j z)), 0. split; [exact HB|]. split; [apply zero_RInt; intros; rewrite EK; ring|].
      rewrite ED, EF. cbn [map fold_right]. field. auto. }
    split; [apply OE; auto|]. split; [apply OE; auto|].
    rewrite Epsi. unfold u_make_psi. fold n. rewrite blocks_ww, blocks_wa, blocks_aw, blocks_aa, A1, A2 by auto. unfold Pw, Pa. rewrite Dw, Da.
    split; [field; auto|]. split; [reflexivity|]. split; [reflexivity|field; auto].
  - intros i j Hi Hj. apply (HIc i j Hi Hj).
  - intros i j Hi Hj. pose proof (HE i j Hi Hj) as X. etransitivity; [|exact X]. apply Sg_ext. intros k Hk.
    change (coef (dot_mm ig psi) i k) with (cell (dot_mm ig psi) i k). rewrite (cell_dot nn) by auto. reflexivity.
  - intros i j Hi Hj. pose proof (HN i j Hi Hj) as X. etransitivity; [|exact X]. apply Sg_ext. intros k Hk.
    change (coef (dot_mm gam v) i k) with (cell (dot_mm gam v) i k). rewrite (cell_dot nn) by auto. reflexivity.
Qed.
Lemma shape_at P f i : length m = n -> shape_ints nn (m_block m) P f -> (i < n)%nat ->
  ex_RInt (fun z => f z * top_shape (drn P) z * sin (nth i m 0 * z)) 0 1 /\ ex_RInt (fun z => f z * z * sin (nth i m 0 * z)) 0 1.
Proof using. clear. intros L H Hi. specialize (H i ltac:(unfold nn; lia)). cbv zeta beta in H. rewrite (mm_water U m L i Hi) in H. exact H. Qed.
Lemma dTw_nonzero : dTw U <> 0.
Proof using Hinv Heg HR Hn Hd HI Hua Hv Hnz0.
  intros Z0. destruct u_pieces as (gam & psi & ig & SG & SP & SI & SV & SN & Le & CG & CP & AI & AE & AN).
  assert (Hn0 : (0 < nn)%nat) by (unfold nn; lia).
  assert (PZ : forall k, (k < nn)%nat -> cell psi 0 k = 0).
  { intros k Hk. pose proof HR as (RW & _). pose proof RW as (_ & _ & (_ & _ & Dw) & _). cbn [water dTv] in Dw.
    destruct (Nat.lt_ge_cases k n) as [Hk'|Hk'].
    - destruct (CP 0%nat k ltac:(lia) Hk') as (_ & _ & C1 & _). rewrite C1. unfold Pw. rewrite Dw, Z0. unfold Rdiv. ring.
    - destruct (CP 0%nat (k - n)%nat ltac:(lia) ltac:(unfold nn in Hk; lia)) as (_ & _ & _ & C2 & _). replace k with (n + (k - n))%nat by lia. exact C2. }
  assert (GV : forall k, (k < nn)%nat -> Sg nn (fun p => cell gam 0 p * cell v p k) = 0).
  { intros k Hk. apply (Rmult_eq_reg_r (lam eigs k)); [|apply Hnz0; unfold lam; apply nth_In; lia]. rewrite Rmult_0_l.
    transitivity (Sg nn (fun p => cell gam 0 p * Sg nn (fun l => Sg nn (fun q => cell ig p q * cell psi q l) * cell v l k))).
    { rewrite Rmult_comm, <- Sg_scal. apply Sg_ext. intros p Hp. rewrite (AE p k Hp Hk). ring. }
    transitivity (Sg nn (fun l => cell v l k * Sg nn (fun q => Sg nn (fun p => cell gam 0 p * cell ig p q) * cell psi q l))).
    { rewrite (Sg_ext _ _ (fun p => Sg nn (fun l => cell gam 0 p * (Sg nn (fun q => cell ig p q * cell psi q l) * cell v l k)))) by (intros; symmetry; apply Sg_scal).
      rewrite Sg_swap. apply Sg_ext. intros l Hl.
      rewrite (Sg_ext _ _ (fun p => cell v l k * Sg nn (fun q => cell gam 0 p * cell ig p q * cell psi q l))).
      - rewrite Sg_scal. f_equal. rewrite Sg_swap. apply Sg_ext. intros q Hq. rewrite Rmult_comm, <- Sg_scal. apply Sg_ext. intros; ring.
      - intros p Hp. rewrite (Sg_ext _ (fun q => cell gam 0 p * cell ig p q * cell psi q l) (fun q => cell gam 0 p * (cell ig p q * cell psi q l))) by (intros; ring).
        rewrite Sg_scal. ring. }
    rewrite (Sg_ext _ _ (fun _ => 0)); [apply Sg_zero|]. intros l Hl.
    rewrite (Sg_ext _ _ (fun _ => 0)); [rewrite Sg_zero; ring|]. intros q Hq. rewrite AI by auto.
    destruct q as [|q]; cbn [Nat.eqb]; [rewrite PZ by auto|]; ring. }
  specialize (AN 0%nat 0%nat Hn0 Hn0). rewrite Nat.eqb_refl in AN.
  rewrite (Sg_ext _ _ (fun _ => 0)) in AN; [rewrite Sg_zero in AN; lra|]. intros k Hk. rewrite GV by auto. ring.
Qed.
Theorem u_solution : exists cw ca, (forall tvals, exists vE, u_solve inv eig U tvals = Ok (m, vE) /\
    tabulates (water_part U vE) n tvals cw /\ tabulates (air_part U vE) n tvals ca) /\ unsat_solution U w a sk T0 m cw ca n.
Proof using Hinv Heg HR Hn HH Hv Hua Hd HL HI Hnz0.
  destruct u_pieces as (gam & psi & ig & SG & SP & SI & SV & SN & Le & CG & CP & AI & AE & AN).
  destruct (m_facts (water U) m w_m Hn) as (Lm & Nm & _ & Hdrn & _). change (neig (water U)) with n in Lm.
  assert (Hnz : forall lam, In lam eigs -> u_dT U * lam <> 0) by (intros lam Hl; apply Rmult_integral_contrapositive_currified; auto).
  pose proof HR as (RW & RA & Es & W & P1 & P2 & P3 & P4).
  pose proof RW as (_ & _ & _ & _ & (Tw & HTw & ETw & ETw0) & (Bw & HBw & EBw & EBw0) & _).
  pose proof RA as (_ & _ & _ & _ & (Ta & HTa & ETa & ETa0) & (Ba & HBa & EBa & EBa0) & _).
  cbn [top_vs_time top_omega_phase bot_vs_time bot_omega_phase water air] in HTw, ETw0, HBw, EBw0, HTa, ETa0, HBa, EBa0.
  destruct (all_sources U w a sk T0 eigs Igamv m (proj1 SN) Le Hnz Lm Nm HR HH (conj HL dTw_nonzero) Tw Bw Ta Ba HTw HBw HTa HBa ETw ETw0 EBw EBw0 ETa ETa0 EBa EBa0) as (c & Mc & Hc).
  destruct (surcharge_part U w a sk T0 eigs Igamv m (proj1 SN) Le Hnz Lm Nm HR) as (XS1 & XS2 & _).
  destruct (bc_part U w a sk T0 eigs Igamv m (proj1 SN) Le Hnz Lm Nm HR HH (conj HL dTw_nonzero) Tw Bw Ta Ba HTw HBw HTa HBa ETw ETw0 EBw EBw0 ETa ETa0 EBa EBa0) as ((I1 & I2 & I3 & I4 & I5 & I6 & I7 & I8) & _).
  set (A := fun j t => Sg nn (fun l => cell v j l * c l t)).
  exists A, (fun j => A (n + j)%nat). split.
  - intros tvals. destruct (Hc tvals) as (E & EE & (LA & RAw) & CA). exists (dot_mm v E). split.
    + unfold u_solve. rewrite HI. cbn [bind]. rewrite EE. reflexivity.
    + assert (HA : length (hd [] E) = length tvals) by (destruct E as [|r E]; [cbn in LA; lia|apply RAw; left; auto]).
      assert (TT : tabulates (dot_mm v E) nn tvals A).
      { pose proof (dot_mm_shape v E) as (D1 & D2). rewrite HA in D2. destruct SV as (LV & RV). rewrite LV in D1.
        split; [exact D1|]. split; [exact D2|]. intros j i Hj Hi.
        change (nth i (nth j (dot_mm v E) []) 0) with (cell (dot_mm v E) j i). rewrite cell_dot_mm by lia. rewrite LA. apply Sg_ext. intros k Hk. rewrite CA by auto. reflexivity. }
      split; [apply firstn_tab; exact TT|apply (skipn_tab _ n tvals A); exact TT].
  - exists (fun i j => cutv (Gx (f_mv w) i j) - Gx (f_mv w) i j), (fun i j => cutv (Gx c_wa i j) - Gx c_wa i j), (fun i j => cutv (Gx (f_mv a) i j) - Gx (f_mv a) i j),
      (fun i j => cutv (Gx c_aa i j) - Gx c_aa i j). split.
    + intros i j Hi Hj. destruct (CG i j Hi Hj) as (_ & _ & _ & _ & _ & _ & B3 & B4 & _ & _ & B7 & B8 & _).
      split; [exists (Gx (f_mv w) i j)|split; [exists (Gx c_wa i j)|split; [exists (Gx (f_mv a) i j)|exists (Gx c_aa i j)]]]; (split; [assumption|apply cutv_neglected']).
    + intros i t Hi Ht O.
      assert (Cl : forall l, (l < nn)%nat -> is_RInt (c l) T0 t (RInt (c l) T0 t) /\ c l t + u_dT U * lam eigs l * RInt (c l) T0 t = Sg nn (fun k => cell Igamv l k * u_source U w a sk T0 m Tw Bw Ta Ba k t)).
      { intros l Hl. destruct (Mc l t Hl Ht O) as (I & H1 & H2). pose proof (is_RInt_unique (V := R_CompleteNormedModule) _ _ _ _ H1) as Un. rewrite <- Un in H1, H2. auto. }
      set (J := fun j => Sg nn (fun l => cell v j l * RInt (c l) T0 t)).
      assert (HJ : forall j, is_RInt (A j) T0 t (J j)).
      { intros j. apply (Sg_RInt nn (fun l s => cell v j l * c l s)). intros l Hl. apply RInt_mull. apply Cl; auto. }
      pose proof (modal_to_matrix nn (u_dT U) (cell gam) (cell ig) (cell psi) (cell v) (cell Igamv) (lam eigs) (fun l => c l t) (fun l => RInt (c l) T0 t)
          (fun k => u_source U w a sk T0 m Tw Bw Ta Ba k t) AI AE AN (fun j Hj => proj2 (Cl j Hj))) as MM. cbv beta in MM.
      assert (Split : forall f, Sg nn f = Sg n f + Sg n (fun k => f (n + k)%nat)) by (intros f; unfold nn; replace (2 * n)%nat with (n + n)%nat by lia; apply Sg_app).
      assert (St : forall f, (forall d0 k, In d0 (f_surcharge w) -> (k < nn)%nat -> ex_RInt (fun z => f z * mag d0 z * sin (nth k (m_block m) 0 * z)) 0 1) ->
        is_RInt (fun z => f z * stress_change w z t * phi i z) 0 1 (pushed m f (f_surcharge w) i t)).
      { intros f Hf. apply (stress_RInt (f_surcharge w) m f i t). intros d0 Hd0. specialize (Hf d0 i Hd0 ltac:(unfold nn; lia)). rewrite (mm_water U m Lm i Hi) in Hf. exact Hf. }
      assert (Ch : forall (P : problem) (ph : physics) (b : nat -> R -> R) f, (forall j, (j < n)%nat -> is_RInt (fun z => f z * phi i z * phi j z) 0 1 (Gx f i j)) -> shape_ints nn (m_block m) P f ->
        is_RInt (fun z => f z * (pore P ph m b z t - pore0 P ph z) * phi i z) 0 1 (Sg n (fun j => Gx f i j * b j t) + edge m P ph f i t)).
      { intros P ph b f Hf Hs. pose proof (change_RInt P ph m b f (Gx f i) i) as X. cbv zeta in X. rewrite Lm in X. apply X; [exact Hf|]. apply (shape_at P f i Lm Hs Hi). }
      destruct (simple_facts T0 (water U) w RW eq_refl eq_refl eq_refl eq_refl) as (W1 & W2 & W3 & W4).
      destruct (simple_facts T0 (air U) a RA eq_refl eq_refl eq_refl eq_refl) as (A1 & A2 & A3 & A4).
      assert (LR : length (repeat (@nil R) n) = n) by apply repeat_length. assert (LE : length (repeat 1 n) = n) by apply repeat_length.
      assert (NE : forall lam, In lam (repeat 1 n) -> u_dT U * lam <> 0) by (intros l Hl; apply repeat_spec in Hl; subst l; rewrite Rmult_1_r; exact Hd).
      assert (K1 : forall j, (j < n)%nat -> is_RInt (fun z => f_1kw sk z * phi i z * phi j z) 0 1 (Gx (f_1kw sk) i j)) by (intros j Hj; destruct (CG i j Hi Hj) as (_ & _ & _ & _ & X & _); exact X).
      assert (K2 : forall j, (j < n)%nat -> is_RInt (fun z => f_1ka sk z * phi i z * phi j z) 0 1 (Gx (f_1ka sk) i j)) by (intros j Hj; destruct (CG i j Hi Hj) as (_ & _ & _ & _ & _ & X & _); exact X).
      assert (K3 : forall j, (j < n)%nat -> is_RInt (fun z => f_mv w z * phi i z * phi j z) 0 1 (Gx (f_mv w) i j)) by (intros j Hj; destruct (CG i j Hi Hj) as (_ & _ & _ & _ & _ & _ & X & _); exact X).
      assert (K4 : forall j, (j < n)%nat -> is_RInt (fun z => f_mv a z * phi i z * phi j z) 0 1 (Gx (f_mv a) i j)) by (intros j Hj; destruct (CG i j Hi Hj) as (_ & _ & _ & _ & _ & _ & _ & X & _); exact X).
      assert (K5 : forall j, (j < n)%nat -> is_RInt (fun z => f_n sk z * phi i z * phi j z) 0 1 (Gx (f_n sk) i j)) by (intros j Hj; destruct (CG i j Hi Hj) as (_ & _ & _ & _ & _ & _ & _ & _ & X & _); exact X).
      assert (K6 : forall j, (j < n)%nat -> is_RInt (fun z => fsn z * phi i z * phi j z) 0 1 (Gx fsn i j)) by (intros j Hj; destruct (CG i j Hi Hj) as (_ & _ & _ & _ & _ & _ & _ & _ & _ & X & _); exact X).
      split.
      * pose proof (St (f_1kw sk) XS1) as Y1.
        pose proof (Ch (air U) a (fun j => A (n + j)%nat) (f_1kw sk) K1 I2) as Y2.
        pose proof (Ch (air U) a (fun j => A (n + j)%nat) (f_mv w) K3 I3) as Y3.
        pose proof (Ch (water U) w A (f_mv w) K3 I1) as Y4.
        eexists. exists (outflow_value (water U) w m Pw i A), (outflow_total (water U) w T0 m Tw Bw Pw i t J). split; [|split; [|split]].
        -- eapply RInt_eq; [exact (RInt_add _ _ _ _ _ _ (RInt_add _ _ _ _ _ _ Y1 (RInt_mull _ _ _ (-1) _ Y2)) (RInt_add _ _ _ _ _ _ Y3 (RInt_mull _ _ _ (-1) _ Y4)))| |reflexivity].
           intros z. cbv beta. unfold water_gain, air_change, water_change, air_pressure, water_pressure, phi. ring.
        -- intros s Hs. apply (outflow_ok (water U) w T0 m RW w_m Hn HH (repeat 1 n) (repeat [] n) LR LE NE Tw Bw HTw HBw Pw i Hi). intros j Hj. exact (proj1 (CP i j Hi Hj)).
        -- apply (outflow_RInt (water U) w T0 m RW HH Tw Bw HTw HBw ETw EBw Pw i A t J Ht (proj1 O)). intros; apply HJ.
        -- rewrite simple_total by auto. change (neig (water U)) with n. change (dT (water U)) with (u_dT U).
           pose proof (MM i ltac:(unfold nn; lia)) as M. unfold u_source in M. fold n in M. rewrite (proj2 (Nat.ltb_lt i n) Hi) in M. rewrite !Split in M. unfold w_source in M.
           rewrite (Sg_ext n (fun j => cell gam i j * _) (fun j => cutv (Gx (f_mv w) i j) * A j t)) in M by (intros j Hj; rewrite (proj1 (CG i j Hi Hj)); reflexivity).
           rewrite (Sg_ext n (fun j => cell gam i (n + j) * _) (fun j => cutv (Gx c_wa i j) * A (n + j)%nat t)) in M by (intros j Hj; destruct (CG i j Hi Hj) as (_ & -> & _); reflexivity).
           rewrite (Sg_ext n (fun j => cell psi i j * _) (fun j => (-1) * (Pw i j * J j))) in M by (intros j Hj; destruct (CP i j Hi Hj) as (_ & _ & -> & _); change (Sg nn (fun l => cell v j l * RInt (c l) T0 t)) with (J j); ring).
           rewrite (Sg_ext n (fun j => cell psi i (n + j) * _) (fun j => 0)) in M by (intros j Hj; destruct (CP i j Hi Hj) as (_ & _ & _ & -> & _); ring).
           rewrite Sg_zero, Sg_scal in M.
           rewrite (Sg_ext n (fun j => (cutv (Gx (f_mv w) i j) - _) * _) (fun j => cutv (Gx (f_mv w) i j) * A j t - Gx (f_mv w) i j * A j t)) by (intros; ring).
           rewrite (Sg_ext n (fun j => (cutv (Gx c_wa i j) - _) * _) (fun j => cutv (Gx c_wa i j) * A (n + j)%nat t - (Gx (f_1kw sk) i j * A (n + j)%nat t - Gx (f_mv w) i j * A (n + j)%nat t)))
             by (intros j Hj; destruct (CG i j Hi Hj) as (_ & _ & _ & _ & _ & _ & _ & _ & _ & _ & _ & _ & E7 & _); rewrite E7 at 2; ring).
           rewrite !Sg_minus. lra.
      * pose proof (St (f_1ka sk) XS2) as Y1.
        pose proof (Ch (air U) a (fun j => A (n + j)%nat) (f_1ka sk) K2 I5) as Y2.
        pose proof (Ch (air U) a (fun j => A (n + j)%nat) (f_mv a) K4 I6) as Y3.
        pose proof (Ch (water U) w A (f_mv a) K4 I4) as Y4.
        pose proof (Ch (air U) a (fun j => A (n + j)%nat) (f_n sk) K5 I7) as Y5.
        pose proof (Ch (air U) a (fun j => A (n + j)%nat) fsn K6 I8) as Y6.
        eexists. exists (outflow_value (air U) a m Pa i (fun j => A (n + j)%nat)), (outflow_total (air U) a T0 m Ta Ba Pa i t (fun j => J (n + j)%nat)). split; [|split; [|split]].
        -- eapply RInt_eq; [exact (RInt_add _ _ _ _ _ _ (RInt_add _ _ _ _ _ _ (RInt_add _ _ _ _ _ _ Y1 (RInt_mull _ _ _ (-1) _ Y2)) (RInt_add _ _ _ _ _ _ Y3 (RInt_mull _ _ _ (-1) _ Y4)))
              (RInt_add _ _ _ _ _ _ (RInt_mull _ _ _ (/ d) _ Y5) (RInt_mull _ _ _ (- / d) _ Y6)))| |reflexivity].
           intros z. cbv beta. unfold air_gain, air_change, water_change, air_pressure, water_pressure, phi, fsn. fold d. unfold Rdiv. ring.
        -- intros s Hs. apply (outflow_ok (air U) a T0 m RA a_m Hn HH (repeat 1 n) (repeat [] n) LR LE NE Ta Ba HTa HBa Pa i Hi). intros j Hj. exact (proj1 (proj2 (CP i j Hi Hj))).
        -- apply (outflow_RInt (air U) a T0 m RA HH Ta Ba HTa HBa ETa EBa Pa i (fun j => A (n + j)%nat) t (fun j => J (n + j)%nat) Ht (proj2 O)). intros; apply HJ.
        -- rewrite simple_total by auto. change (neig (air U)) with n. change (dT (air U)) with (u_dT U).
           pose proof (MM (n + i)%nat ltac:(unfold nn; lia)) as M. unfold u_source in M. fold n in M. rewrite (proj2 (Nat.ltb_ge (n + i) n)) in M by lia. replace (n + i - n)%nat with i in M by lia.
           rewrite !Split in M. unfold a_source in M. rewrite (Rmult_comm (u_mvref U) (u_ua U)) in M. fold d in M.
           rewrite (Sg_ext n (fun j => cell gam (n + i) j * _) (fun j => cutv (Gx (f_mv a) i j) * A j t)) in M by (intros j Hj; destruct (CG i j Hi Hj) as (_ & _ & -> & _); reflexivity).
           rewrite (Sg_ext n (fun j => cell gam (n + i) (n + j) * _) (fun j => cutv (Gx c_aa i j) * A (n + j)%nat t)) in M by (intros j Hj; destruct (CG i j Hi Hj) as (_ & _ & _ & -> & _); reflexivity).
           rewrite (Sg_ext n (fun j => cell psi (n + i) j * _) (fun j => 0)) in M by (intros j Hj; destruct (CP i j Hi Hj) as (_ & _ & _ & _ & -> & _); ring).
           rewrite (Sg_ext n (fun j => cell psi (n + i) (n + j) * _) (fun j => (-1) * (Pa i j * J (n + j)%nat))) in M by (intros j Hj; destruct (CP i j Hi Hj) as (_ & _ & _ & _ & _ & ->); change (Sg nn (fun l => cell v (n + j) l * RInt (c l) T0 t)) with (J (n + j)%nat); ring).
           rewrite Sg_zero, Sg_scal in M.
           rewrite (Sg_ext n (fun j => (cutv (Gx (f_mv a) i j) - _) * _) (fun j => cutv (Gx (f_mv a) i j) * A j t - Gx (f_mv a) i j * A j t)) by (intros; ring).
           rewrite (Sg_ext n (fun j => (cutv (Gx c_aa i j) - _) * _) (fun j => cutv (Gx c_aa i j) * A (n + j)%nat t - (Gx (f_1ka sk) i j * A (n + j)%nat t - Gx (f_mv a) i j * A (n + j)%nat t
                - / d * (Gx (f_n sk) i j * A (n + j)%nat t) - - / d * (Gx fsn i j * A (n + j)%nat t))))
             by (intros j Hj; destruct (CG i j Hi Hj) as (_ & _ & _ & _ & _ & _ & _ & _ & _ & _ & _ & _ & _ & E8); rewrite E8 at 2; unfold Rdiv; ring).
           rewrite !Sg_minus, !Sg_scal. change (fun z => f_S sk z * f_n sk z) with fsn in M. lra.
Qed.
End Assembly.

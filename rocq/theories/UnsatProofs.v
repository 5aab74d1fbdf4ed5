(** * Boundary terms restricted to the water's or the air's rows *)
From Coq Require Import Reals List Arith ZArith Lia Lra Bool Sorted.
From Coquelicot Require Import Coquelicot.
From Verif Require Import Base PiecewiseModel LayersModel SpecPiecewise SpecPiecewiseApi PolyLineModel SpecPolyLine
  SpectralModel SpecSpectral WrapModel SpecWrap WrapProofs PropsWrap LoadModel LoadTrigModel SpecLoad
  SpecSpeccon SpecconModel SpecconProofs SpecconProofs2 SpecconProofs4 SpecconProofs5 SpecGalerkin SpecconProofs6 UnsatModel.
Import ListNotations.
Open Scope R_scope.
Local Notation RI f := (RInt f 0 1).

Definition mask (keep : nat -> bool) (A : list (list R)) : list (list R) :=
  map (fun row : list R => map (fun k => if keep k then nth k row 0 else 0) (seq 0 (length row))) A.
Lemma nth_masked (keep : nat -> bool) (row : list R) (k : nat) : nth k (map (fun k => if keep k then nth k row 0 else 0) (seq 0 (length row))) 0 = if keep k then nth k row 0 else 0.
Proof.
  destruct (Nat.lt_ge_cases k (length row)).
  - rewrite (nth_map_in _ _ _ _ 0%nat) by (rewrite seq_length; auto). rewrite seq_nth by auto. reflexivity.
  - rewrite nth_overflow by (rewrite map_length, seq_length; auto). rewrite nth_overflow by auto. destruct (keep k); reflexivity.
Qed.
Lemma item_zero_at keep th k : item (zero_at keep th) k = if keep k then item th k else 0.
Proof. unfold item, zero_at. apply (nth_masked keep th k). Qed.
Lemma zero_at_len keep th : length (zero_at keep th) = length th.
Proof. unfold zero_at. rewrite map_length, seq_length. reflexivity. Qed.
Lemma cell_mask keep A i k : cell (mask keep A) i k = if keep k then cell A i k else 0.
Proof.
  unfold cell, mask. destruct (Nat.lt_ge_cases i (length A)).
  - rewrite (nth_map_in _ _ _ _ []) by auto. apply nth_masked.
  - rewrite !(nth_overflow _ []) by (rewrite ?map_length; auto). destruct k, (keep _); reflexivity.
Qed.
Lemma mask_len keep A : length (mask keep A) = length A. Proof. apply map_length. Qed.
Lemma dot_mv_mask keep A th : dot_mv A (zero_at keep th) = dot_mv (mask keep A) th.
Proof.
  unfold dot_mv, mask. rewrite map_map, zero_at_len. apply map_ext. intros row. f_equal. apply map_ext. intros k.
  rewrite item_zero_at, nth_masked. destruct (keep k); ring.
Qed.
Lemma add_loads_mask keep n nt Ef A th l acc : add_loads n nt Ef A (zero_at keep th) l acc = add_loads n nt Ef (mask keep A) th l acc.
Proof. revert acc. induction l as [|[p om] l IH]; intros acc; [reflexivity|]. cbn [add_loads]. rewrite dot_mv_mask. destruct (Ef p om); cbn [bind]; auto. Qed.
Lemma bc_terms_mask keep n nt Ef A tt1 tt2 top bot tom bom :
  bc_terms n nt Ef A (fun u => kept_theta keep (tt1 u)) (fun u => kept_theta keep (tt2 u)) top bot tom bom = bc_terms n nt Ef (mask keep A) tt1 tt2 top bot tom bom.
Proof.
  unfold bc_terms, kept_theta.
  destruct top as [l|]; cbn [bind].
  - destruct (tt1 tt) as [x|]; cbn [bind]; auto. rewrite add_loads_mask. destruct (add_loads n nt Ef (mask keep A) x _ _); cbn [bind]; auto.
    destruct bot as [l'|]; auto. destruct (tt2 tt) as [y|]; cbn [bind]; auto. apply add_loads_mask.
  - destruct bot as [l'|]; auto. destruct (tt2 tt) as [y|]; cbn [bind]; auto. apply add_loads_mask.
Qed.
Lemma aDfDt_mask keep drn m eigs tvals A a top bot tom bom dT im :
  BC_aDfDt_z keep drn m eigs tvals A a top bot tom bom dT im = BC_aDfDt drn m eigs tvals (mask keep A) a top bot tom bom dT im.
Proof. unfold BC_aDfDt_z, BC_aDfDt. destruct (zdist drn a); cbn [bind]; auto. apply (bc_terms_mask keep _ _ _ _ (fun _ => _) (fun _ => _)). Qed.
Lemma D_aDf_mask keep drn m eigs tvals A a top bot tom bom dT im :
  BC_D_aDf_z keep drn m eigs tvals A a top bot tom bom dT im = BC_D_aDf drn m eigs tvals (mask keep A) a top bot tom bom dT im.
Proof. unfold BC_D_aDf_z, BC_D_aDf. destruct (zdist drn a); cbn [bind]; auto. apply (bc_terms_mask keep _ _ _ _ (fun _ => _) (fun _ => _)). Qed.
Lemma abDfDt_mask keep drn m eigs tvals A a b top bot tom bom dT im :
  BC_abDfDt_z keep drn m eigs tvals A a b top bot tom bom dT im = BC_abDfDt drn m eigs tvals (mask keep A) a b top bot tom bom dT im.
Proof.
  unfold BC_abDfDt_z, BC_abDfDt. destruct (common2 a b) as [[a' b']|]; cbn [bind]; auto. destruct (zdist drn a'); cbn [bind]; auto.
  apply (bc_terms_mask keep _ _ _ _ (fun _ => _) (fun _ => _)).
Qed.
Lemma aDmag_mask keep n nt Ef m A a l acc : aDmag_loop_z keep n nt Ef m A a l acc = aDmag_loop n nt Ef m (mask keep A) a l acc.
Proof.
  revert a acc. induction l as [|[[mt mz] om] l IH]; intros a acc; [reflexivity|]. cbn [aDmag_loop_z aDmag_loop].
  destruct (common2 a mz) as [[a' z']|]; cbn [bind]; auto. unfold kept_theta. destruct (pdim1sin_ab_linear vectorized m a' z'); cbn [bind]; auto.
  rewrite dot_mv_mask. destruct (Ef mt om); cbn [bind]; auto.
Qed.
Lemma aDmagDt_mask keep m eigs tvals A a sz st om dT im :
  aDmagDt_bilinear_z keep m eigs tvals A a sz st om dT im = aDmagDt_bilinear m eigs tvals (mask keep A) a sz st om dT im.
Proof. apply aDmag_mask. Qed.
Lemma contributes_mask n dT T0 ok eigs A keep calc src : contributes n dT T0 ok eigs (mask keep A) calc src ->
  contributes n dT T0 ok eigs A calc (fun k t => if keep k then src k t else 0).
Proof.
  intros (c & M & H). exists c. split; [|exact H]. intros j t Hj Ht Ho. destruct (M j t Hj Ht Ho) as (I & HI & EI). exists I. split; auto.
  rewrite EI. apply Sg_ext. intros k Hk. rewrite cell_mask. destruct (keep k); ring.
Qed.

Section Boundary.
Variables (n : nat) (dT T0 : R) (ok : R -> Prop) (eigs : list R) (Igamv : list (list R)) (m : list R).
Hypothesis HIg : length Igamv = n.
Hypothesis Heig : length eigs = n.
Hypothesis Hnz : forall lam, In lam eigs -> dT * lam <> 0.
Hypothesis Hm : length m = n.
Hypothesis Nm : forall x, In x m -> x <> 0.
Let phi (k : nat) (z : R) := sin (nth k m 0 * z).
Variables (im : impl) (drn : Z) (top bot : option (list points)) (tom bom : om_arg) (Ts Bs : list (R -> R)).
Local Notation contributes' := (contributes n dT T0 ok eigs Igamv).
Hypothesis HT : are_loads T0 (listed top) tom Ts.
Hypothesis HB : are_loads T0 (listed bot) bom Bs.
Hypothesis OT : forall t, ok t -> before_ends (listed top) t.
Hypothesis OB : forall t, ok t -> before_ends (listed bot) t.
Let phiT := top_shape drn.
Lemma BC_abDfDt_contributes d a b f g : depth_profile 0 1 a f -> depth_profile 0 1 b g -> well_separated [a; b] ->
  (forall k, (k < n)%nat -> ex_RInt (fun z => f z * g z * phiT z * phi k z) 0 1 /\ ex_RInt (fun z => f z * g z * z * phi k z) 0 1) /\
  contributes' (fun tvals acc => add_part n (length tvals) d (BC_abDfDt drn m eigs tvals Igamv a b top bot tom bom dT im) acc)
   (fun k t => d * (RI (fun z => f z * g z * phiT z * phi k z) * total (changes (listed top) tom Ts) t + RI (fun z => f z * g z * z * phi k z) * total (changes (listed bot) bom Bs) t)).
Proof using HIg Heig Hnz Hm Nm HT HB OT OB.
  intros Pa Pb W. destruct (slabs2_ok 0 1 a b f g Pa Pb W) as (a' & b' & S' & E1 & _ & _ & _ & _ & _ & Pa' & Pb' & Ia & Ib & _).
  assert (Wa : forall p x, In p [a'; b'] -> In x (px p) -> exists q, In q [a; b] /\ In x (px q)).
  { intros p x Hp Hx. assert (In x (px a ++ px b)) by (destruct Hp as [<-|[<-|[]]]; [apply Ia|apply Ib]; auto).
    apply in_app_or in H. destruct H; [exists a|exists b]; cbn; auto. }
  destruct (zdist_ok drn a' f Pa') as (zd & Ed & Pd & Id). destruct (zbot_ok a' f Pa') as (zb & Eb & Pz & Iz).
  destruct (theta_abc n m Hm Nm a' b' zd f g (top_shape drn) Pa' Pb' Pd) as (v & Ev & Lv & Hv).
  { eapply sep_from; [exact W|]. intros p x [<-|[<-|[<-|[]]]] Hx; [apply (Wa a')|apply (Wa b')|apply (Wa a'); [|apply Id]]; cbn; auto. }
  destruct (theta_abc n m Hm Nm a' b' zb f g (fun z => z) Pa' Pb' Pz) as (w & Ew & Lw & Hw).
  { eapply sep_from; [exact W|]. intros p x [<-|[<-|[<-|[]]]] Hx; [apply (Wa a')|apply (Wa b')|apply (Wa a'); [|apply Iz]]; cbn; auto. }
  split; [intros k Hk; split; [apply Hv; auto|apply Hw; auto]|].
  pose proof (loads_ED n dT T0 ok eigs Igamv HIg Heig Hnz im top tom Ts HT OT) as D1.
  pose proof (loads_ED n dT T0 ok eigs Igamv HIg Heig Hnz im bot bom Bs HB OB) as D2.
  eapply contributes_ext; [apply (bc_contributes n dT T0 ok eigs Igamv HIg (fun tvals => load_ED im eigs tvals dT) d
     (fun _ => pdim1sin_abc_linear vectorized m a' b' zd) (fun _ => zb <- zbot a' ;; pdim1sin_abc_linear vectorized m a' b' zb) top bot tom bom _ _ v w D1 D2); auto; rewrite ?Eb; auto| |].
  - intros tvals acc. unfold BC_abDfDt. rewrite E1. cbn [bind]. rewrite Ed. cbn [bind]. rewrite Hm. reflexivity.
  - intros k t Hk _ _. destruct (Hv k Hk) as (_ & ->). destruct (Hw k Hk) as (_ & ->). reflexivity.
Qed.
End Boundary.

(** ** One phase: the water or the air, as a problem P with loads *)
Section Phase.
Variables (nn : nat) (T0 : R) (ok : R -> Prop) (eigs : list R) (Igamv : list (list R)) (m : list R).
Variables (P : problem) (ph : physics) (Ts Bs0 : list (R -> R)) (keep : nat -> bool).
Hypothesis HIg : length Igamv = nn.
Hypothesis Heig : length eigs = nn.
Hypothesis Hnz : forall lam, In lam eigs -> dT P * lam <> 0.
Hypothesis Hm : length m = nn.
Hypothesis Nm : forall x, In x m -> x <> 0.
Hypothesis HH : Hh P <> 0.
Hypothesis HTs : are_loads T0 (listed (top_vs_time P)) (top_omega_phase P) Ts.
Hypothesis HBs : are_loads T0 (listed (bot_vs_time P)) (bot_omega_phase P) Bs0.
Hypothesis ET : p_top ph = total Ts.
Hypothesis ET0 : p_top0 ph = total0 (listed (top_vs_time P)) (top_omega_phase P).
Hypothesis EB : p_bot ph = (fun t => bottom_factor P * total Bs0 t).
Hypothesis EB0 : p_bot0 ph = bottom_factor P * total0 (listed (bot_vs_time P)) (bot_omega_phase P).
Hypothesis Hok : forall t, ok t -> before_ends (load_tables P) t.
Let phi (k : nat) (z : R) := sin (nth k m 0 * z).
Let dphi (k : nat) (z : R) := nth k m 0 * cos (nth k m 0 * z).
Let st : R := if Z.eqb (drn P) 1 then 0 else -1.
Let Bs := map (fun F s => bottom_factor P * F s) Bs0.
Local Notation contributes' := (contributes nn (dT P) T0 ok eigs Igamv).

Definition shape_ints (c : R -> R) : Prop := forall k, (k < nn)%nat ->
  ex_RInt (fun z => c z * top_shape (drn P) z * phi k z) 0 1 /\ ex_RInt (fun z => c z * z * phi k z) 0 1.
Definition edge (c : R -> R) (k : nat) (t : R) : R :=
  RI (fun z => c z * top_shape (drn P) z * phi k z) * (p_top ph t - p_top0 ph) + RI (fun z => c z * z * phi k z) * (p_bot ph t - p_bot0 ph).
Definition edge_flow (c : R -> R) (cb : R) (k : nat) (t : R) : R :=
  (st * cb * phi k 1 - RI (fun z => c z * st * dphi k z)) * total (integrals T0 Ts) t +
  (1 * cb * phi k 1 - RI (fun z => c z * 1 * dphi k z)) * total (integrals T0 Bs) t.
Lemma top_before t : ok t -> before_ends (listed (top_vs_time P)) t.
Proof using Hok. intros O. exact (top_ok P t (Hok t O)). Qed.
Lemma bot_before t : ok t -> before_ends (listed (normalised_bot P)) t.
Proof using Hok. intros O. exact (bot_ok P t (Hok t O)). Qed.
Lemma top_changes t : total (changes (listed (top_vs_time P)) (top_omega_phase P) Ts) t = p_top ph t - p_top0 ph.
Proof using HTs ET ET0. rewrite (total_changes T0 _ _ Ts t HTs), ET, ET0. reflexivity. Qed.
Lemma bot_changes t : total (changes (listed (normalised_bot P)) (bot_omega_phase P) Bs) t = p_bot ph t - p_bot0 ph.
Proof using HBs EB EB0 HH.
  rewrite (total_changes T0 _ _ Bs t (bot_loads P T0 HH Bs0 HBs)), (bot_total0 P T0 Bs0 HBs), EB, EB0. unfold Bs. rewrite total_map. reflexivity.
Qed.
Lemma phase_aDfDt d c f : depth_profile 0 1 c f -> well_separated [c] ->
  shape_ints f /\ contributes' (fun tvals acc => add_part nn (length tvals) d
      (BC_aDfDt_z keep (drn P) m eigs tvals Igamv c (top_vs_time P) (normalised_bot P) (top_omega_phase P) (bot_omega_phase P) (dT P) (pim P)) acc)
    (fun k t => if keep k then d * edge f k t else 0).
Proof using HIg Heig Hnz Hm Nm HH HTs HBs ET ET0 EB EB0 Hok.
  intros Pc W.
  destruct (BC_aDfDt_contributes nn (dT P) T0 ok eigs (mask keep Igamv) m ltac:(rewrite mask_len; auto) Heig Hnz Hm Nm (pim P) (drn P) (top_vs_time P) (normalised_bot P)
    (top_omega_phase P) (bot_omega_phase P) Ts Bs HTs (bot_loads P T0 HH Bs0 HBs) top_before bot_before d c f Pc W) as (A & K).
  split; [exact A|]. eapply contributes_ext; [apply contributes_mask; exact K| |].
  - intros tvals acc. rewrite aDfDt_mask. reflexivity.
  - intros k t _ _ _. cbv beta. rewrite top_changes, bot_changes. reflexivity.
Qed.
Lemma phase_abDfDt d a b f g : depth_profile 0 1 a f -> depth_profile 0 1 b g -> well_separated [a; b] ->
  shape_ints (fun z => f z * g z) /\ contributes' (fun tvals acc => add_part nn (length tvals) d
      (BC_abDfDt_z keep (drn P) m eigs tvals Igamv a b (top_vs_time P) (normalised_bot P) (top_omega_phase P) (bot_omega_phase P) (dT P) (pim P)) acc)
    (fun k t => if keep k then d * edge (fun z => f z * g z) k t else 0).
Proof using HIg Heig Hnz Hm Nm HH HTs HBs ET ET0 EB EB0 Hok.
  intros Pa Pb W.
  destruct (BC_abDfDt_contributes nn (dT P) T0 ok eigs (mask keep Igamv) m ltac:(rewrite mask_len; auto) Heig Hnz Hm Nm (pim P) (drn P) (top_vs_time P) (normalised_bot P)
    (top_omega_phase P) (bot_omega_phase P) Ts Bs HTs (bot_loads P T0 HH Bs0 HBs) top_before bot_before d a b f g Pa Pb W) as (A & K).
  split; [exact A|]. eapply contributes_ext; [apply contributes_mask; exact K| |].
  - intros tvals acc. rewrite abDfDt_mask. reflexivity.
  - intros k t _ _ _. cbv beta. rewrite top_changes, bot_changes. reflexivity.
Qed.
Lemma phase_D d c f : depth_profile 0 1 c f -> well_separated [c] ->
  contributes' (fun tvals acc => add_part nn (length tvals) d
      (BC_D_aDf_z keep (drn P) m eigs tvals Igamv c (top_vs_time P) (normalised_bot P) (top_omega_phase P) (bot_omega_phase P) (dT P) (pim P)) acc)
    (fun k t => if keep k then d * edge_flow f (vleft c 1) k t else 0).
Proof using HIg Heig Hnz Hm Nm HH HTs HBs Hok.
  intros Pc W.
  destruct (BC_D_contributes nn (dT P) T0 ok eigs (mask keep Igamv) m ltac:(rewrite mask_len; auto) Heig Hnz Hm Nm (pim P) (drn P) (top_vs_time P) (normalised_bot P)
    (top_omega_phase P) (bot_omega_phase P) Ts Bs HTs (bot_loads P T0 HH Bs0 HBs) top_before bot_before d c f Pc W) as (A & K).
  eapply contributes_ext; [apply contributes_mask; exact K| |].
  - intros tvals acc. rewrite D_aDf_mask. reflexivity.
  - intros k t _ _ _. reflexivity.
Qed.
(** The surcharge with the coefficient c. *)
Definition pushed (c : R -> R) (L : list depth_load) (k : nat) (t : R) : R :=
  fold_right Rplus 0 (map (fun d => RI (fun z => c z * mag d z * phi k z) * (amp d t - amp0 d)) L).
Lemma phase_surcharge c f sz tt' L : depth_profile 0 1 c f -> well_separated (c :: sz) ->
  surcharge_vs_depth P = Some sz -> surcharge_vs_time P = Some tt' ->
  are_depth_loads T0 (Some sz) (Some tt') (surcharge_omega_phase P) L ->
  (forall d k, In d L -> (k < nn)%nat -> ex_RInt (fun z => f z * mag d z * phi k z) 0 1) /\
  contributes' (fun tvals acc => aDmag_loop_z keep nn (length tvals) (load_ED (pim P) eigs tvals (dT P)) m Igamv c
      (combine (combine tt' sz) (om_list (length tt') (surcharge_omega_phase P))) acc)
    (fun k t => if keep k then pushed f L k t else 0).
Proof using HIg Heig Hnz Hm Nm Hok.
  intros Pc W Es Et (L1 & L2 & F). assert (HIg' : length (mask keep Igamv) = nn) by (rewrite mask_len; auto).
  assert (Osub : forall p t, In p tt' -> ok t -> before_end p t).
  { intros p t Hp O. apply (Hok t O). unfold load_tables. rewrite !in_app_iff, Et. cbn [listed]. auto. }
  assert (F' : List.Forall2 (depth_drives nn (dT P) T0 ok eigs (fun tvals => load_ED (pim P) eigs tvals (dT P)))
     (combine (combine tt' sz) (modulations (length tt') (surcharge_omega_phase P))) (map (fun d => (fun t => amp d t - amp0 d, mag d)) L)).
  { assert (B : forall q, In q (combine (combine tt' sz) (modulations (length tt') (surcharge_omega_phase P))) -> In (fst (fst q)) tt').
    { intros [[p z] o] Hq. apply in_combine_l in Hq. apply in_combine_l in Hq. auto. }
    clear L1 L2. induction F as [|q d l L' (H1 & H2 & H3) F IH]; cbn [map]; constructor.
    - split; cbn [fst snd]; auto. rewrite H2. apply (drives_ED nn (dT P) T0 ok eigs (mask keep Igamv) HIg' Heig Hnz (pim P)); auto.
      intros t. apply Osub. apply B. left; auto.
    - apply IH. intros; apply B; right; auto. }
  destruct (aDmag_contributes nn (dT P) T0 ok eigs (mask keep Igamv) m HIg' Hm Nm _ f _ _ F' c Pc) as (X1 & X2).
  { eapply sep_from; [exact W|]. intros p x [<-|Hp] Hx; [exists c; cbn; auto|]. exists p. split; auto. right.
    apply in_map_iff in Hp. destruct Hp as ([[p' z] o] & <- & Hq). apply in_combine_l, in_combine_r in Hq. exact Hq. }
  split.
  - intros d k Hd Hk. apply (X1 (fun t => amp d t - amp0 d, mag d) k); auto. apply in_map_iff. exists d; auto.
  - eapply contributes_ext; [apply contributes_mask; exact X2| |].
    + intros tvals acc. rewrite aDmag_mask. reflexivity.
    + intros k t _ _ _. cbv beta. destruct (keep k); auto. rewrite map_map. reflexivity.
Qed.
End Phase.

(** * The weak form of the consolidation equation *)
From Coq Require Import Reals List Arith ZArith Lia Lra Bool Sorted.
From Coquelicot Require Import Coquelicot.
From Verif Require Import Base PiecewiseModel LayersModel SpecPiecewise SpecPiecewiseApi PolyLineModel SpecPolyLine SpectralModel SpecSpectral
  WrapModel SpecWrap LoadModel LoadTrigModel SpecLoad SpecSpeccon SpecconModel SpecconProofs SpecconProofs2 SpecconProofs4 SpecconProofs5 SpecGalerkin SpecconProofs6 SpecconProofs7.
Import ListNotations.
Open Scope R_scope.

Local Notation RI f := (RInt f 0 1).
Lemma Sg_minus n f g : Sg n (fun k => f k - g k) = Sg n f - Sg n g.
Proof.
  rewrite (Sg_ext n _ (fun k => f k + (-1) * g k)) by (intros; ring). rewrite Sg_plus, Sg_scal. ring.
Qed.
Lemma fold_minus {T} (f g : T -> R) l : fold_right Rplus 0 (map (fun x => f x - g x) l) = fold_right Rplus 0 (map f l) - fold_right Rplus 0 (map g l).
Proof. induction l; cbn; [ring|]. rewrite IHl. ring. Qed.
Lemma fold_Sg {T} n (f : T -> nat -> R) l : fold_right Rplus 0 (map (fun x => Sg n (f x)) l) = Sg n (fun k => fold_right Rplus 0 (map (fun x => f x k) l)).
Proof. induction l; cbn [map fold_right]; [symmetry; apply Sg_zero|]. rewrite IHl. rewrite <- Sg_plus. reflexivity. Qed.
Lemma RI_is (f : R -> R) : ex_RInt f 0 1 -> is_RInt f 0 1 (RI f).
Proof. intros H. apply (RInt_correct (V := R_CompleteNormedModule)). exact H. Qed.

Section Weak.
Variables (P : problem) (ph : physics) (T0 : R) (m : list R).
Let n := neig P.
Hypothesis HR : represents T0 P ph.
Hypothesis Em : make_m P = Ok m.
Hypothesis Hn : (1 <= n)%nat.
Hypothesis HH : Hh P <> 0.
Variables (eigs : list R) (Igamv : list (list R)).
Hypothesis HIg : length Igamv = n.
Hypothesis Heig : length eigs = n.
Hypothesis Hnz : forall lam, In lam eigs -> dT P * lam <> 0.
Let phi (k : nat) (z : R) := sin (nth k m 0 * z).
Let dphi (k : nat) (z : R) := nth k m 0 * cos (nth k m 0 * z).
Let gt := top_shape (drn P).
Let st : R := if Z.eqb (drn P) 1 then 0 else -1.
Variables Ts Bs0 : list (R -> R).
Hypothesis HTs : are_loads T0 (listed (top_vs_time P)) (top_omega_phase P) Ts.
Hypothesis HBs : are_loads T0 (listed (bot_vs_time P)) (bot_omega_phase P) Bs0.
Hypothesis ET : p_top ph = total Ts.
Hypothesis ET0 : p_top0 ph = total0 (listed (top_vs_time P)) (top_omega_phase P).
Hypothesis EB : p_bot ph = (fun t => bottom_factor P * total Bs0 t).
Hypothesis EB0 : p_bot0 ph = bottom_factor P * total0 (listed (bot_vs_time P)) (bot_omega_phase P).
Let ok t := before_ends (load_tables P) t.
Variables (Gx Px : nat -> nat -> R) (i : nat).
Hypothesis Hi : (i < n)%nat.
Hypothesis HG : forall j, (j < n)%nat -> storage_entry ph m i j (Gx i j).
Hypothesis HP : forall j, (j < n)%nat -> outflow_entry P ph m i j (Px i j).
Variable a : nat -> R -> R.
Let u := pore P ph m a.
Let uz := pore_z P ph m a.
Lemma Lm : length m = n.
Proof using Em Hn. exact (proj1 (m_facts P m Em Hn)). Qed.
Let Bs := map (fun F s => bottom_factor P * F s) Bs0.

Lemma Bs_total t : total Bs t = p_bot ph t.
Proof using EB. clear - EB. unfold Bs. rewrite total_map, EB. reflexivity. Qed.
Lemma u_eq z t : u z t = Sg n (fun j => a j t * phi j z) + p_top ph t * gt z + p_bot ph t * z.
Proof using Em Hn. unfold u, pore, pressure, series. rewrite Lm. reflexivity. Qed.
Lemma uz_eq z t : uz z t = Sg n (fun j => a j t * dphi j z) + p_top ph t * st + p_bot ph t.
Proof using Em Hn. unfold uz, pore_z. rewrite Lm. reflexivity. Qed.

(** ** Storage *)
Definition stored_value t := Sg n (fun j => Gx i j * a j t) + RI (fun z => f_mv ph z * gt z * phi i z) * (p_top ph t - p_top0 ph)
  + RI (fun z => f_mv ph z * z * phi i z) * (p_bot ph t - p_bot0 ph) - surcharge_src ph m i t.
Lemma stored_ok t : stored P ph m a i t (stored_value t).
Proof using HR Em Hn HH HIg Heig Hnz HTs HBs Hi HG.
  destruct (m_facts P m Em Hn) as (Hm & Nm & _ & Hdrn & _).
  destruct (bc_contributes_all P ph T0 eigs Igamv m HIg Heig Hnz Hm Nm HR HH Hdrn Ts Bs0 HTs HBs) as (SI & _).
  destruct (SI i Hi) as (I1 & I2 & _). destruct (surcharge_contributes P ph T0 eigs Igamv m HIg Heig Hnz Hm Nm HR) as (I3 & _).
  pose proof (Sg_RInt n (fun j z => a j t * (f_mv ph z * phi i z * phi j z)) (fun j => a j t * Gx i j) 0 1
    ltac:(intros k Hk; cbv beta; apply RInt_mull; apply HG; auto)) as X1.
  pose proof (RInt_mulr _ 0 1 (p_top ph t - p_top0 ph) _ (RI_is _ I1)) as X2. pose proof (RInt_mulr _ 0 1 (p_bot ph t - p_bot0 ph) _ (RI_is _ I2)) as X3.
  pose proof (is_RInt_fold (fun d z => - (amp d t - amp0 d) * (f_mv ph z * mag d z * phi i z)) (fun d => - (amp d t - amp0 d) * RI (fun z => f_mv ph z * mag d z * phi i z)) (f_surcharge ph) 0 1
    ltac:(intros d Hd; cbv beta; apply RInt_mull; apply RI_is; apply I3; auto)) as X4.
  eapply RInt_eq; [exact (RInt_add _ _ _ _ _ _ (RInt_add _ _ _ _ _ _ (RInt_add _ _ _ _ _ _ X1 X2) X3) X4)| |].
  - intros z. cbv beta. change (pore P ph m a z t) with (u z t). rewrite u_eq. unfold pore0, applied, applied0. fold gt. change (sin (nth i m 0 * z)) with (phi i z).
    rewrite (Sg_ext n _ (fun j => (f_mv ph z * phi i z) * (a j t * phi j z))) by (intros; ring). rewrite Sg_scal.
    rewrite (fold_ext _ (fun d => - (f_mv ph z * phi i z) * (amp d t * mag d z - amp0 d * mag d z)) (f_surcharge ph)) by (intros; ring).
    rewrite fold_scal, fold_minus. ring.
  - unfold stored_value, surcharge_src. cbv zeta beta. rewrite (Sg_ext n _ (fun j => Gx i j * a j t)) by (intros; ring). unfold phi.
    rewrite (fold_ext (fun d => - (amp d t - amp0 d) * _) (fun d => -1 * (RI (fun z => f_mv ph z * mag d z * sin (nth i m 0 * z)) * (amp d t - amp0 d))) (f_surcharge ph)) by (intros; ring).
    rewrite fold_scal. unfold phi, gt. match goal with |- ?p = ?q => change (@eq R p q) end. ring.
Qed.

(** ** Outflow *)
Let tau := d_v ph * (RI (fun z => f_kv ph z * st * dphi i z) - kv_bottom ph * st * phi i 1) + d_h ph * RI (fun z => f_kh ph z * f_et ph z * gt z * phi i z)
  + fold_right Rplus 0 (map (fun f => snd (fst f) * phi i (fst (fst f)) * gt (fst (fst f))) (f_fixed ph)).
Let beta := d_v ph * (RI (fun z => f_kv ph z * 1 * dphi i z) - kv_bottom ph * 1 * phi i 1) + d_h ph * RI (fun z => f_kh ph z * f_et ph z * z * phi i z)
  + fold_right Rplus 0 (map (fun f => snd (fst f) * phi i (fst (fst f)) * fst (fst f)) (f_fixed ph)).
Definition outflow_value s := Sg n (fun j => dT P * Px i j * a j s) + (p_top ph s * tau + (p_bot ph s * beta +
  (fold_right Rplus 0 (map (fun d => - d_h ph * RI (fun z => f_kh ph z * f_et ph z * mag d z * phi i z) * amp d s) (f_vacuum ph)) +
  (fold_right Rplus 0 (map (fun f => - (snd (fst f) * phi i (fst (fst f))) * snd f s) (f_fixed ph)) +
   fold_right Rplus 0 (map (fun f => - phi i (fst f) * (snd f s / (mvref P * Hh P))) (f_pumps ph)))))).
Lemma outflow_ok s : outflow P ph m a i s (outflow_value s).
Proof using HR Em Hn HH HIg Heig Hnz HTs HBs Hi HP.
  destruct (m_facts P m Em Hn) as (Hm & Nm & _ & Hdrn & Hb).
  destruct (bc_contributes_all P ph T0 eigs Igamv m HIg Heig Hnz Hm Nm HR HH Hdrn Ts Bs0 HTs HBs) as (SI & _).
  destruct (SI i Hi) as (_ & _ & I1 & I2 & I3 & I4). destruct (vacuum_contributes P ph T0 eigs Igamv m HIg Heig Hnz Hm Nm HR) as (I5 & _).
  assert (CH : exists KV KX : nat -> R, forall j, (j < n)%nat ->
    is_RInt (fun z => f_kv ph z * dphi i z * dphi j z) 0 1 (KV j) /\ is_RInt (fun z => f_kh ph z * f_et ph z * phi i z * phi j z) 0 1 (KX j) /\
    dT P * Px i j = d_v ph * KV j + d_h ph * KX j + fold_right Rplus 0 (map (fun f => snd (fst f) * phi i (fst (fst f)) * phi j (fst (fst f))) (f_fixed ph))).
  { exists (fun j => RI (fun z => f_kv ph z * dphi i z * dphi j z)), (fun j => RI (fun z => f_kh ph z * f_et ph z * phi i z * phi j z)).
    intros j Hj. destruct (HP j Hj) as (V & X & HV & HX & E).
    assert (E1 : RI (fun z => f_kv ph z * dphi i z * dphi j z) = V) by (apply (is_RInt_unique (V := R_CompleteNormedModule)); exact HV).
    assert (E2 : RI (fun z => f_kh ph z * f_et ph z * phi i z * phi j z) = X) by (apply (is_RInt_unique (V := R_CompleteNormedModule)); exact HX).
    rewrite E1, E2. split; [exact HV|]. split; [exact HX|exact E]. }
  destruct CH as (KV & KX & HK).
  pose proof (Sg_RInt n (fun j z => a j s * (f_kv ph z * dphi i z * dphi j z)) (fun j => a j s * KV j) 0 1
    ltac:(intros k Hk; cbv beta; apply RInt_mull; exact (proj1 (HK k Hk)))) as X1.
  pose proof (RInt_mulr _ 0 1 (p_top ph s) _ (RI_is _ I3)) as X2. pose proof (RInt_mulr _ 0 1 (p_bot ph s) _ (RI_is _ I4)) as X3.
  pose proof (Sg_RInt n (fun j z => a j s * (f_kh ph z * f_et ph z * phi i z * phi j z)) (fun j => a j s * KX j) 0 1
    ltac:(intros k Hk; cbv beta; apply RInt_mull; exact (proj1 (proj2 (HK k Hk))))) as Y1.
  pose proof (RInt_mulr _ 0 1 (p_top ph s) _ (RI_is _ I1)) as Y2. pose proof (RInt_mulr _ 0 1 (p_bot ph s) _ (RI_is _ I2)) as Y3.
  pose proof (is_RInt_fold (fun d z => - amp d s * (f_kh ph z * f_et ph z * mag d z * phi i z)) (fun d => - amp d s * RI (fun z => f_kh ph z * f_et ph z * mag d z * phi i z)) (f_vacuum ph) 0 1
    ltac:(intros d Hd; cbv beta; apply RInt_mull; apply RI_is; apply I5; auto)) as Y4.
  eexists. eexists. split; [|split].
  - eapply RInt_eq; [exact (RInt_add _ _ _ _ _ _ (RInt_add _ _ _ _ _ _ X1 X2) X3)| |reflexivity].
    intros z. cbv beta. change (pore_z P ph m a z s) with (uz z s). rewrite uz_eq. change (nth i m 0 * cos (nth i m 0 * z)) with (dphi i z).
    rewrite (Sg_ext n _ (fun j => (f_kv ph z * dphi i z) * (a j s * dphi j z))) by (intros; ring). rewrite Sg_scal.
    unfold st, dphi. ring.
  - eapply RInt_eq; [exact (RInt_add _ _ _ _ _ _ (RInt_add _ _ _ _ _ _ (RInt_add _ _ _ _ _ _ Y1 Y2) Y3) Y4)| |reflexivity].
    intros z. cbv beta. change (pore P ph m a z s) with (u z s). rewrite u_eq. unfold applied. change (sin (nth i m 0 * z)) with (phi i z).
    rewrite (Sg_ext n _ (fun j => (f_kh ph z * f_et ph z * phi i z) * (a j s * phi j z))) by (intros; ring). rewrite Sg_scal.
    rewrite (fold_ext (fun d => - amp d s * _) (fun d => - (f_kh ph z * f_et ph z * phi i z) * (amp d s * mag d z)) (f_vacuum ph)) by (intros; ring).
    rewrite fold_scal. unfold gt, phi. ring.
  - change (pore_z P ph m a 1 s) with (uz 1 s). rewrite uz_eq. change (sin (nth i m 0 * 1)) with (phi i 1).
    assert (B0 : Sg n (fun j => a j s * dphi j 1) * phi i 1 = 0).
    { rewrite Rmult_comm, <- Sg_scal. rewrite (Sg_ext n _ (fun _ => 0)); [apply Sg_zero|]. intros j Hj. pose proof (Hb i j Hi Hj) as E.
      change (dphi j 1 * phi i 1 = 0) in E. replace (phi i 1 * (a j s * dphi j 1)) with (a j s * (dphi j 1 * phi i 1)) by ring. rewrite E. ring. }
    replace (kv_bottom ph * (Sg n (fun j => a j s * dphi j 1) + p_top ph s * st + p_bot ph s) * phi i 1)
      with (kv_bottom ph * (Sg n (fun j => a j s * dphi j 1) * phi i 1) + kv_bottom ph * (p_top ph s * st + p_bot ph s) * phi i 1) by ring.
    rewrite B0.
    assert (F1 : fold_right Rplus 0 (map (fun f => snd (fst f) * (pore P ph m a (fst (fst f)) s - snd f s) * sin (nth i m 0 * fst (fst f))) (f_fixed ph)) =
      Sg n (fun j => a j s * fold_right Rplus 0 (map (fun f => snd (fst f) * phi i (fst (fst f)) * phi j (fst (fst f))) (f_fixed ph)))
      + p_top ph s * fold_right Rplus 0 (map (fun f => snd (fst f) * phi i (fst (fst f)) * gt (fst (fst f))) (f_fixed ph))
      + p_bot ph s * fold_right Rplus 0 (map (fun f => snd (fst f) * phi i (fst (fst f)) * fst (fst f)) (f_fixed ph))
      + fold_right Rplus 0 (map (fun f => - (snd (fst f) * phi i (fst (fst f))) * snd f s) (f_fixed ph))).
    { rewrite (Sg_ext n (fun j => a j s * _) (fun j => fold_right Rplus 0 (map (fun f => a j s * (snd (fst f) * phi i (fst (fst f)) * phi j (fst (fst f)))) (f_fixed ph)))) by (intros; rewrite fold_scal; reflexivity).
      rewrite <- (fold_Sg n (fun f j => a j s * (snd (fst f) * phi i (fst (fst f)) * phi j (fst (fst f))))). rewrite <- !fold_scal, <- !fold_plus. apply fold_ext.
      intros [[z k] F] _. cbn [fst snd]. change (pore P ph m a z s) with (u z s). rewrite u_eq. change (sin (nth i m 0 * z)) with (phi i z).
      rewrite (Sg_ext n (fun j => a j s * (k * phi i z * phi j z)) (fun j => (k * phi i z) * (a j s * phi j z))) by (intros; ring). rewrite Sg_scal. ring. }
    rewrite F1. unfold outflow_value, tau, beta.
    rewrite (Sg_ext n (fun j => dT P * Px i j * a j s) (fun j => d_v ph * (a j s * KV j) + d_h ph * (a j s * KX j) + a j s * fold_right Rplus 0 (map (fun f => snd (fst f) * phi i (fst (fst f)) * phi j (fst (fst f))) (f_fixed ph)))).
    2:{ intros j Hj. destruct (HK j Hj) as (_ & _ & ->). ring. }
    rewrite !Sg_plus, !Sg_scal.
    rewrite (fold_ext (fun f => - phi i (fst f) * _) (fun f => -1 * (snd f s / (mvref P * Hh P) * sin (nth i m 0 * fst f))) (f_pumps ph)) by (intros; unfold phi; ring).
    rewrite (fold_ext (fun d => - d_h ph * _ * _) (fun d => d_h ph * (- amp d s * RI (fun z => f_kh ph z * f_et ph z * mag d z * phi i z))) (f_vacuum ph)) by (intros; ring).
    rewrite !fold_scal. unfold phi, dphi, gt, st. match goal with |- ?p = ?q => change (@eq R p q) end. ring.
Qed.

(** ** Integral of the outflow *)
Let integ (F : R -> R) (t : R) : R := RInt F T0 t.
Definition outflow_total t (J : nat -> R) := Sg n (fun j => dT P * Px i j * J j) + (total (integrals T0 Ts) t * tau + (total (integrals T0 Bs) t * beta +
  (fold_right Rplus 0 (map (fun d => - d_h ph * RI (fun z => f_kh ph z * f_et ph z * mag d z * phi i z) * integ (amp d) t) (f_vacuum ph)) +
  (fold_right Rplus 0 (map (fun f => - (snd (fst f) * phi i (fst (fst f))) * integ (snd f) t) (f_fixed ph)) +
   fold_right Rplus 0 (map (fun f => - phi i (fst f) * integ (fun s => snd f s / (mvref P * Hh P)) t) (f_pumps ph)))))).
Lemma vacuum_ex t d : T0 <= t -> ok t -> In d (f_vacuum ph) -> ex_RInt (amp d) T0 t.
Proof using HR.
  intros Ht O Hd. pose proof HR as (_ & _ & _ & _ & _ & _ & _ & Hs & _). unfold are_depth_loads in Hs.
  destruct (vacuum_vs_depth P) as [sz|] eqn:Es; [destruct (vacuum_vs_time P) as [tt'|] eqn:Et|]; try (rewrite Hs in Hd; contradiction).
  destruct Hs as (_ & _ & F).
  assert (Osub : forall p, In p tt' -> before_end p t).
  { intros p Hp. apply O. unfold load_tables. rewrite !in_app_iff, Et. cbn [listed]. auto 10. }
  assert (B : forall q, In q (combine (combine tt' sz) (modulations (length tt') (vacuum_omega_phase P))) -> In (fst (fst q)) tt').
  { intros [[p z] o] Hq. apply in_combine_l in Hq. apply in_combine_l in Hq. auto. }
  clear - F Osub B Hd Ht. induction F as [|q d' l L (H1 & H2 & H3) F IH]; [contradiction|]. destruct Hd as [->|Hd].
  - eapply load_ex_RInt; eauto. apply Osub, B. left; auto.
  - apply IH; auto. intros; apply B; right; auto.
Qed.
Lemma fixed_ex t f : T0 <= t -> ok t -> In f (f_fixed ph) -> ex_RInt (snd f) T0 t.
Proof using HR.
  intros Ht O Hf. pose proof HR as (_ & _ & _ & _ & _ & _ & _ & _ & _ & F & _).
  assert (B : forall q, In q (combine (listed (fixed_ppress P)) (modulations (length (listed (fixed_ppress P))) (fixed_ppress_omega_phase P))) -> forall p, snd (fst q) = Some p -> before_end p t).
  { intros [q x] Hq p Hp. apply in_combine_l in Hq. apply O. unfold load_tables. rewrite !in_app_iff. right; right; right; right; left.
    apply in_flat_map. exists q. split; auto. cbn [fst] in Hp. rewrite Hp. left; auto. }
  clear - F B Hf Ht. induction F as [|q g l L (H1 & H2) F IH]; [contradiction|]. destruct Hf as [->|Hf].
  - destruct (snd (fst q)) as [p|] eqn:E.
    + eapply load_ex_RInt; eauto. apply (B q); auto. left; auto.
    + rewrite H2. apply ex_RInt_const.
  - apply IH; auto. intros q' Hq'; apply B; right; auto.
Qed.
Lemma pump_ex t f : T0 <= t -> ok t -> In f (f_pumps ph) -> ex_RInt (fun s => snd f s / (mvref P * Hh P)) T0 t.
Proof using HR.
  intros Ht O Hf. pose proof HR as (_ & _ & _ & _ & _ & _ & _ & _ & _ & _ & _ & F).
  assert (B : forall q, In q (combine (listed (pumping P)) (modulations (length (listed (pumping P))) (pumping_omega_phase P))) -> before_end (snd (fst q)) t).
  { intros [q x] Hq. apply in_combine_l in Hq. apply O. unfold load_tables. rewrite !in_app_iff. right; right; right; right; right. apply in_map. auto. }
  assert (X : ex_RInt (snd f) T0 t).
  { clear - F B Hf Ht. induction F as [|q g l L (H1 & H2) F IH]; [contradiction|]. destruct Hf as [->|Hf].
    - eapply load_ex_RInt; eauto. apply B. left; auto.
    - apply IH; auto. intros q' Hq'; apply B; right; auto. }
  destruct X as (I & X). exists (I * / (mvref P * Hh P)). apply RInt_mulr. exact X.
Qed.
Lemma outflow_RInt t J : T0 <= t -> ok t -> (forall j, (j < n)%nat -> is_RInt (a j) T0 t (J j)) -> is_RInt outflow_value T0 t (outflow_total t J).
Proof using HR HH HTs HBs ET EB.
  intros Ht O HJ.
  assert (C0 : forall F : R -> R, ex_RInt F T0 t -> is_RInt F T0 t (RInt F T0 t)) by (intros F X; apply (RInt_correct (V := R_CompleteNormedModule)); exact X).
  assert (X1 : is_RInt (fun s => Sg n (fun j => dT P * Px i j * a j s)) T0 t (Sg n (fun j => dT P * Px i j * J j))).
  { apply (Sg_RInt n (fun j s => dT P * Px i j * a j s) (fun j => dT P * Px i j * J j)). intros j Hj. apply RInt_mull. auto. }
  assert (X2 : is_RInt (fun s => p_top ph s * tau) T0 t (total (integrals T0 Ts) t * tau)).
  { apply RInt_mulr. rewrite ET. eapply loads_RInt; eauto. apply (top_ok P t O). }
  assert (X3 : is_RInt (fun s => p_bot ph s * beta) T0 t (total (integrals T0 Bs) t * beta)).
  { apply RInt_mulr. eapply RInt_eq; [apply (loads_RInt T0 _ _ Bs t (bot_loads P T0 HH Bs0 HBs) Ht (bot_ok P t O))|intros s; apply Bs_total|reflexivity]. }
  pose proof (is_RInt_fold (fun d s => - d_h ph * RI (fun z => f_kh ph z * f_et ph z * mag d z * phi i z) * amp d s)
    (fun d => - d_h ph * RI (fun z => f_kh ph z * f_et ph z * mag d z * phi i z) * integ (amp d) t) (f_vacuum ph) T0 t
    ltac:(intros d Hd; cbv beta; apply RInt_mull; apply C0; apply vacuum_ex; auto)) as X4.
  pose proof (is_RInt_fold (fun f s => - (snd (fst f) * phi i (fst (fst f))) * snd f s)
    (fun f => - (snd (fst f) * phi i (fst (fst f))) * integ (snd f) t) (f_fixed ph) T0 t
    ltac:(intros d Hd; cbv beta; apply RInt_mull; apply C0; apply fixed_ex; auto)) as X5.
  pose proof (is_RInt_fold (fun f s => - phi i (fst f) * (snd f s / (mvref P * Hh P)))
    (fun f => - phi i (fst f) * integ (fun s => snd f s / (mvref P * Hh P)) t) (f_pumps ph) T0 t
    ltac:(intros d Hd; cbv beta; apply RInt_mull; apply C0; apply pump_ex; auto)) as X6.
  exact (RInt_add _ _ _ _ _ _ X1 (RInt_add _ _ _ _ _ _ X2 (RInt_add _ _ _ _ _ _ X3 (RInt_add _ _ _ _ _ _ X4 (RInt_add _ _ _ _ _ _ X5 X6))))).
Qed.
Lemma balance t J : stored_value t + outflow_total t J =
  Sg n (fun j => Gx i j * a j t) + dT P * Sg n (fun j => Px i j * J j) - source P ph T0 m Ts Bs0 i t.
Proof using ET ET0 EB EB0 HBs.
  assert (EF : fixed_src ph T0 m i t = fold_right Rplus 0 (map (fun f : R * R * (R -> R) => snd (fst f) * phi i (fst (fst f)) * integ (snd f) t) (f_fixed ph))) by reflexivity.
  unfold stored_value, outflow_total, source. rewrite EF. unfold vacuum_src, bc_src, pump_src. cbv zeta beta. fold Bs. rewrite Bs_total, (bot_total0 P T0 Bs0 HBs), <- EB0, <- ET0, <- ET.
  rewrite (Sg_ext n (fun j => dT P * Px i j * J j) (fun j => dT P * (Px i j * J j))) by (intros; ring). rewrite Sg_scal.
  rewrite (fold_ext (fun d => - d_h ph * _ * _) (fun d => (- d_h ph) * (RI (fun z => f_kh ph z * f_et ph z * mag d z * phi i z) * integ (amp d) t)) (f_vacuum ph)) by (intros; ring).
  rewrite (fold_ext (fun f => - (snd (fst f) * phi i (fst (fst f))) * _) (fun f => -1 * (snd (fst f) * phi i (fst (fst f)) * integ (snd f) t)) (f_fixed ph)) by (intros; ring).
  rewrite (fold_ext (fun f => - phi i (fst f) * _) (fun f => -1 * (phi i (fst f) * integ (fun s => snd f s / (mvref P * Hh P)) t)) (f_pumps ph)) by (intros; ring).
  rewrite !fold_scal. unfold tau, beta. fold gt st. unfold surcharge_src, integ, phi, dphi, gt, st. cbv zeta beta. match goal with |- ?p = ?q => change (@eq R p q) end. ring.
Qed.
End Weak.

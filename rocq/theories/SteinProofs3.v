(** * Proofs about the layered soil: the modes found, integrals over the layers, time factor *)
From Coq Require Import Reals List Arith ZArith Bool Lia Lra.
From Coquelicot Require Import Coquelicot.
From Verif Require Import Base PiecewiseModel LoadGen LoadModel SpectralModel RootModel ConstitutiveModel SteinModel SpecPiecewise SpecLoad SpecStein PropsLoad TerzaghiProofs SteinProofs SteinProofs2.
Import ListNotations.
Open Scope R_scope.

Section S.
Variable P : stein.
Hypothesis Hs : is_soil (soil_of P).
Notation s := (soil_of P).
Notation N := (nlayers P).
Variable b : R.
Hypothesis Hb : 0 < b.
Variable T : term.
Hypothesis ET : t_beta T = beta P b.
Notation m := (mode_of (rate P b) T).

Lemma m_equation : mode_equation s m.
Proof.
  intros i z Hi. rewrite <- (N_layers P Hs) in Hi. cbn [shape slope decay mode_of]. rewrite ET. destruct (beta_sq P Hs b Hb i Hi) as [_ E].
  change (at_ (comp s) i) with (mv P i). change (at_ (perm s) i) with (kv P i). rewrite <- E. set (bt := beta P b i).
  split; auto_derive; auto; ring.
Qed.
Lemma m_size i : (i < N)%nat -> size s m i = Rabs (t_B T i) + Rabs (t_C T i).
Proof.
  intros Hi. unfold size. cbn [shape slope decay mode_of]. rewrite ET. pose proof (beta_wave P Hs b Hb i Hi) as W. unfold wave in W. rewrite <- W.
  pose proof (beta_pos P Hs b Hb i Hi) as Q. rewrite Rmult_0_r, cos_0, sin_0. rewrite Rabs_mult, (Rabs_right (beta P b i)) by lra.
  replace (t_B T i * 1 + t_C T i * 0) with (t_B T i) by ring. replace (- t_B T i * 0 + t_C T i * 1) with (t_C T i) by ring. field. lra.
Qed.
Variable tb : (R * R) * (R * R).
Hypothesis HR : rows P b tb (t_B T) (t_C T).

Lemma m_top bc : bc_top (mkStein (s_h P) (s_kv P) (s_mv P) bc (s_bcbot P) (s_n P) (s_tim P) (s_mag P)) = Ok (fst tb) -> nearly_at_top s bc m /\ (none_tiny s (rate P b) -> at_top bc m).
Proof.
  pose proof (N_pos P Hs) as NP. pose proof (rows_top P Hs b tb _ _ HR) as Q.
  assert (S0 : shape m 0 0 = t_B T 0%nat) by (cbn [shape mode_of]; rewrite Rmult_0_r, cos_0, sin_0; ring).
  assert (D0 : slope m 0 0 = b * t_C T 0%nat) by (cbn [slope mode_of]; rewrite Rmult_0_r, cos_0, sin_0, ET; cbn [beta]; ring).
  unfold bc_top. cbn [s_bctop]. intros E.
  assert (A : bc = 0%Z -> t_B T 0%nat = 0).
  { intros ->. cbn in E. injection E as E. rewrite <- E in Q. cbn [fst snd] in Q. replace (-1 * -1) with 1 in Q by ring. rewrite Rmult_0_l, chop_0, chop_1 in Q. lra. }
  assert (B : bc = 1%Z -> chop b * t_C T 0%nat = 0).
  { intros ->. cbn in E. injection E as E. rewrite <- E in Q. cbn [fst snd] in Q. rewrite Rmult_0_l, Rmult_1_l, chop_0 in Q. lra. }
  split; [split|intros [W _]; split]; intros Hbc; try (rewrite S0; auto; fail).
  - rewrite D0, m_size by lia. specialize (B Hbc). replace (b * t_C T 0%nat) with ((b - chop b) * t_C T 0%nat) by lra. rewrite Rabs_mult, Rmult_plus_distr_l.
    pose proof (chop_err b). pose proof (Rabs_pos (t_C T 0%nat)). pose proof (Rabs_pos (t_B T 0%nat)). pose proof tiny_pos. assert (0 <= / 10 ^ 10 * Rabs (t_B T 0%nat)) by (apply Rmult_le_pos; lra).
    assert (Rabs (b - chop b) * Rabs (t_C T 0%nat) <= / 10^10 * Rabs (t_C T 0%nat)) by (apply Rmult_le_compat_r; auto). lra.
  - rewrite D0. specialize (B Hbc). rewrite <- (beta_wave P Hs b Hb 0 ltac:(lia)) in W. cbn [beta] in W. rewrite chop_not_tiny in B; auto.
Qed.

Lemma m_joined : nearly_joined s m /\ (none_tiny s (rate P b) -> joined s m).
Proof.
  split.
  - intros i Hi. rewrite <- (N_layers P Hs) in Hi. rewrite !m_size by lia. cbn [shape slope mode_of]. rewrite ET.
    pose proof (rows_join P Hs b tb _ _ i Hi HR) as J. pose proof (rows_flow P Hs b tb _ _ i Hi HR) as F. cbv zeta in J, F.
    set (z := depth s (S i)) in *. set (bi := beta P b i) in *. set (bj := beta P b (S i)) in *. apply resid4 in J, F.
    change (at_ (perm s) i) with (kv P i). change (at_ (perm s) (S i)) with (kv P (S i)).
    pose proof (kvpos P Hs (S i) Hi) as K. split.
    + eapply Rle_trans; [|exact J]. right. f_equal. ring.
    + replace (kv P i * (bi * (- t_B T i * sin (bi * z) + t_C T i * cos (bi * z))) - kv P (S i) * (bj * (- t_B T (S i) * sin (bj * z) + t_C T (S i) * cos (bj * z))))
        with ((- alpha P i * bi * sin (bi * z) * t_B T i + alpha P i * bi * cos (bi * z) * t_C T i + bj * sin (bj * z) * t_B T (S i) + - bj * cos (bj * z) * t_C T (S i)) * kv P (S i)) by (unfold alpha; field; lra).
      rewrite Rabs_mult, (Rabs_right (kv P (S i))) by lra. apply Rmult_le_compat_r; [lra|]. exact F.
  - intros [_ W] i Hi. specialize (W i Hi). cbv zeta in W. rewrite <- (N_layers P Hs) in Hi. rewrite <- !(beta_wave P Hs b Hb) in W by lia. cbn [shape slope mode_of]. rewrite ET.
    pose proof (rows_join P Hs b tb _ _ i Hi HR) as J. pose proof (rows_flow P Hs b tb _ _ i Hi HR) as F. cbv zeta in J, F.
    change (at_ (perm s) i) with (kv P i) in *. change (at_ (perm s) (S i)) with (kv P (S i)) in *. change (kv P i / kv P (S i)) with (alpha P i) in W.
    set (z := depth s (S i)) in *. set (bi := beta P b i) in *. set (bj := beta P b (S i)) in *. destruct W as (W1 & W2 & W3 & W4 & W5 & W6 & W7 & W8).
    pose proof (kvpos P Hs (S i) Hi) as K.
    rewrite (chop_not_tiny _ W1), (chop_not_tiny _ W2), (chop_not_tiny_opp _ W3), (chop_not_tiny_opp _ W4) in J.
    replace (- alpha P i * bi * sin (bi * z)) with (- (alpha P i * bi * sin (bi * z))) in F by ring. replace (- bj * cos (bj * z)) with (- (bj * cos (bj * z))) in F by ring.
    rewrite (chop_not_tiny_opp _ W5), (chop_not_tiny _ W6), (chop_not_tiny _ W7), (chop_not_tiny_opp _ W8) in F.
    split; [lra|]. assert (Q : kv P i = alpha P i * kv P (S i)) by (unfold alpha; field; lra). rewrite Q.
    replace (alpha P i * kv P (S i) * (bi * (- t_B T i * sin (bi * z) + t_C T i * cos (bi * z)))) with (kv P (S i) * (- (alpha P i * bi * sin (bi * z)) * t_B T i + alpha P i * bi * cos (bi * z) * t_C T i)) by ring.
    f_equal. lra.
Qed.

(** ** Integrals *)
Lemma shape_int i z1 z2 : (i < N)%nat -> is_RInt (shape m i) z1 z2
  (- t_B T i * sin (t_beta T i * z1) / t_beta T i + t_B T i * sin (t_beta T i * z2) / t_beta T i + t_C T i * cos (t_beta T i * z1) / t_beta T i - t_C T i * cos (t_beta T i * z2) / t_beta T i).
Proof.
  intros Hi. pose proof (beta_pos P Hs b Hb i Hi) as Q. cbn [shape mode_of]. rewrite ET. set (bt := beta P b i) in *. set (B := t_B T i). set (C := t_C T i).
  eapply rint_val; [apply (is_RInt_derive (fun z => B * sin (bt * z) / bt - C * cos (bt * z) / bt))|].
  - intros z _. auto_derive; auto. field. lra.
  - intros z _. apply (ex_derive_continuous (V := R_NormedModule)). auto_derive. auto.
  - unfold minus, plus, opp; cbn. field. lra.
Qed.
Definition square_int (i : nat) (z1 z2 : R) : R := let bt := t_beta T i in let B := t_B T i in let C := t_C T i in
  - B^2 * z1 * (sin (bt * z1))^2 / 2 - B^2 * z1 * (cos (bt * z1))^2 / 2 + B^2 * z2 * (sin (bt * z2))^2 / 2 + B^2 * z2 * (cos (bt * z2))^2 / 2 -
  B^2 * sin (bt * z1) * cos (bt * z1) / (2 * bt) + B^2 * sin (bt * z2) * cos (bt * z2) / (2 * bt) +
  B * C * (cos (bt * z1))^2 / bt - B * C * (cos (bt * z2))^2 / bt -
  C^2 * z1 * (sin (bt * z1))^2 / 2 - C^2 * z1 * (cos (bt * z1))^2 / 2 + C^2 * z2 * (sin (bt * z2))^2 / 2 + C^2 * z2 * (cos (bt * z2))^2 / 2 +
  C^2 * sin (bt * z1) * cos (bt * z1) / (2 * bt) - C^2 * sin (bt * z2) * cos (bt * z2) / (2 * bt).
Lemma sc2 x : (sin x)^2 + (cos x)^2 = 1. Proof. pose proof (sin2_cos2 x) as Q. unfold Rsqr in Q. cbn [pow]. lra. Qed.
Lemma square_int_eq i z1 z2 : (i < N)%nat -> let bt := t_beta T i in let B := t_B T i in let C := t_C T i in
  square_int i z1 z2 = (B^2 + C^2) * (z2 - z1) / 2 + (B^2 - C^2) * (sin (bt * z2) * cos (bt * z2) - sin (bt * z1) * cos (bt * z1)) / (2 * bt) + B * C * ((cos (bt * z1))^2 - (cos (bt * z2))^2) / bt.
Proof.
  intros Hi bt B C. pose proof (beta_pos P Hs b Hb i Hi) as Q. rewrite <- ET in Q. unfold square_int. cbv zeta. fold bt B C. fold bt in Q.
  pose proof (sc2 (bt * z1)) as E1. pose proof (sc2 (bt * z2)) as E2.
  set (s1 := sin (bt * z1)) in *. set (s2 := sin (bt * z2)) in *. set (c1 := cos (bt * z1)) in *. set (c2 := cos (bt * z2)) in *.
  transitivity ((B^2 + C^2) * (z2 * (s2^2 + c2^2) - z1 * (s1^2 + c1^2)) / 2 + (B^2 - C^2) * (s2 * c2 - s1 * c1) / (2 * bt) + B * C * (c1^2 - c2^2) / bt); [field; lra|].
  rewrite E1, E2. field. lra.
Qed.
Lemma shape_square_int i z1 z2 : (i < N)%nat -> is_RInt (fun z => (shape m i z)^2) z1 z2 (square_int i z1 z2).
Proof.
  intros Hi. rewrite square_int_eq by auto. cbv zeta. pose proof (beta_pos P Hs b Hb i Hi) as Q. cbn [shape mode_of]. rewrite ET. set (bt := beta P b i) in *. set (B := t_B T i). set (C := t_C T i).
  eapply rint_val; [apply (is_RInt_derive (fun z => (B^2 + C^2) * z / 2 + (B^2 - C^2) * (sin (bt * z) * cos (bt * z)) / (2 * bt) - B * C * (cos (bt * z))^2 / bt))|].
  - intros z _. auto_derive; auto. pose proof (sc2 (bt * z)) as E. set (x := sin (bt * z)) in *. set (y := cos (bt * z)) in *.
    transitivity ((B^2 + C^2) * (x^2 + y^2) / 2 + (B^2 - C^2) * (y^2 - x^2) / 2 + 2 * B * C * x * y); [rewrite E; field; lra|field].
  - intros z _. apply (ex_derive_continuous (V := R_NormedModule)). auto_derive. auto.
  - unfold minus, plus, opp; cbn. field. lra.
Qed.
Lemma sin_lt_abs x : 0 < x -> Rabs (sin x) < x.
Proof.
  intros Hx. apply Rabs_def1; [apply sin_lt_x; auto|]. destruct (Rle_dec x 1) as [L|L].
  - assert (0 <= sin x); [|lra]. apply sin_ge_0; [lra|]. pose proof PI_4. pose proof (PI2_1). lra.
  - pose proof (SIN_bound x). lra.
Qed.
Lemma square_int_bound i z1 z2 : (i < N)%nat -> z1 < z2 -> 0 <= square_int i z1 z2 /\ (t_C T i <> 0 -> 0 < square_int i z1 z2).
Proof.
  intros Hi Hz. rewrite square_int_eq by auto. cbv zeta. pose proof (beta_pos P Hs b Hb i Hi) as Q. rewrite ET. set (bt := beta P b i) in *. set (B := t_B T i). set (C := t_C T i).
  set (D := bt * z2 - bt * z1). set (G := bt * z1 + bt * z2).
  assert (E1 : sin (bt * z2) * cos (bt * z2) - sin (bt * z1) * cos (bt * z1) = sin D * cos G).
  { unfold D, G. rewrite sin_minus, cos_plus. pose proof (sc2 (bt * z1)) as E1. pose proof (sc2 (bt * z2)) as E2.
    set (s1 := sin (bt * z1)) in *. set (s2 := sin (bt * z2)) in *. set (c1 := cos (bt * z1)) in *. set (c2 := cos (bt * z2)) in *.
    transitivity (s2 * c2 * (s1^2 + c1^2) - s1 * c1 * (s2^2 + c2^2)); [rewrite E1, E2; ring|ring]. }
  assert (E2 : (cos (bt * z1))^2 - (cos (bt * z2))^2 = sin D * sin G).
  { unfold D, G. rewrite sin_minus, sin_plus. pose proof (sc2 (bt * z1)) as E2. pose proof (sc2 (bt * z2)) as E3.
    set (s1 := sin (bt * z1)) in *. set (s2 := sin (bt * z2)) in *. set (c1 := cos (bt * z1)) in *. set (c2 := cos (bt * z2)) in *.
    transitivity (c1^2 * (s2^2 + c2^2) - c2^2 * (s1^2 + c1^2)); [rewrite E2, E3; ring|ring]. }
  rewrite E1, E2. set (w := (B^2 - C^2) * cos G + 2 * B * C * sin G).
  assert (W : Rabs w <= B^2 + C^2).
  { assert (X : w^2 <= (B^2 + C^2)^2).
    { pose proof (sc2 G) as E. replace ((B^2 + C^2)^2) with (w^2 + ((B^2 - C^2) * sin G - 2 * B * C * cos G)^2); [pose proof (pow2_ge_0 ((B^2 - C^2) * sin G - 2 * B * C * cos G)); lra|].
      unfold w. transitivity ((B^2 + C^2)^2 * ((sin G)^2 + (cos G)^2)); [ring|rewrite E; ring]. }
    apply Rsqr_incr_0_var; [rewrite <- Rsqr_abs, !Rsqr_pow2; auto|]. pose proof (pow2_ge_0 B). pose proof (pow2_ge_0 C). lra. }
  assert (Hd : 0 < D) by (unfold D; assert (0 < bt * (z2 - z1)) by (apply Rmult_lt_0_compat; lra); lra).
  pose proof (sin_lt_abs D Hd) as SD.
  replace ((B ^ 2 + C ^ 2) * (z2 - z1) / 2 + (B ^ 2 - C ^ 2) * (sin D * cos G) / (2 * bt) + B * C * (sin D * sin G) / bt) with (((B^2 + C^2) * D + sin D * w) / (2 * bt)) by (unfold w, D; field; lra).
  pose proof (pow2_ge_0 B) as PB. pose proof (pow2_ge_0 C) as PC.
  assert (L : - (Rabs (sin D) * (B^2 + C^2)) <= sin D * w).
  { assert (Rabs (sin D * w) <= Rabs (sin D) * (B^2 + C^2)) by (rewrite Rabs_mult; apply Rmult_le_compat_l; [apply Rabs_pos|auto]). pose proof (Rabs_maj2 (sin D * w)). lra. }
  assert (I : 0 < / (2 * bt)) by (apply Rinv_0_lt_compat; lra).
  assert (M : (B^2 + C^2) * (D - Rabs (sin D)) <= (B^2 + C^2) * D + sin D * w) by (rewrite Rmult_minus_distr_l; lra).
  split.
  - apply Rmult_le_pos; [|lra]. eapply Rle_trans; [|exact M]. apply Rmult_le_pos; lra.
  - intros NC. apply Rmult_lt_0_compat; [|auto]. eapply Rlt_le_trans; [|exact M]. apply Rmult_lt_0_compat; [|lra].
    assert (0 < C^2) by (apply pow2_gt_0; auto). lra.
Qed.
Lemma am_numer_int : over_depth s (weight s) (shape m) (am_numer P (t_beta T) (t_B T) (t_C T)).
Proof.
  exists (fun i => - t_B T i * sin (t_beta T i * depth s i) / t_beta T i + t_B T i * sin (t_beta T i * depth s (S i)) / t_beta T i + t_C T i * cos (t_beta T i * depth s i) / t_beta T i - t_C T i * cos (t_beta T i * depth s (S i)) / t_beta T i).
  split. - intros i Hi. rewrite <- (N_layers P Hs) in Hi. apply shape_int; auto.
  - unfold am_numer. rewrite total_sumn, <- (N_layers P Hs). apply total_ext. intros i Hi. cbv zeta. rewrite (zlayer_top P Hs), (zlayer_depth P Hs) by auto. reflexivity.
Qed.
Lemma am_denom_int : over_depth s (weight s) (fun i z => (shape m i z)^2) (am_denom P (t_beta T) (t_B T) (t_C T)) /\ (t_C T (N - 1)%nat = 1 -> 0 < am_denom P (t_beta T) (t_B T) (t_C T)).
Proof.
  assert (E : am_denom P (t_beta T) (t_B T) (t_C T) = total N (fun i => mv P i * square_int i (depth s i) (depth s (S i)))).
  { unfold am_denom. rewrite total_sumn. apply total_ext. intros i Hi. cbv zeta. rewrite (zlayer_top P Hs), (zlayer_depth P Hs) by auto. reflexivity. }
  split.
  - exists (fun i => square_int i (depth s i) (depth s (S i))). split; [intros i Hi; rewrite <- (N_layers P Hs) in Hi; apply shape_square_int; auto|]. rewrite E, <- (N_layers P Hs). reflexivity.
  - intros C1. pose proof (N_pos P Hs) as NP. rewrite E. replace N with (S (N - 1)) at 1 by lia. rewrite total_S.
    assert (G : forall i, (i < N)%nat -> 0 <= square_int i (depth s i) (depth s (S i)) /\ (t_C T i <> 0 -> 0 < square_int i (depth s i) (depth s (S i)))).
    { intros i Hi. apply square_int_bound; auto. rewrite (depth_step P) by auto. pose proof (hpos P Hs i Hi). lra. }
    assert (0 <= total (N - 1) (fun i => mv P i * square_int i (depth s i) (depth s (S i)))).
    { apply total_nonneg. intros i Hi. apply Rmult_le_pos; [pose proof (mvpos P Hs i ltac:(lia)); lra|apply G; lia]. }
    assert (0 < mv P (N - 1) * square_int (N - 1) (depth s (N - 1)) (depth s (S (N - 1)))); [|lra].
    apply Rmult_lt_0_compat; [apply (mvpos P Hs); lia|]. apply G; [lia|]. rewrite C1. lra.
Qed.
End S.

(** ** The time factor *)
Lemma mapM_ext' {X Y} (f g : X -> result Y) l : (forall a, f a = g a) -> mapM f l = mapM g l.
Proof. intros E. induction l as [|a l IH]; [reflexivity|]. cbn [mapM]. rewrite E, IH. reflexivity. Qed.
Lemma calc_Tm_ED P c bt t : calc_Tm P c bt t = (sets <- containing_also_less1 (s_tim P) (s_mag P) true false false t ;; EDload_entry scalar (s_tim P) (s_mag P) c t sets (bt^2)).
Proof.
  unfold calc_Tm. destruct (containing_also_less1 (s_tim P) (s_mag P) true false false t) as [[[[[rl cl] sl] rc] cc]|e]; [|reflexivity]. cbn [bind]. unfold EDload_entry.
  rewrite (mapM_ext' (with3' (s_tim P) (s_mag P) _) (with3' (s_tim P) (s_mag P) (fun x0 y0 y1 => EDload_scalar_step y0 y1 x0 c (bt ^ 2) t))).
  2: { intros k. unfold with3'. destruct (get (s_tim P) k); [|reflexivity]. cbn [bind]. destruct (get (s_mag P) k); [|reflexivity]. cbn [bind]. destruct (get (s_mag P) (S k)); [|reflexivity]. cbn [bind]. f_equal. unfold EDload_scalar_step. ring. }
  match goal with |- context [mapM (with4 _ _ ?f) rc] => rewrite (mapM_ext' (with4 (s_tim P) (s_mag P) f) (with4 (s_tim P) (s_mag P) (fun x0 x1 y0 y1 => EDload_scalar_ramp_in y0 y1 x0 x1 c (bt ^ 2) t))) end.
  2: { intros k. unfold with4. destruct (get (s_tim P) k); [|reflexivity]. cbn [bind]. destruct (get (s_tim P) (S k)); [|reflexivity]. cbn [bind]. destruct (get (s_mag P) k); [|reflexivity]. cbn [bind]. destruct (get (s_mag P) (S k)); [|reflexivity]. cbn [bind]. f_equal.
       unfold EDload_scalar_ramp_in. unfold Rdiv. rewrite !Rinv_mult. rewrite pow_1. replace (- a + a0) with (a0 - a) by ring. replace (- bt ^ 2 * c * (t - a)) with (- c * bt^2 * (t - a)) by ring. ring. }
  match goal with |- context [mapM (with4 _ _ ?f) rl] => rewrite (mapM_ext' (with4 (s_tim P) (s_mag P) f) (with4 (s_tim P) (s_mag P) (fun x0 x1 y0 y1 => EDload_scalar_ramp_less y0 y1 x0 x1 c (bt ^ 2) t))) end; [reflexivity|].
  intros k. unfold with4. destruct (get (s_tim P) k); [|reflexivity]. cbn [bind]. destruct (get (s_tim P) (S k)); [|reflexivity]. cbn [bind]. destruct (get (s_mag P) k); [|reflexivity]. cbn [bind]. destruct (get (s_mag P) (S k)); [|reflexivity]. cbn [bind]. f_equal.
  unfold EDload_scalar_ramp_less. unfold Rdiv. rewrite !Rinv_mult. rewrite pow_1. replace (- a + a0) with (a0 - a) by ring. replace (- bt ^ 2 * c * (t - a)) with (- c * bt^2 * (t - a)) by ring. replace (- bt ^ 2 * c * (t - a0)) with (- c * bt^2 * (t - a0)) by ring. ring.
Qed.
Lemma calc_Tm_effect P r c bt t : is_load (s_tim P) (s_mag P) r -> c * bt^2 <> 0 -> exists v, calc_Tm P c bt t = Ok v /\ effect (s_tim P) (s_mag P) r t (fun x => exp (- (c * bt^2) * x)) v.
Proof.
  intros (L1 & L2 & L3 & L4 & L5) Hc. rewrite calc_Tm_ED.
  destruct (C30_EDload_linear scalar (s_tim P) (s_mag P) [bt^2] [t] c r L1 L2 L3 L4 L5) as (A & EA & _ & HA); [intros lam [<-|[]]; auto|].
  unfold EDload_linear in EA. cbn [mapM] in EA. destruct (containing_also_less1 (s_tim P) (s_mag P) true false false t) as [sets|e]; [|discriminate]. cbn [bind] in EA |- *.
  destruct (EDload_entry scalar (s_tim P) (s_mag P) c t sets (bt ^ 2)) as [v|e]; [|discriminate]. cbn [bind] in EA. injection EA as <-.
  exists v. split; [reflexivity|]. destruct (HA 0%nat 0%nat ltac:(cbn; lia) ltac:(cbn; lia)) as (I & HI & HE). cbn [nth] in HI, HE. exists I. split.
  - eapply is_RInt_ext; [|exact HI]. intros x _. cbv beta. match goal with |- ?u = ?v => change (@eq R u v) end. f_equal. f_equal. ring.
  - unfold SpecSpectral.entry in HE. cbn [nth] in HE. rewrite HE. f_equal. unfold sum_jumps. f_equal. apply map_ext. intros k. destruct (Req_EM_T _ _); auto. destruct (Rle_dec _ _); auto. f_equal. f_equal. ring.
Qed.

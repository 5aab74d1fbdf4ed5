(** * Proofs about the layered soil with a drain: the series *)
From Coq Require Import Reals List Arith ZArith Bool Lia Lra.
From Coquelicot Require Import Coquelicot.
From Verif Require Import Base PiecewiseModel ConstitutiveModel SpecPiecewise SpecLoad SpecStein SteinModel NogamiModel SpecNogami TerzaghiProofs SteinProofs SteinProofs3 SteinProofs4 NogamiProofs NogamiProofs2 NogamiProofs3.
Import ListNotations.
Local Open Scope R_scope.

Section Series.
Variables J Y : nat -> R -> R.
Variable P : nogami.
Notation s := (nsoil P).
Notation N := (g_layers P).
Hypothesis Hs : is_soil s.
Hypothesis Hr : 0 < rad P.
Variable r : R -> R.
Hypothesis Hl : is_load (g_tim P) (g_mag P) r.
Notation tim := (g_tim P). Notation mag := (g_mag P).
Variables p0 q0 : R.
Hypothesis Hpq : p0 <> 0 \/ q0 <> 0.
Notation a0 := (RtoC p0, RtoC q0).
Variable prs : list (R * R).
Hypothesis Hp : forall p, In p prs -> 0 < snd p /\ forall k, (k < N)%nat -> coef P (snd p) (fst p) k <> 0.
Notation sh p := (vshape P (snd p) (fst p) p0 q0).
Notation terms := (map (fun p => nterm_of J Y P a0 (fst p) (snd p)) prs).
Definition gtm (alp t : R) : R := match g_Tm P alp t with Ok v => v | Err _ => 0 end.
Lemma gtm_ok alp t : 0 < alp -> g_Tm P alp t = Ok (gtm alp t) /\ effect tim mag r t (fun x => exp (- alp^2 * x)) (gtm alp t).
Proof.
  intros H. unfold gtm, g_Tm. destruct (calc_Tm_effect (as_stein P) r 1 alp t Hl) as (v & E & X); [rewrite Rmult_1_l; apply pow_nonzero; lra|].
  change (mkStein _ _ _ _ _ _ _ _) with (as_stein P). rewrite E. split; auto. eapply effect_ext; [|exact X]. intros w. cbv beta. rewrite Rmult_1_l. reflexivity.
Qed.
(** amplitude *)
Definition gC (p : R * R) : R := vn P (snd p) (fst p) p0 q0 / vd P (snd p) (fst p) p0 q0 * Cn J Y P (fst p).
Lemma nC_eq p : In p prs -> n_C (nterm_of J Y P a0 (fst p) (snd p)) = gC p.
Proof.
  intros Hin. destruct (Hp p Hin) as [A B]. unfold nterm_of. cbn [n_C]. rewrite (Cm_real P Hs Hr (snd p) (fst p) B p0 q0 Hpq). rewrite <- RtoC_mult. reflexivity.
Qed.
Lemma phi_at_eq p k z : In p prs -> (k < N)%nat -> phi_at (nterm_of J Y P a0 (fst p) (snd p)) k (z - (nth k (g_zlayer P) 0 - gh P k)) = sh p k z.
Proof.
  intros Hin Hk. destruct (Hp p Hin) as [A B]. rewrite (gtop P Hs k Hk). unfold phi_at, nterm_of. cbn [n_beta n_phia n_phidota].
  rewrite (state_real P Hs Hr (snd p) (fst p) B p0 q0 k Hk). cbn [fst snd Re RtoC]. rewrite (g_beta_eq P Hs Hr) by auto. rewrite ccos_csqrt, csin_div by auto. rewrite <- !RtoC_mult, <- RtoC_plus. reflexivity.
Qed.
Lemma phi_over_eq p k : In p prs -> (k < N)%nat -> phi_over (nterm_of J Y P a0 (fst p) (snd p)) k (gh P k) = vA P (snd p) (fst p) p0 q0 k.
Proof.
  intros Hin Hk. destruct (Hp p Hin) as [A B]. unfold phi_over, nterm_of. cbn [n_beta n_phia n_phidota].
  rewrite (state_real P Hs Hr (snd p) (fst p) B p0 q0 k Hk). cbn [fst snd Re RtoC]. rewrite (g_beta_eq P Hs Hr) by auto. rewrite ccos_csqrt, csin_div, csq_csqrt by auto.
  rewrite <- RtoC_minus, <- RtoC_div, <- !RtoC_mult, <- RtoC_plus by auto. cbn [fst RtoC]. unfold vA, A_int. cbn. match goal with |- ?u = ?v => change (@eq R u v) end. field. auto.
Qed.
(** pore pressure with the radial factor h *)
Definition gu (h : R -> R) (k : nat) (z t : R) : R := total_over prs (fun p => gC p * h (fst p) * sh p k z * gtm (snd p) t).
Lemma gu_effect h k z t : effect tim mag r t (fun x => total_over prs (fun p => gC p * h (fst p) * sh p k z * exp (- (snd p)^2 * x))) (gu h k z t).
Proof.
  unfold gu. induction prs as [|p l IH].
  - apply (effect_0 _ _ _ _ (fun x => exp (- 1^2 * x)) (gtm 1 t)). apply gtm_ok. lra.
  - assert (IH' := IH ltac:(intros; apply Hp; right; auto)). destruct (Hp p (or_introl eq_refl)) as [Hb _].
    pose proof (effect_lin tim mag r t (gC p * h (fst p) * sh p k z) 1 _ _ _ _ (proj2 (gtm_ok (snd p) t Hb)) IH') as Q.
    unfold total_over in *. cbn [map fold_right]. rewrite Rmult_1_l in Q. eapply effect_ext; [|exact Q]. intros w. cbv beta. ring.
Qed.
Lemma por_eq z t : let k := searchsorted (g_zlayer P) z in (k < N)%nat -> g_por1 P terms z t = Ok (gu (g_un J Y P) k z t).
Proof.
  intros k Hk. unfold g_por1. cbv zeta. fold k. replace (Nat.ltb k N) with true by (symmetry; apply Nat.ltb_lt; auto).
  rewrite mapM_map with (g := fun T => n_C T * n_un T * phi_at T k (z - (nth k (g_zlayer P) 0 - gh P k)) * gtm (n_alp T) t).
  - cbn [bind]. f_equal. rewrite total_over_sumn, total_over_map. unfold gu. apply total_over_ext. intros p Hin. rewrite phi_at_eq, nC_eq by auto. reflexivity.
  - intros T HT. apply in_map_iff in HT. destruct HT as (p & <- & Hin). destruct (Hp p Hin) as [Hb _]. cbn [n_alp nterm_of]. rewrite (proj1 (gtm_ok (snd p) t Hb)). reflexivity.
Qed.
Lemma por_index z t : (N <= searchsorted (g_zlayer P) z)%nat -> prs <> [] -> g_por1 P terms z t = Err IndexError.
Proof.
  intros Hk Hne. unfold g_por1. cbv zeta. replace (Nat.ltb (searchsorted (g_zlayer P) z) N) with false by (symmetry; apply Nat.ltb_ge; auto).
  assert (E : exists p l, prs = p :: l) by (clear - Hne; destruct prs; [congruence|eauto]). destruct E as (p & l & E). destruct (Hp p ltac:(rewrite E; left; auto)) as [Hb _]. rewrite E. cbn [map mapM]. cbn [n_alp nterm_of]. rewrite (proj1 (gtm_ok (snd p) t Hb)). reflexivity.
Qed.
(** integral over a layer *)
Definition gi (h : R -> R) (k : nat) (t : R) : R := total_over prs (fun p => gC p * h (fst p) * vA P (snd p) (fst p) p0 q0 k * gtm (snd p) t).
Lemma gi_ok h k t : (k < N)%nat -> is_RInt (fun z => gu h k z t) (depth s k) (depth s (S k)) (gi h k t).
Proof.
  intros Hk. apply (total_over_int prs (fun p z => gC p * h (fst p) * sh p k z * gtm (snd p) t)). intros p Hin. destruct (Hp p Hin) as [Hb Hc].
  apply (is_RInt_ext (fun z => scal (gC p * h (fst p) * gtm (snd p) t) (sh p k z))); [intros z _; unfold scal; cbn; unfold mult; cbn; match goal with |- ?u = ?v => change (@eq R u v) end; ring|].
  eapply rint_val; [apply (is_RInt_scal (V := R_NormedModule)); apply (vA_ok P); auto|]. unfold scal; cbn; unfold mult; cbn. match goal with |- ?u = ?v => change (@eq R u v) end. ring.
Qed.
Lemma sumn_app l k : sumn (l ++ k) = sumn l + sumn k.
Proof. induction l as [|x l IH]; cbn [app sumn]; [cbn; ring|]. cbn in *. rewrite IH. ring. Qed.
Lemma total_exchange {T} (l : list T) n (f : T -> nat -> R) : total_over l (fun p => total n (f p)) = total n (fun k => total_over l (fun p => f p k)).
Proof.
  induction n as [|n IH]; [induction l as [|a l IHl]; [reflexivity|unfold total_over in *; cbn in *; rewrite IHl; ring]|].
  rewrite total_S, <- IH. transitivity (total_over l (fun p => total n (f p) + f p n)); [apply total_over_ext; intros; rewrite total_S; reflexivity|].
  clear. induction l as [|a l IH]; unfold total_over in *; cbn in *; [ring|]. rewrite IH. ring.
Qed.
Lemma sum_h : sumn (g_h P) = depth s N.
Proof.
  unfold depth. rewrite (gN P Hs). unfold layers. cbn [thick nsoil]. clear. set (l := g_h P). clearbody l.
  induction l as [|a l IH]; [reflexivity|]. cbn [length]. replace (S (length l)) with (1 + length l)%nat by lia. rewrite total_split, total_S, total_0. cbn. change (sumn l) with (sumn l). cbn in IH. rewrite IH. unfold at_. cbn. ring.
Qed.
Lemma avp_eq t q : interp1 tim mag false t = Ok q -> length prs = (g_nh P * g_nv P)%nat -> (1 <= g_nh P)%nat -> (1 <= g_nv P)%nat ->
  g_avp1 P terms t = Ok (total N (fun k => gi (g_un J Y P) k t) / depth s N, total N (fun k => gmv P k * (q * gh P k - gi (g_un J Y P) k t))).
Proof.
  intros E Ln Hh Hv. unfold g_avp1.
  rewrite mapM_map with (g := fun T => map (fun k => (n_C T * n_un T * phi_over T k (gh P k) / sumn (g_h P) * gtm (n_alp T) t, gmv P k * (q * gh P k / INR (g_nh P) / INR (g_nv P) - n_C T * n_un T * phi_over T k (gh P k) * gtm (n_alp T) t))) (seq 0 N)).
  2:{ intros T HT. apply in_map_iff in HT. destruct HT as (p & <- & Hin). destruct (Hp p Hin) as [Hb _]. cbn [n_alp nterm_of]. rewrite (proj1 (gtm_ok (snd p) t Hb)), E. reflexivity. }
  cbn [bind]. f_equal.
  assert (SC : forall (T : Type) (h : T -> list (R * R)) (pr : R * R -> R) (l : list T), sumn (map pr (concat (map h l))) = total_over l (fun a => sumn (map pr (h a)))).
  { intros T h pr l. unfold total_over. induction l as [|a l IH]; [reflexivity|]. cbn [map concat fold_right]. rewrite map_app, sumn_app, IH. reflexivity. }
  rewrite !SC, !total_over_map. rewrite sum_h.
  assert (HN : INR (g_nh P) <> 0) by (apply not_0_INR; lia). assert (HV : INR (g_nv P) <> 0) by (apply not_0_INR; lia).
  assert (DP : 0 < depth s N). { pose proof (gN_pos P Hs). replace N with (S (N - 1)) by lia. apply (depth_pos (as_stein P) Hs). change (nlayers (as_stein P)) with N. lia. }
  f_equal.
  - transitivity (total_over prs (fun p => total N (fun k => / depth s N * (gC p * g_un J Y P (fst p) * vA P (snd p) (fst p) p0 q0 k * gtm (snd p) t)))).
    + apply total_over_ext. intros p Hin. rewrite map_map. cbn [fst]. rewrite total_sumn. apply total_ext. intros k Hk. rewrite nC_eq, phi_over_eq by auto. cbn [n_un n_alp nterm_of]. field. lra.
    + rewrite total_exchange. unfold Rdiv. rewrite Rmult_comm, <- total_scal. apply total_ext. intros k Hk. rewrite total_over_scal. reflexivity.
  - transitivity (total_over prs (fun p => total N (fun k => gmv P k * (q * gh P k / INR (g_nh P) / INR (g_nv P)) + (- gmv P k) * (gC p * g_un J Y P (fst p) * vA P (snd p) (fst p) p0 q0 k * gtm (snd p) t)))).
    + apply total_over_ext. intros p Hin. rewrite map_map. cbn [snd]. rewrite total_sumn. apply total_ext. intros k Hk. rewrite nC_eq, phi_over_eq by auto. cbn [n_un n_alp nterm_of]. ring.
    + rewrite total_exchange. apply total_ext. intros k Hk.
      assert (PL : forall (l : list (R * R)) (c : R) (f : R * R -> R), total_over l (fun p => c + f p) = INR (length l) * c + total_over l f).
      { clear. intros l c f. induction l as [|a l IH]; unfold total_over in *; cbn [map fold_right length]; [cbn; ring|]. rewrite IH, S_INR. ring. }
      rewrite PL, total_over_scal, Ln, mult_INR. fold (gi (g_un J Y P) k t). field. auto.
Qed.
End Series.

(** * C170: the numerical and the analytical path of SpecBeam give the same deflections *)
From Coq Require Import Reals List Arith ZArith Bool Lia Lra.
From Coquelicot Require Import Coquelicot.
From Verif Require Import Base PiecewiseModel PiecewiseProofs PolyLineModel SpecPiecewise SpecLoad SpectralModel SpecSpectral WrapModel SpecWrap PropsWrap BeamModel DingModel DingProofs PropsDing PropsBeam6 SpecGalerkin SpecBeamModel SpecBeamSpec SpecBeamProofs1 SpecBeamProofs2 PropsSpecBeam SpecModal SpecBeamMotion SpecBeamModalModel ComplexCalc ModalProofs1 ModalProofs3 PropsSpecBeamModal ModalProofs5.
Import ListNotations.
Local Open Scope R_scope.

(** q and p follow the equations handed to odeint (vectorfield) from rest at T0 until T1 *)
Definition follows (solve : list (list R) -> list R -> result (list R)) (o : sb) (M : mats) (T0 T1 : R) (q p : nat -> R -> R) : Prop :=
  let n := b_nterms (s_in o) in
  (forall k, (k < n)%nat -> q k T0 = 0 /\ p k T0 = 0 /\ forall t, continuous (q k) t /\ continuous (p k) t) /\
  forall t, T0 < t < T1 -> quiet o t -> exists d, sb_field solve o M (map (fun k => q k t) (seq 0 n) ++ map (fun k => p k t) (seq 0 n)) t = Ok d /\
    forall k, (k < n)%nat -> is_derive (q k) t (nth k d 0) /\ is_derive (p k) t (nth (n + k) d 0).

Section Numerical.
Variable solve : list (list R) -> list R -> result (list R).
Hypothesis Hsolve : solves solve.
Lemma init_parts i o : sb_init solve i = Ok o -> s_in o = i /\ s_beta o = map (fun k => PI * (INR k + 1)) (seq 0 (b_nterms i)) /\
  match b_nquad i with None => s_quad o = None | Some N => exists Ij, weights solve (points_SS N) = Ok Ij /\ s_quad o = Some (points_SS N, Ij) end.
Proof.
  intros H. unfold sb_init in H. cbn zeta in H.
  match type of H with (if ?b then _ else _) = _ => destruct b; [discriminate|] end.
  unbind H. destruct (b_BC i); try discriminate. unbind H. injection H as <-. cbn [s_in s_beta s_quad]. split; auto. split; auto.
  destruct (b_nquad i) as [N|]; [|congruence]. destruct (weights solve (points_SS N)) as [Ij|]; [|discriminate]. cbn in *. eexists. split; [reflexivity|]. congruence.
Qed.
Variables (i : sb_in) (o : sb) (M : mats).
Hypothesis HO : sb_init solve i = Ok o.
Hypothesis HM : time_independant_matrices o = Ok M.
Hypothesis HK : s_k3 o = 0.
Local Notation n := (b_nterms (s_in o)).
Lemma parts : exists N Ij, s_quad o = Some (points_SS N, Ij) /\ length Ij = N /\ PropsSpecBeam.square (lam_qdotdot M) n /\ PropsSpecBeam.square (psi_q M) n /\ PropsSpecBeam.square (psi_qdot M) n /\
  s_beta o = map (fun k => PI * (INR k + 1)) (seq 0 n).
Proof using Hsolve HO HM.
  destruct (init_parts i o HO) as (I2 & I7 & I10). rewrite <- I2 in I7, I10.
  destruct (b_nquad (s_in o)) as [N|]; [|unfold time_independant_matrices in HM; rewrite I10 in HM; unbind HM; discriminate]. destruct I10 as (Ij & EW & EQ). exists N, Ij. split; auto.
  split. { unfold weights in EW. apply Hsolve in EW as [EW _]. rewrite EW, len_map_seq. unfold points_SS. apply len_map_seq. }
  pose proof HM as HM'. unfold time_independant_matrices in HM'. rewrite EQ in HM'. unbind HM'. injection HM' as <-. cbn [lam_qdotdot psi_q psi_qdot].
  assert (LB : length (s_beta o) = n) by (rewrite I7; apply len_map_seq).
  match goal with H : pdim1sin_abf_linear _ _ _ _ = Ok _ |- _ => apply square_abf in H; rewrite LB in H end. match goal with H : pdim1sin_DD_abDDf_linear _ _ _ _ = Ok _ |- _ => apply square_DD in H; rewrite LB in H end.
  assert (SA : forall aa, PropsSpecBeam.square (pdim1sin_af_linear (b_impl (s_in o)) (s_beta o) aa) n) by (intros aa; rewrite <- LB; apply square_af).
  split; auto. split; [apply square_msub; apply square_mscal; auto|]. split; [apply square_mscal; auto|]. auto.
Qed.
Lemma total_sum f m : DingProofs.total f m = sum m f. Proof. reflexivity. Qed.
(** the equations of one step *)
Lemma field_motion F T0 T1 q p t d : good_loads o F -> (forall v, In v (vehicles o) -> made v) -> (forall w, In w (stands o) -> covers T0 T1 (snd w)) -> T0 < t < T1 -> quiet o t ->
  sb_field solve o M (map (fun k => q k t) (seq 0 n) ++ map (fun k => p k t) (seq 0 n)) t = Ok d ->
  forall k, (k < n)%nat -> nth k d 0 = p k t /\
    sum n (fun j => coef (lam_qdotdot M) k j * nth (n + j) d 0) = sum n (fun j => coef (psi_q M) k j * q j t) + sum n (fun j => coef (psi_qdot M) k j * p j t) + pushing o F k t.
Proof using Hsolve HO HM HK.
  intros HG HV HC Ht HQ H k Hk. destruct parts as (N & Ij & EQ & LI & S1 & S2 & S3 & HB).
  destruct (field_rows solve Hsolve o M n N Ij (fun k => q k t) (fun k => p k t) t d eq_refl HB EQ LI HM S1 S2 S3 H) as (acc & -> & LA & _ & Rows).
  split; [rewrite app_nth1 by (rewrite len_map_seq; auto); apply (nth_map_seq (fun k => p k t)); auto|].
  destruct (Rows k Hk) as (f & Ef & E). assert (LP := loads_pushing o F T0 T1 k t HG HV HC Ht HQ). rewrite HB, nth_map_seq in LP by auto. rewrite Ef in LP. assert (f = pushing o F k t) by congruence. subst f. rewrite HK in E. rewrite Rmult_0_l, Rminus_0_r in E. rewrite !total_sum in E.
  etransitivity; [|exact E]. unfold sum. f_equal. apply map_ext_in. intros j Hj. apply in_seq in Hj. unfold coef, entry. rewrite app_nth2 by (rewrite len_map_seq; lia). rewrite len_map_seq. replace (n + j - n)%nat with j by lia. reflexivity.
Qed.
End Numerical.

Section Unique.
Variable inv : list (list R) -> result (list (list R)).
Variable cinv : list (list C) -> result (list (list C)).
Variable eig : list (list R) -> result (list C * list (list C)).
Hypothesis Hinv : inverts_both inv.
Hypothesis Hcinv : cinverts cinv.
Hypothesis Heig : cdiagonalises eig.
Variables (o : sb) (M : mats) (eigs : list C) (v Igamv : list (list C)) (F : points -> R -> R).
Local Notation n := (b_nterms (s_in o)).
Hypothesis HE : eigs_and_v inv cinv eig n M = Ok (eigs, v, Igamv).
Hypothesis HG : good_loads o F.
Local Notation gam := (make_gam n (lam_qdotdot M)).
Local Notation nn := (2 * n)%nat.
(** the mass matrix is invertible *)
Lemma mass_injective (z : nat -> R) : (forall k, (k < n)%nat -> sum n (fun j => coef (lam_qdotdot M) k j * z j) = 0) -> forall k, (k < n)%nat -> z k = 0.
Proof using Hinv Hcinv Heig HE.
  intros H k Hk. destruct (the_system inv cinv eig Hinv Hcinv Heig o M eigs v Igamv HE) as (N0 & HL & S1 & S2 & _).
  set (w := fun i => if (i <? n)%nat then RtoC 0 else RtoC (z (i - n)%nat)).
  assert (W : forall i, (i < nn)%nat -> csum nn (fun j => Cmult (RtoC (rat gam i j)) (w j)) = RtoC 0).
  { intros i Hi. destruct (Nat.lt_ge_cases i n) as [L|L].
    - rewrite gam_top by auto. unfold w. rewrite ltb_lt by auto. reflexivity.
    - replace i with (n + (i - n))%nat by lia. rewrite gam_bottom by lia. rewrite (Cg_ext n _ (fun j => Cmult (RtoC (rat (lam_qdotdot M) (i - n) j)) (RtoC (z j)))) by (intros j Hj; unfold w; rewrite ltb_ge, sub_n; reflexivity).
      rewrite csum_RR. f_equal. apply (H (i - n)%nat). lia. }
  apply RtoC_inj. replace (RtoC (z k)) with (w (n + k)%nat) by (unfold w; rewrite ltb_ge, sub_n; reflexivity).
  rewrite <- (Cg_pick nn (n + k) w) by lia. rewrite (Cg_ext nn _ (fun j => csum nn (fun m => Cmult (Cmult (N0 (n + k)%nat m) (RtoC (rat gam m j))) (w j)))).
  - rewrite (Cg_swap nn nn (fun j m => Cmult (Cmult (N0 (n + k)%nat m) (RtoC (rat gam m j))) (w j))). rewrite (Cg_ext nn _ (fun _ => RtoC 0)); [apply Cg_zero|]. intros m Hm.
    rewrite (Cg_ext nn _ (fun j => Cmult (N0 (n + k)%nat m) (Cmult (RtoC (rat gam m j)) (w j)))) by (intros; ring). rewrite Cg_scal, W by auto. ring.
  - intros j Hj. rewrite <- S2 by lia. rewrite Cmult_comm. rewrite <- Cg_scal. apply Cg_ext. intros m Hm. ring.
Qed.
(** two motions that agree with the equations until T1 agree until T1 *)
Lemma motion_until_unique T0 T1 q p q' p' : T0 <= T1 -> motion o M F T0 q p ->
  (forall k, (k < n)%nat -> q' k T0 = 0 /\ p' k T0 = 0 /\ forall t, continuous (q' k) t /\ continuous (p' k) t) ->
  (forall t, T0 < t < T1 -> quiet o t -> exists acc : nat -> R, forall k, (k < n)%nat -> is_derive (q' k) t (p' k t) /\ is_derive (p' k) t (acc k) /\
    sum n (fun j => coef (lam_qdotdot M) k j * acc j) = sum n (fun j => coef (psi_q M) k j * q' j t) + sum n (fun j => coef (psi_qdot M) k j * p' j t) + pushing o F k t) ->
  forall k t, (k < n)%nat -> T0 <= t <= T1 -> q' k t = q k t /\ p' k t = p k t.
Proof using Hinv Hcinv Heig HE HG.
  intros HT [A D] A' D'. destruct (the_system inv cinv eig Hinv Hcinv Heig o M eigs v Igamv HE) as (N0 & HL & S1 & S2 & S3 & S4 & S5).
  set (w := fun i t => if (i <? n)%nat then q i t - q' i t else p (i - n)%nat t - p' (i - n)%nat t).
  assert (W1 : forall i t, (i < n)%nat -> w i t = q i t - q' i t) by (intros i t Hi; unfold w; rewrite ltb_lt by auto; auto).
  assert (W2 : forall i t, w (n + i)%nat t = p i t - p' i t) by (intros i t; unfold w; rewrite ltb_ge, sub_n; auto).
  assert (Z : forall i t, (i < nn)%nat -> T0 <= t <= T1 -> RtoC (w i t) = RtoC 0).
  { apply (system_unique_on nn (fun i j => RtoC (rat gam i j)) N0 (fun i j => RtoC (rat (make_psi n (psi_q M) (psi_qdot M)) i j)) (cat v) (cat Igamv) (fun j => nth j eigs (RtoC 0)) (events o) S1 S2 S3 S4 S5 (fun i t => RtoC (w i t)) T0 T1 T0); [lra| | |].
    - intros i t Hi. split; cbn [fst snd RtoC]; [|apply continuous_const]. unfold w. destruct (i <? n)%nat eqn:E.
      + apply Nat.ltb_lt in E. apply (continuous_minus (V := R_NormedModule)); [apply (A i E)|apply (A' i E)].
      + apply Nat.ltb_ge in E. apply (continuous_minus (V := R_NormedModule)); [apply (A (i - n)%nat)|apply (A' (i - n)%nat)]; lia.
    - intros t Htt Ht. apply not_event in Ht; [|apply HG]. destruct (D t Ht) as (acc & Q). destruct (D' t Htt Ht) as (acc' & Q').
      exists (fun i => RtoC (if (i <? n)%nat then p i t - p' i t else acc (i - n)%nat - acc' (i - n)%nat)). split.
      + intros i Hi. apply Cderive_R. unfold w. destruct (i <? n)%nat eqn:E.
        * apply Nat.ltb_lt in E. apply (is_derive_minus (V := R_NormedModule)); [apply (Q i E)|apply (Q' i E)].
        * apply Nat.ltb_ge in E. apply (is_derive_minus (V := R_NormedModule)); [apply (Q (i - n)%nat)|apply (Q' (i - n)%nat)]; lia.
      + intros i Hi. destruct (Nat.lt_ge_cases i n) as [L|L].
        * rewrite gam_top, psi_top by auto. rewrite W2, ltb_lt by auto. ring.
        * replace i with (n + (i - n))%nat by lia. set (k := (i - n)%nat). assert (Hk : (k < n)%nat) by (unfold k; lia). clearbody k. rewrite gam_bottom, psi_bottom by auto.
          destruct (Q k Hk) as (_ & _ & E). destruct (Q' k Hk) as (_ & _ & E').
          rewrite (Cg_ext n (fun j => Cmult (RtoC (rat (lam_qdotdot M) k j)) _) (fun j => Cmult (RtoC (rat (lam_qdotdot M) k j)) (RtoC (acc j - acc' j)))) by (intros j Hj; rewrite ltb_ge, sub_n; reflexivity).
          rewrite (Cg_ext n (fun j => Cmult (RtoC (rat (psi_q M) k j)) _) (fun j => Cmult (RtoC (rat (psi_q M) k j)) (RtoC (q j t - q' j t)))) by (intros j Hj; rewrite W1 by auto; reflexivity).
          rewrite (Cg_ext n (fun j => Cmult (RtoC (rat (psi_qdot M) k j)) _) (fun j => Cmult (RtoC (rat (psi_qdot M) k j)) (RtoC (p j t - p' j t)))) by (intros j Hj; rewrite W2 by auto; reflexivity).
          rewrite !csum_RR.
          assert (SM : forall c a b : nat -> R, sum n (fun j => c j * (a j - b j)) = sum n (fun j => c j * a j) - sum n (fun j => c j * b j)).
          { intros c a b. unfold sum. generalize (seq 0 n). intros l. induction l as [|j l IH]; cbn [map fold_right]; [ring|rewrite IH; ring]. }
          rewrite !SM. unfold coef in E, E'. unfold rat. rewrite E, E'. apply C_eq; cbn; ring.
    - intros i Hi. unfold w. destruct (i <? n)%nat eqn:E.
      + apply Nat.ltb_lt in E. destruct (A i E) as (-> & _ & _), (A' i E) as (-> & _ & _). f_equal. ring.
      + apply Nat.ltb_ge in E. destruct (A (i - n)%nat ltac:(lia)) as (_ & -> & _), (A' (i - n)%nat ltac:(lia)) as (_ & -> & _). f_equal. ring. }
  intros k t Hk Ht. assert (Z1 := Z k t ltac:(lia) Ht). assert (Z2 := Z (n + k)%nat t ltac:(lia) Ht). apply RtoC_inj in Z1, Z2. rewrite W1 in Z1 by auto. rewrite W2 in Z2. lra.
Qed.
End Unique.

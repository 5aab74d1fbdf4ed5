(** * Proofs about consolidation with vertical drains (tangandonitsuka2000.py) *)
From Coq Require Import Reals List Arith ZArith Bool Lia Lra.
From Coquelicot Require Import Coquelicot.
From Verif Require Import Base PiecewiseModel LoadModel RootModel ConstitutiveModel SmearModel SpecSmear SpecPiecewise SpecLoad SpecTerzaghi SpecStein SpecTang TangModel SteinModel PropsSmear PropsDeng TerzaghiModel TerzaghiProofs TerzaghiProofs2 SteinProofs SteinProofs3 SteinProofs4 SmearProofs6 SmearProofs7 DengProofs.
Import ListNotations.
Open Scope R_scope.

Record sound_tang (P : tang) : Prop := mkSound {
  so_r : 0 < t_rw P < t_re P; so_s : t_rw P <= t_rs P <= t_re P; so_H : 0 < t_H P; so_kv : 0 <= t_kv P; so_kh : 0 < t_kh P;
  so_ks : 0 < t_ks P; so_kw : 0 < t_kw P; so_mv : 0 < t_mv P; so_g : 0 < t_gamw P }.

Lemma F_ok P : sound_tang P -> exists F, F_func (t_re P / t_rw P) (t_rs P / t_rw P) (t_kh P / t_ks P) = Ok F /\
  is_mu (t_re P / t_rw P) (k_const (t_rs P / t_rw P) (t_kh P / t_ks P)) F /\ 0 < F.
Proof.
  intros [Hr Hs HH Hkv Hkh Hks Hkw Hmv Hg]. set (n := t_re P / t_rw P). set (s := t_rs P / t_rw P). set (kap := t_kh P / t_ks P).
  assert (Hn : 1 < n). { unfold n. apply (Rmult_lt_reg_r (t_rw P)); [lra|]. unfold Rdiv. rewrite Rmult_assoc, Rinv_l by lra. lra. }
  assert (Hsn : 1 <= s <= n).
  { unfold s, n. split; apply (Rmult_le_reg_r (t_rw P)); try lra; unfold Rdiv; rewrite ?Rmult_assoc, ?Rinv_l by lra; lra. }
  assert (Hkap : 0 < kap) by (apply Rdiv_lt_0_compat; auto).
  destruct (proj1 (C34_mu_constant n s kap) Hn Hsn Hkap) as (mu & E & M). rewrite mu_constant_ok in E by auto. injection E as E.
  exists mu. split; [|split; [auto|]].
  - unfold F_func, math_log. assert (0 < n / s) by (apply Rdiv_lt_0_compat; lra).
    replace (Rleb (n / s) 0) with false by (symmetry; apply Rleb_false; auto). replace (Rleb s 0) with false by (symmetry; apply Rleb_false; lra). cbn [bind].
    cbv zeta. f_equal. rewrite <- E. unfold mu_constant_elem. cbv zeta. assert (N2 : n^2 - 1 <> 0) by (assert (1 < n^2) by nra; lra). field. split; lra.
  - apply (is_mu_gt0 n (k_const s kap) mu (1 + / kap)); auto.
    + pose proof (Rinv_0_lt_compat _ Hkap). lra.
    + intros x Hx. pose proof (Rinv_0_lt_compat _ Hkap). unfold k_const. destruct (Rlt_dec x s); lra.
Qed.
Lemma sumn_ssum f n : sumn (map f (seq 0 n)) = ssum f n.
Proof. rewrite total_sumn. induction n as [|n IH]; [reflexivity|]. rewrite total_S, IH. reflexivity. Qed.
Lemma M_k_Mk k : M_k k = Mk k. Proof. unfold M_k, Mk. field. Qed.
Lemma combine_map {A B} (f : A -> B) l : combine l (map f l) = map (fun a => (a, f a)) l.
Proof. induction l as [|a l IH]; [reflexivity|]. cbn. rewrite IH. reflexivity. Qed.

Section S.
Variable P : tang.
Hypothesis So : sound_tang P.
Variable F : R.
Hypothesis HF : 0 < F.
Notation L := (t_H_ P).
Lemma L_pos : 0 < L. Proof. unfold t_H_. pose proof (so_H P So). destruct (Z.eqb _ _); lra. Qed.
Definition Dm (k : nat) : R := 8 / (Mk k)^2 * ((t_re P / t_rw P)^2 - 1) / (t_re P / t_rw P)^2 * (t_kh P / t_kw P * (L / 2 / t_rw P)^2).
Definition bb (k : nat) : R := t_kv P / t_mv P / t_gamw P * (Mk k)^2 / L^2 + t_kh P / t_mv P / t_gamw P * 2 / (t_re P)^2 / (F + Dm k).
Lemma bb_eq k : b_k P F k = bb k.
Proof. unfold b_k, bb, Dm. rewrite M_k_Mk. reflexivity. Qed.
Lemma Dm_pos k : 0 < Dm k.
Proof.
  destruct So as [Hr Hs HH Hkv Hkh Hks Hkw Hmv Hg]. pose proof L_pos. pose proof (Mk_pos k).
  assert (Hn : 1 < t_re P / t_rw P). { apply (Rmult_lt_reg_r (t_rw P)); [lra|]. unfold Rdiv. rewrite Rmult_assoc, Rinv_l by lra. lra. }
  unfold Dm. set (n := t_re P / t_rw P) in *. apply Rmult_lt_0_compat.
  - apply Rdiv_lt_0_compat; [|apply pow_lt; lra]. apply Rmult_lt_0_compat; [|nra]. apply Rdiv_lt_0_compat; [lra|apply pow_lt; auto].
  - apply Rmult_lt_0_compat; [apply Rdiv_lt_0_compat; auto|]. apply pow_lt. apply Rdiv_lt_0_compat; lra.
Qed.
Lemma bb_pos k : 0 < bb k.
Proof.
  destruct So as [Hr Hs HH Hkv Hkh Hks Hkw Hmv Hg]. pose proof L_pos as LP. pose proof (Mk_pos k) as MP. pose proof (Dm_pos k) as DP. unfold bb.
  assert (0 <= t_kv P / t_mv P / t_gamw P * (Mk k)^2 / L^2).
  { unfold Rdiv. pose proof (Rinv_0_lt_compat _ Hmv). pose proof (Rinv_0_lt_compat _ Hg). assert (0 < / L^2) by (apply Rinv_0_lt_compat, pow_lt; auto). assert (0 < Mk k ^ 2) by (apply pow_lt; auto).
    apply Rmult_le_pos; [|lra]. apply Rmult_le_pos; [|lra]. apply Rmult_le_pos; [|lra]. apply Rmult_le_pos; lra. }
  assert (0 < t_kh P / t_mv P / t_gamw P * 2 / (t_re P)^2 / (F + Dm k)); [|lra].
  apply Rdiv_lt_0_compat; [|lra]. apply Rdiv_lt_0_compat; [|apply pow_lt; lra]. apply Rmult_lt_0_compat; [|lra]. apply Rdiv_lt_0_compat; [apply Rdiv_lt_0_compat|]; lra.
Qed.
Notation n := (t_nterms P).
(** response to a unit load: soil and drain *)
Definition resp (a : nat -> R) (z t : R) : R := ssum (fun k => a k * (2 / Mk k * sin (Mk k * z / L) * exp (- bb k * t))) n.
Definition resp_z (a : nat -> R) (z t : R) : R := ssum (fun k => a k * (2 / L * cos (Mk k * z / L) * exp (- bb k * t))) n.
Definition resp_zz (a : nat -> R) (z t : R) : R := ssum (fun k => a k * (- 2 * Mk k / L^2 * sin (Mk k * z / L) * exp (- bb k * t))) n.
Definition resp_t (a : nat -> R) (z t : R) : R := ssum (fun k => a k * (- bb k * (2 / Mk k * sin (Mk k * z / L) * exp (- bb k * t)))) n.
Definition one (k : nat) : R := 1.
Definition well (k : nat) : R := Dm k / (F + Dm k).
Lemma resp_dz a z t : is_derive (fun x => resp a x t) z (resp_z a z t).
Proof.
  pose proof L_pos. apply (ssum_derive (fun k x => a k * (2 / Mk k * sin (Mk k * x / L) * exp (- bb k * t))) (fun k x => a k * (2 / L * cos (Mk k * x / L) * exp (- bb k * t)))). intros k _. pose proof (Mk_pos k).
  generalize dependent (Mk k). intros M HM. generalize dependent L. intros l Hl. generalize (bb k) (a k). intros b c. auto_derive; [auto|]. cbn [pow]. unfold Rdiv. tz_gen. field. lra.
Qed.
Lemma resp_dzz a z t : is_derive (fun x => resp_z a x t) z (resp_zz a z t).
Proof.
  pose proof L_pos. apply (ssum_derive (fun k x => a k * (2 / L * cos (Mk k * x / L) * exp (- bb k * t))) (fun k x => a k * (- 2 * Mk k / L^2 * sin (Mk k * x / L) * exp (- bb k * t)))). intros k _. pose proof (Mk_pos k).
  generalize dependent (Mk k). intros M HM. generalize dependent L. intros l Hl. generalize (bb k) (a k). intros b c. auto_derive; [auto|]. cbn [pow]. unfold Rdiv. tz_gen. field. lra.
Qed.
Lemma resp_dt a z t : is_derive (resp a z) t (resp_t a z t).
Proof.
  apply (ssum_derive (fun k x => a k * (2 / Mk k * sin (Mk k * z / L) * exp (- bb k * x))) (fun k x => a k * (- bb k * (2 / Mk k * sin (Mk k * z / L) * exp (- bb k * x))))). intros k _. pose proof (Mk_pos k).
  generalize dependent (Mk k). intros M HM. generalize (bb k) (a k) (sin (M * z / L)). intros b c s. auto_derive; [auto|]. cbn [pow]. unfold Rdiv. tz_gen. field. lra.
Qed.
Lemma resp_system : drain_system (t_kv P) (t_kh P) (t_kw P) (t_mv P) (t_gamw P) (t_rw P) (t_re P) F (resp one) (resp well).
Proof.
  intros z t. exists (fun y => resp_z one y t), (fun y => resp_z well y t), (resp_t one z t), (resp_zz one z t), (resp_zz well z t).
  split; [apply resp_dt|]. split; [intros; apply resp_dz|]. split; [apply resp_dzz|]. split; [intros; apply resp_dz|]. split; [apply resp_dzz|].
  destruct So as [Hr Hs HH Hkv Hkh Hks Hkw Hmv Hg]. pose proof L_pos as LP. split.
  - unfold resp_t, resp_zz, resp. rewrite <- ssum_minus, <- !ssum_scal, <- ssum_minus. apply ssum_ext. intros k _. pose proof (Mk_pos k) as MP. pose proof (Dm_pos k) as DP. unfold one, well, bb.
    generalize dependent (Dm k). intros D DP. field. repeat split; lra.
  - unfold resp_zz, resp. rewrite <- ssum_minus, <- ssum_scal, Ropp_mult_distr_l, <- ssum_scal. apply ssum_ext. intros k _. pose proof (Mk_pos k) as MP. pose proof (Dm_pos k) as DP. unfold one, well.
    replace (t_re P ^ 2 - t_rw P ^2) with (Dm k * Mk k ^ 2 * t_kw P * t_rw P ^2 * t_re P ^2 / (2 * t_kh P * L^2)) by (unfold Dm; field; repeat split; lra).
    generalize dependent (Dm k). intros D DP. generalize (exp (- bb k * t)). intros e. field. repeat split; try lra.
Qed.
Lemma sin_2M k x : sin (2 * Mk k - x) = sin x.
Proof.
  rewrite sin_minus. replace (2 * Mk k) with (PI + 2 * INR k * PI) by (unfold Mk; field). rewrite sin_period, cos_period, sin_PI, cos_PI. ring.
Qed.
Lemma resp_ends a : (t_drn P = 0 \/ t_drn P = 1)%Z -> drain_ends (t_drn P) (t_H P) (resp a).
Proof.
  intros Hd. pose proof L_pos as LP. split; [|split].
  - intros t. apply ssum_0'. intros k _. replace (Mk k * 0 / L) with 0 by (unfold Rdiv; ring). rewrite sin_0. ring.
  - intros D t. apply ssum_0'. intros k _. replace (Mk k * t_H P / L) with (2 * Mk k - 0) by (unfold t_H_ in *; rewrite D in *; cbn in *; field; lra). rewrite sin_2M, sin_0. ring.
  - intros D t. assert (EL : t_H P = L) by (unfold t_H_; rewrite D; reflexivity). replace 0 with (resp_z a (t_H P) t); [apply resp_dz|].
    apply ssum_0'. intros k _. rewrite EL. replace (Mk k * L / L) with (Mk k) by (field; lra). rewrite cos_Mk. ring.
Qed.
(** the mirrored depth gives the same value *)
Lemma sin_fold k z : sin (Mk k * fold_z P false z / L) = sin (Mk k * z / L).
Proof.
  unfold fold_z. destruct (Z.eqb (t_drn P) 0) eqn:D; [|reflexivity]. destruct (Rltb L z); [|reflexivity].
  assert (EL : t_H P = 2 * L) by (unfold t_H_; rewrite D; field). pose proof L_pos. rewrite EL. replace (Mk k * (2 * L - z) / L) with (2 * Mk k - Mk k * z / L) by (field; lra). apply sin_2M.
Qed.
(** misfit at the moment of loading *)
Lemma resp0_tz z : resp one z 0 = tz_u L 1 1 1 1 n z 0.
Proof.
  unfold resp, tz_u. rewrite Rmult_1_l. apply ssum_ext. intros k _. unfold one. rewrite !Rmult_0_r, !exp_0. unfold Rdiv. rewrite (Rmult_assoc (Mk k)). ring.
Qed.
Lemma resp_mirror a z t : t_drn P = 0%Z -> resp a (t_H P - z) t = resp a z t.
Proof.
  intros D. unfold resp. apply ssum_ext. intros k _. pose proof L_pos. assert (EL : t_H P = 2 * L) by (unfold t_H_; rewrite D; cbn; field).
  rewrite EL. replace (Mk k * (2 * L - z) / L) with (2 * Mk k - Mk k * z / L) by (field; lra). rewrite sin_2M. reflexivity.
Qed.
Lemma mirror_int (f : R -> R) (v : R) : t_drn P = 0%Z -> (forall z, f (t_H P - z) = f z) -> is_RInt f 0 L v -> is_RInt f 0 (t_H P) (2 * v).
Proof.
  intros D E I. assert (EL : t_H P = 2 * L) by (unfold t_H_; rewrite D; cbn; field).
  apply (rint_val _ _ _ (plus v v)); [|unfold plus; cbn; ring]. apply (is_RInt_Chasles f 0 L (t_H P)); [exact I|].
  apply (is_RInt_ext (fun y => opp (scal (-1) (f (-1 * y + t_H P))))).
  - intros y _. unfold opp, scal; cbn; unfold mult; cbn. replace (-1 * y + t_H P) with (t_H P - y) by ring. rewrite E. match goal with |- ?u = ?v => change (@eq R u v) end. ring.
  - apply (rint_val _ _ _ (opp (opp v))); [|unfold opp; cbn; ring]. apply (is_RInt_opp (V := R_NormedModule)). apply (is_RInt_comp_lin f (-1) (t_H P) L (t_H P)).
    replace (-1 * L + t_H P) with L by (rewrite EL; ring). replace (-1 * t_H P + t_H P) with 0 by ring. apply (is_RInt_swap (V := R_NormedModule)). exact I.
Qed.
Lemma whole_int (f : R -> R) (v : R) : (t_drn P = 0%Z -> forall z, f (t_H P - z) = f z) -> is_RInt f 0 L v -> is_RInt f 0 (t_H P) (t_H P * (v / L)).
Proof.
  intros E I. pose proof L_pos. destruct (Z.eq_dec (t_drn P) 0) as [D|D].
  - apply (rint_val _ _ _ (2 * v)); [apply mirror_int; auto|]. assert (EL : t_H P = 2 * L) by (unfold t_H_; rewrite D; cbn; field). rewrite EL. match goal with |- ?u = ?v => change (@eq R u v) end. field. lra.
  - assert (EL : t_H P = L) by (unfold t_H_; apply Z.eqb_neq in D; rewrite D; reflexivity). rewrite EL. apply (rint_val _ _ _ v); [auto|]. match goal with |- ?u = ?v => change (@eq R u v) end. field. lra.
Qed.
Lemma resp_start : (1 <= n)%nat -> exists e, is_RInt (fun z => (resp one z 0 - 1)^2) 0 (t_H P) e /\ e <= t_H P * (2 / (PI^2 * INR n)).
Proof.
  intros Hn. pose proof L_pos as LP. pose proof (tz_misfit L 1 1 1 1 n ltac:(lra)) as I.
  eexists. split.
  - apply whole_int; [intros D z; rewrite resp_mirror by auto; reflexivity|]. eapply is_RInt_ext; [|exact I]. intros z _. cbv beta. rewrite resp0_tz. reflexivity.
  - apply Rmult_le_compat_l; [pose proof (so_H P So); lra|]. replace (1 ^ 2 * L * tz_doc L 1 1 1 n 0 / L) with (tz_doc L 1 1 1 n 0) by (field; lra).
    eapply Rle_trans; [|apply sum_tail; auto]. right. unfold tz_doc. f_equal. apply ssum_ext. intros k _. rewrite !Rmult_0_r, exp_0. ring.
Qed.

(** ** under the load *)
Variable r : R -> R.
Hypothesis Hl : is_load (t_tim P) (t_mag P) r.
Definition as_stein : stein := mkStein [] [] [] 0 0 0 (t_tim P) (t_mag P).
Definition tmv (k : nat) (t : R) : R := match t_calc_Tm P (sqrt (bb k)) t with Ok v => v | Err _ => 0 end.
Lemma tmv_ok k t : t_calc_Tm P (sqrt (bb k)) t = Ok (tmv k t) /\ effect (t_tim P) (t_mag P) r t (fun x => exp (- bb k * x)) (tmv k t).
Proof.
  pose proof (bb_pos k) as Bp. assert (E2 : (sqrt (bb k))^2 = bb k) by (apply pow2_sqrt; lra).
  destruct (calc_Tm_effect as_stein r 1 (sqrt (bb k)) t Hl) as (v & E & X); [rewrite E2; lra|]. change (calc_Tm as_stein 1 (sqrt (bb k)) t) with (t_calc_Tm P (sqrt (bb k)) t) in E.
  unfold tmv. rewrite E. split; [reflexivity|]. eapply effect_ext; [|exact X]. intros w. cbv beta. rewrite E2. f_equal. ring.
Qed.
Lemma Tm_row_ok t : Tm_row P F t = Ok (map (fun k => tmv k t) (seq 0 n)).
Proof.
  unfold Tm_row. apply mapM_map. intros k _. rewrite bb_eq. unfold math_sqrt. pose proof (bb_pos k). replace (Rltb (bb k) 0) with false by (symmetry; apply Rltb_false; lra). cbn [bind]. apply tmv_ok.
Qed.
Definition uu (z t : R) : R := ssum (fun k => 2 / Mk k * sin (Mk k * z / L) * tmv k t) n.
Lemma por1_ok z t : t_por1 P F (fold_z P false z) t = Ok (uu z t).
Proof.
  unfold t_por1. rewrite Tm_row_ok. cbn [bind]. rewrite combine_map, map_map. cbn [fst snd]. rewrite sumn_ssum. f_equal. apply ssum_ext. intros k _. rewrite M_k_Mk, sin_fold. reflexivity.
Qed.
Definition uavg (t : R) : R := ssum (fun k => 2 / (Mk k)^2 * tmv k t) n.
Lemma avp1_ok t : t_avp1 P F t = Ok (uavg t).
Proof.
  unfold t_avp1. rewrite Tm_row_ok. cbn [bind]. rewrite combine_map, map_map. cbn [fst snd]. rewrite sumn_ssum. f_equal. apply ssum_ext. intros k _. rewrite M_k_Mk. reflexivity.
Qed.
Lemma uu_effect z t : effect (t_tim P) (t_mag P) r t (resp one z) (uu z t).
Proof.
  unfold uu. apply (effect_ext _ _ _ _ (fun w => ssum (fun k => 2 / Mk k * sin (Mk k * z / L) * exp (- bb k * w)) n)); [intros w; apply ssum_ext; intros; unfold one; ring|].
  induction n as [|m IH].
  - cbn [ssum]. apply (effect_0 _ _ _ _ _ _ (proj2 (tmv_ok 0 t))).
  - cbn [ssum]. pose proof (effect_lin _ _ _ _ 1 (2 / Mk m * sin (Mk m * z / L)) _ _ _ _ IH (proj2 (tmv_ok m t))) as Q. rewrite Rmult_1_l in Q. eapply effect_ext; [|exact Q]. intros w. cbv beta. ring.
Qed.
Lemma uu_int t : is_RInt (fun z => uu z t) 0 (t_H P) (t_H P * uavg t).
Proof.
  pose proof L_pos as LP. apply (rint_val _ _ _ (t_H P * (L * uavg t / L))); [|field; lra]. apply whole_int.
  - intros D z. unfold uu. apply ssum_ext. intros k _. assert (EL : t_H P = 2 * L) by (unfold t_H_; rewrite D; cbn; field). rewrite EL. replace (Mk k * (2 * L - z) / L) with (2 * Mk k - Mk k * z / L) by (field; lra). rewrite sin_2M. reflexivity.
  - unfold uavg. rewrite <- ssum_scal. apply (ssum_RInt (fun k z => 2 / Mk k * sin (Mk k * z / L) * tmv k t)). intros k _. pose proof (Mk_pos k) as MP.
    apply (rint_val _ _ _ (minus (- (2 * L / (Mk k)^2) * cos (Mk k * L / L) * tmv k t) (- (2 * L / (Mk k)^2) * cos (Mk k * 0 / L) * tmv k t))).
    + apply (is_RInt_derive (fun z => - (2 * L / (Mk k)^2) * cos (Mk k * z / L) * tmv k t)).
      * intros z _. generalize (tmv k t). intros c. generalize dependent (Mk k). intros M MP. generalize dependent L. intros l LP. auto_derive; [auto|]. cbn [pow]. unfold Rdiv. tz_gen. field. lra.
      * intros z _. apply (ex_derive_continuous (V := R_NormedModule)). auto_derive. auto.
    + replace (Mk k * L / L) with (Mk k) by (field; lra). replace (Mk k * 0 / L) with 0 by (unfold Rdiv; ring). rewrite cos_Mk, cos_0. unfold minus, plus, opp; cbn. match goal with |- ?u = ?v => change (@eq R u v) end. field. lra.
Qed.
End S.

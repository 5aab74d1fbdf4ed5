(** * Proofs about consolidation around a column (luetal2010.py) *)
From Coq Require Import Reals List Arith ZArith Bool Lia Lra.
From Coquelicot Require Import Coquelicot.
From Verif Require Import Base ConstitutiveModel SmearModel SpecSmear SpecLu LuModel PropsSmear TerzaghiModel TerzaghiProofs TerzaghiProofs2 SmearProofs6 SmearProofs7 PropsDeng.
Import ListNotations.
Open Scope R_scope.

Lemma l_sum_ssum P f : l_sum P f = ssum f (l_nterms P).
Proof.
  unfold l_sum, np_sum. generalize (l_nterms P). induction n as [|n IH]; [reflexivity|].
  rewrite seq_S, map_app, fold_left_app, IH. reflexivity.
Qed.
(** ** a sum of decaying sine waves *)
Section Series.
Variables H : R.
Hypothesis HH : 0 < H.
Variable b : nat -> R.
Variable n : nat.
Definition ser (a : nat -> R) (z t : R) : R := ssum (fun k => a k * (sin (Mk k * z / H) * exp (- b k * t))) n.
Definition ser_z (a : nat -> R) (z t : R) : R := ssum (fun k => a k * (Mk k / H * cos (Mk k * z / H) * exp (- b k * t))) n.
Definition ser_zz (a : nat -> R) (z t : R) : R := ssum (fun k => - a k * (Mk k / H)^2 * (sin (Mk k * z / H) * exp (- b k * t))) n.
Definition ser_t (a : nat -> R) (z t : R) : R := ssum (fun k => - a k * b k * (sin (Mk k * z / H) * exp (- b k * t))) n.
Lemma ser_dz a z t : is_derive (fun x => ser a x t) z (ser_z a z t).
Proof.
  apply (ssum_derive (fun k x => a k * (sin (Mk k * x / H) * exp (- b k * t))) (fun k x => a k * (Mk k / H * cos (Mk k * x / H) * exp (- b k * t)))). intros k _.
  generalize (Mk k) (b k) (a k). intros M c d. auto_derive; [auto|]. cbn [pow]. unfold Rdiv. tz_gen. field. lra.
Qed.
Lemma ser_dzz a z t : is_derive (fun x => ser_z a x t) z (ser_zz a z t).
Proof.
  apply (ssum_derive (fun k x => a k * (Mk k / H * cos (Mk k * x / H) * exp (- b k * t))) (fun k x => - a k * (Mk k / H)^2 * (sin (Mk k * x / H) * exp (- b k * t)))). intros k _.
  generalize (Mk k) (b k) (a k). intros M c d. auto_derive; [auto|]. cbn [pow]. unfold Rdiv. tz_gen. field. lra.
Qed.
Lemma ser_dt a z t : is_derive (ser a z) t (ser_t a z t).
Proof.
  apply (ssum_derive (fun k x => a k * (sin (Mk k * z / H) * exp (- b k * x))) (fun k x => - a k * b k * (sin (Mk k * z / H) * exp (- b k * x)))). intros k _.
  generalize (b k) (a k) (sin (Mk k * z / H)). intros c d s. auto_derive; [auto|]. cbn [pow]. unfold Rdiv. tz_gen. ring.
Qed.
Lemma ser_ends a : open_top_closed_bottom H (ser a).
Proof.
  split.
  - intros t. apply ssum_0'. intros k _. replace (Mk k * 0 / H) with 0 by (unfold Rdiv; ring). rewrite sin_0. ring.
  - intros t. replace 0 with (ser_z a H t); [apply ser_dz|]. apply ssum_0'. intros k _. replace (Mk k * H / H) with (Mk k) by (field; lra). rewrite cos_Mk. ring.
Qed.
Lemma ser_int a t : is_RInt (fun z => ser a z t) 0 H (H * ssum (fun k => a k / Mk k * exp (- b k * t)) n).
Proof.
  rewrite <- ssum_scal. apply (ssum_RInt (fun k z => a k * (sin (Mk k * z / H) * exp (- b k * t)))). intros k _. pose proof (Mk_pos k) as MP.
  apply (rint_val _ _ _ (minus (- (a k * H / Mk k) * cos (Mk k * H / H) * exp (- b k * t)) (- (a k * H / Mk k) * cos (Mk k * 0 / H) * exp (- b k * t)))).
  - apply (is_RInt_derive (fun z => - (a k * H / Mk k) * cos (Mk k * z / H) * exp (- b k * t))).
    + intros z _. generalize (b k) (a k). intros c d. generalize dependent (Mk k). intros M MP. auto_derive; [auto|]. cbn [pow]. unfold Rdiv. tz_gen. field. lra.
    + intros z _. apply (ex_derive_continuous (V := R_NormedModule)). auto_derive. auto.
  - replace (Mk k * H / H) with (Mk k) by (field; lra). replace (Mk k * 0 / H) with 0 by (unfold Rdiv; ring). rewrite cos_Mk, cos_0. unfold minus, plus, opp; cbn. match goal with |- ?u = ?v => change (@eq R u v) end. field. lra.
Qed.
End Series.

(** ** the algebra of one wave *)
Lemma wave_algebra (r m N kv kvc q x : R) : 0 < r -> 0 < m -> 0 < N -> 0 < kv -> 0 < kvc -> kvc - kv <> 0 ->
  q = (N + 1) * m^2 * (r * kv * kvc * m^2 + N * kv + kvc) / (r * m^2 * (N * kvc + kv) + (N + 1)^2) ->
  x = r * (q * (N * kvc + kv) / (N + 1) - kv * kvc * m^2) / (kvc - kv) ->
  (N + 1) * q = m^2 * (N * kv * (1 + x / N) + kvc * (1 - x)) /\ x * (N + 1) / N = r * (q - kv * m^2 * (1 + x / N)).
Proof.
  intros Hr Hm HN Hkv Hkvc Hd -> ->.
  assert (0 < r * m^2 * (N * kvc + kv) + (N + 1)^2).
  { apply Rplus_lt_0_compat; [|apply pow_lt; lra]. apply Rmult_lt_0_compat; [apply Rmult_lt_0_compat; [auto|apply pow_lt; auto]|]. pose proof (Rmult_lt_0_compat _ _ HN Hkvc). lra. }
  split; field; repeat split; lra.
Qed.

Record sound_lu (P : lu) : Prop := mkSound {
  lo_r : 0 < l_rc P < l_re P; lo_H : 0 < l_H P; lo_kv : 0 < l_kv P; lo_kvc : 0 < l_kvc P; lo_kh : 0 < l_kh P; lo_khc : 0 < l_khc P;
  lo_mvs : 0 < l_mvs P; lo_mvc : 0 < l_mvc P; lo_g : 0 < l_gamw P;
  lo_s : match l_ks P, l_rs P with Some ks, Some rs => 0 < ks /\ l_rc P <= rs <= l_re P | _, _ => True end }.
(** permeability, relative to the undisturbed one, at a distance from the axis of the column, in radii of it *)
Definition around_column (P : lu) : R -> R :=
  match l_ks P, l_rs P with Some ks, Some rs => k_const (rs / l_rc P) (l_kh P / ks) | _, _ => fun _ => 1 end.

Lemma l_mu0_ok P : sound_lu P -> exists mu0, l_mu0 P = Ok mu0 /\ is_mu (l_re P / l_rc P) (around_column P) mu0 /\ 0 < mu0.
Proof.
  intros [Hrw _ _ _ Hkh _ _ _ _ Hs]. unfold l_mu0, around_column, l_n. set (n := l_re P / l_rc P).
  assert (Hn : 1 < n). { unfold n. apply (Rmult_lt_reg_r (l_rc P)); [lra|]. unfold Rdiv. rewrite Rmult_assoc, Rinv_l by lra. lra. }
  assert (I : exists mu0, bind (mu_ideal [n]) (fun l => Ok (hd 0 l)) = Ok mu0 /\ is_mu n (fun _ => 1) mu0 /\ 0 < mu0).
  { exists (mu_ideal_elem n). split; [|split; [apply is_mu_ideal; auto|apply mu_ideal_pos; auto]].
    unfold mu_ideal, any. cbn [existsb]. replace (Rleb n 1) with false by (symmetry; apply Rleb_false; auto). reflexivity. }
  destruct (l_ks P) as [ks|]; [|exact I]. destruct (l_rs P) as [rs|]; [|exact I]. destruct Hs as [Hks Hrs].
  assert (Hsn : 1 <= rs / l_rc P <= n).
  { unfold n. split; apply (Rmult_le_reg_r (l_rc P)); try lra; unfold Rdiv; rewrite ?Rmult_assoc, ?Rinv_l by lra; lra. }
  assert (Hkap : 0 < l_kh P / ks) by (apply Rdiv_lt_0_compat; auto).
  destruct (proj1 (C34_mu_constant n (rs / l_rc P) (l_kh P / ks)) Hn Hsn Hkap) as (mu & E & M). exists mu. split; auto. split; auto.
  apply (is_mu_gt0 n (k_const (rs / l_rc P) (l_kh P / ks)) mu (1 + / (l_kh P / ks))); auto.
  - pose proof (Rinv_0_lt_compat _ Hkap). lra.
  - intros x Hx. pose proof (Rinv_0_lt_compat _ Hkap). unfold k_const. destruct (Rlt_dec x (rs / l_rc P)); lra.
Qed.

Section S.
Variable P : lu.
Hypothesis So : sound_lu P.
Hypothesis Hd : l_kvc P - l_kv P <> 0.
Variable mu : R.
Hypothesis Hmu : 0 < mu.
Definition NN : R := l_n P ^ 2 - 1.
Definition rr : R := (l_re P)^2 * mu / 2 / l_kh P + (l_rc P)^2 * NN / 8 / l_khc P.
Definition mm (k : nat) : R := Mk k / l_H P.
Definition gs : R := l_gamw P * l_mvs P * (NN + 1) / (NN + l_Y P).
Definition qq (k : nat) : R := (NN + 1) * mm k ^2 * (rr * l_kv P * l_kvc P * mm k ^2 + NN * l_kv P + l_kvc P) / (rr * mm k ^2 * (NN * l_kvc P + l_kv P) + (NN + 1)^2).
Definition xx (k : nat) : R := rr * (qq k * (NN * l_kvc P + l_kv P) / (NN + 1) - l_kv P * l_kvc P * mm k ^2) / (l_kvc P - l_kv P).
Lemma NN_pos : 0 < NN.
Proof.
  destruct So. unfold NN, l_n. assert (Hn : 1 < l_re P / l_rc P). { apply (Rmult_lt_reg_r (l_rc P)); [lra|]. unfold Rdiv. rewrite Rmult_assoc, Rinv_l by lra. lra. } nra.
Qed.
Lemma rr_pos : 0 < rr.
Proof.
  pose proof NN_pos. destruct So. unfold rr. apply Rplus_lt_0_compat; apply Rdiv_lt_0_compat; auto; apply Rdiv_lt_0_compat; try lra; apply Rmult_lt_0_compat; auto; apply pow_lt; lra.
Qed.
Lemma Y_pos : 0 < l_Y P. Proof. destruct So. unfold l_Y. apply Rdiv_lt_0_compat; auto. Qed.
Lemma mm_pos k : 0 < mm k. Proof. destruct So. unfold mm. apply Rdiv_lt_0_compat; auto. apply Mk_pos. Qed.
Lemma gs_pos : 0 < gs.
Proof. pose proof NN_pos. pose proof Y_pos. destruct So. unfold gs. apply Rdiv_lt_0_compat; [|lra]. apply Rmult_lt_0_compat; [|lra]. apply Rmult_lt_0_compat; auto. Qed.
Lemma den_pos k : 0 < rr * mm k ^2 * (NN * l_kvc P + l_kv P) + (NN + 1)^2.
Proof.
  pose proof NN_pos as HN. pose proof rr_pos as Hr. pose proof (mm_pos k) as Hm. destruct So. apply Rplus_lt_0_compat; [|apply pow_lt; lra]. apply Rmult_lt_0_compat; [apply Rmult_lt_0_compat; [auto|apply pow_lt; auto]|]. pose proof (Rmult_lt_0_compat _ _ HN lo_kvc0). lra.
Qed.
Lemma betm_eq k : l_betm P mu k = qq k / gs.
Proof.
  pose proof NN_pos as HN. pose proof rr_pos as Hr. pose proof (mm_pos k) as Hm. pose proof Y_pos as HY. pose proof (den_pos k) as HD. pose proof (Mk_pos k) as MP. destruct So.
  assert (E1 : l_betm P mu k = (rr * l_kvc P * mm k ^2 + NN + l_kvc P / l_kv P) * (l_kv P / l_mvs P * (NN + l_Y P)) / ((rr * (NN * l_kvc P + l_kv P) + (NN + 1)^2 / mm k ^2) * l_gamw P)).
  { unfold l_betm. cbv zeta. fold NN. change (l_M k) with (Mk k). unfold rr, mm.
    replace ((l_re P)^2) with ((l_n P)^2 * (l_rc P)^2) by (unfold l_n; field; lra). assert (En : l_n P ^2 = NN + 1) by (unfold NN; ring).
    replace (l_n P ^ 4) with ((l_n P ^2)^2) by ring. rewrite En.
    f_equal; [f_equal; field; lra|]. field. repeat split; lra. }
  rewrite E1. unfold qq, gs. generalize dependent (mm k). intros m ? ? ?. generalize dependent rr. intros r ? ? ?. 
  assert (0 < r * (NN * l_kvc P + l_kv P) + (NN + 1) ^ 2 / m ^ 2). { replace (r * (NN * l_kvc P + l_kv P) + (NN + 1) ^ 2 / m ^ 2) with ((r * m ^ 2 * (NN * l_kvc P + l_kv P) + (NN + 1) ^ 2) / m^2) by (field; lra). apply Rdiv_lt_0_compat; [auto|apply pow_lt; auto]. }
  generalize dependent NN. intros N. intros. field. repeat split; try lra. 
Qed.
Definition cc (k : nat) : R := 2 / Mk k * (l_utop P - minus1 k * (l_utop P - l_ubot P) / Mk k).
Definition bet (k : nat) : R := l_betm P mu k.
Notation H := (l_H P).
Notation n := (l_nterms P).
Definition uall : R -> R -> R := ser H bet n cc.
Definition usoil : R -> R -> R := ser H bet n (fun k => cc k * (1 + xx k / NN)).
Definition ucol : R -> R -> R := ser H bet n (fun k => cc k * (1 - xx k)).
Lemma bet_gs k : gs * bet k = qq k.
Proof. unfold bet. rewrite betm_eq. pose proof gs_pos. field. lra. Qed.
Lemma bet_pos k : 0 < bet k.
Proof.
  unfold bet. rewrite betm_eq. apply Rdiv_lt_0_compat; [|apply gs_pos]. unfold qq. apply Rdiv_lt_0_compat; [|apply den_pos]. pose proof NN_pos as HN. pose proof rr_pos as Hr. pose proof (mm_pos k) as Hm. destruct So.
  assert (0 < mm k ^2) by (apply pow_lt; auto). apply Rmult_lt_0_compat; [apply Rmult_lt_0_compat; lra|].
  assert (0 < rr * l_kv P * l_kvc P * mm k ^2) by (apply Rmult_lt_0_compat; [apply Rmult_lt_0_compat; [apply Rmult_lt_0_compat|]|]; auto).
  assert (0 < NN * l_kv P) by (apply Rmult_lt_0_compat; auto). lra.
Qed.
Definition DD : R := rr * (l_kv P * l_kvc P / (l_kvc P - l_kv P)).
Lemma D_ok : l_D P mu = Ok DD.
Proof. unfold l_D, fdiv. replace (Reqb (l_kvc P - l_kv P) 0) with false by (symmetry; apply Reqb_false; auto). reflexivity. Qed.
Lemma xx_eq k : l_C P mu * bet k - DD * (mm k)^2 = xx k.
Proof.
  pose proof NN_pos as HN. pose proof Y_pos as HY. pose proof (bet_gs k) as E. destruct So.
  unfold xx. rewrite <- E. unfold DD, l_C, gs. fold NN. fold rr. generalize dependent rr. intros r. intros. field. repeat split; lra.
Qed.
Lemma por_eq z t : l_sum P (l_term P mu z t) = uall z t.
Proof. rewrite l_sum_ssum. apply ssum_ext. intros k _. unfold l_term, cc, bet. change (l_M k) with (Mk k). ring. Qed.
Lemma pors_eq z t : l_sum P (fun k => l_term P mu z t k * (1 + (l_C P mu * (l_H P)^2 * l_betm P mu k - DD * (l_M k)^2) / ((l_H P)^2 * (l_n P ^2 - 1)))) = usoil z t.
Proof.
  rewrite l_sum_ssum. apply ssum_ext. intros k _. fold NN. change (l_M k) with (Mk k). fold (bet k). rewrite <- xx_eq. unfold l_term, cc, mm. change (l_M k) with (Mk k). fold (bet k).
  pose proof NN_pos as HN. destruct So. generalize (exp (- bet k * t)) (sin (Mk k * z / H)) (l_C P mu). pose proof (Mk_pos k). intros. field. lra.
Qed.
Lemma porc_eq z t : l_sum P (fun k => l_term P mu z t k * (1 - l_C P mu * l_betm P mu k + DD * (l_M k)^2 / (l_H P)^2)) = ucol z t.
Proof.
  rewrite l_sum_ssum. apply ssum_ext. intros k _. change (l_M k) with (Mk k). fold (bet k). rewrite <- xx_eq. unfold l_term, cc, mm. change (l_M k) with (Mk k). fold (bet k).
  destruct So. generalize (exp (- bet k * t)) (sin (Mk k * z / H)) (l_C P mu). pose proof (Mk_pos k). intros. field. lra.
Qed.
Lemma lu_system : column_system (l_rc P) (l_re P) (l_kv P) (l_kvc P) (l_kh P) (l_khc P) (l_mvs P) (l_mvc P) (l_gamw P) mu uall usoil ucol.
Proof.
  pose proof NN_pos as HN. pose proof Y_pos as HY. pose proof gs_pos as HG. pose proof (lo_H P So) as HH.
  intros z t. exists (fun y => ser_z H bet n (fun k => cc k * (1 + xx k / NN)) y t), (fun y => ser_z H bet n (fun k => cc k * (1 - xx k)) y t), (ser_t H bet n cc z t), (ser_zz H bet n (fun k => cc k * (1 + xx k / NN)) z t), (ser_zz H bet n (fun k => cc k * (1 - xx k)) z t), (- (gs / l_gamw P) * ser_t H bet n cc z t).
  split; [apply ser_dt|]. split; [intros; apply ser_dz; auto|]. split; [apply ser_dzz; auto|]. split; [intros; apply ser_dz; auto|]. split; [apply ser_dzz; auto|].
  assert (E2 : (l_re P)^2 = (NN + 1) * (l_rc P)^2) by (destruct So; unfold NN, l_n; field; lra).
  assert (W : forall k, (NN + 1) * qq k = mm k ^2 * (NN * l_kv P * (1 + xx k / NN) + l_kvc P * (1 - xx k)) /\ xx k * (NN + 1) / NN = rr * (qq k - l_kv P * mm k ^2 * (1 + xx k / NN))).
  { intros k. pose proof rr_pos. pose proof (mm_pos k). destruct So. apply wave_algebra; auto. }
  split; [|split; [|split]].
  - unfold uall, usoil, ucol, ser. rewrite <- !ssum_scal, <- ssum_plus. apply ssum_ext. intros k _. rewrite E2. field. lra.
  - rewrite E2. unfold gs, l_Y. destruct So. pose proof (Rdiv_lt_0_compat _ _ lo_mvs0 lo_mvc0) as HY2. generalize (ser_t H bet n cc z t). intros s. field. repeat split; try lra.
    assert (HX : 0 < NN * l_mvc P) by (apply Rmult_lt_0_compat; auto). lra.
  - rewrite E2. unfold ser_t, ser_zz. rewrite <- !ssum_scal. rewrite <- ssum_plus. 
    match goal with |- _ = - ssum ?g ?m => transitivity (ssum (fun k => -1 * g k) m); [|rewrite ssum_scal; ring] end.
    apply ssum_ext. intros k _. destruct (W k) as [W1 _]. rewrite <- bet_gs in W1. fold (mm k). set (e := sin (Mk k * z / H) * exp (- bet k * t)). pose proof (lo_g P So) as Hg.
    replace ((NN + 1) * l_rc P ^ 2 * (- (gs / l_gamw P) * (- cc k * bet k * e))) with ((NN + 1) * (gs * bet k) * (l_rc P ^2 * cc k * e / l_gamw P)) by (field; lra).
    rewrite W1. field. lra.
  - cbv zeta. unfold uall, usoil, ucol, ser, ser_t, ser_zz. rewrite <- ssum_minus, <- !ssum_scal, <- ssum_plus, <- ssum_scal. apply ssum_ext. intros k _. destruct (W k) as [_ W2]. rewrite <- bet_gs in W2. fold (mm k). set (e := sin (Mk k * z / H) * exp (- bet k * t)).
    transitivity (xx k * (NN + 1) / NN * (cc k * e)); [field; lra|]. rewrite W2. unfold rr. rewrite E2. destruct So. field. repeat split; lra.
Qed.
Lemma lu_ends : open_top_closed_bottom H uall /\ open_top_closed_bottom H usoil /\ open_top_closed_bottom H ucol.
Proof. pose proof (lo_H P So). split; [|split]; apply ser_ends; auto. Qed.
End S.

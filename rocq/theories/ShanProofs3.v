(** * The solution (shanetal2012.py) *)
From Coq Require Import Reals List Arith ZArith Bool Lia Lra String.
From Coquelicot Require Import Coquelicot.
From Verif Require Import Base SpecLu SpecShan TerzaghiModel TerzaghiProofs TangProofs ShanModel ShanProofs ShanProofs2.
Import ListNotations.
Open Scope R_scope.

(** two by two matrices with real eigenvalues *)
Lemma eigen_exists N : 0 < (m11 N - m22_ N)^2 + 4 * (m12 N * m21 N) \/ (m12 N = 0 /\ m21 N = 0) -> exists d, is_eigen N d.
Proof.
  destruct N as [a b c d]; cbn [m11 m12 m21 m22_]. intros D.
  destruct (Req_dec b 0) as [Zb|Nb]; [destruct (Req_dec c 0) as [Zc|Nc]|].
  - exists ((a, d), M22 1 0 0 1). subst. unfold is_eigen, eigen; cbn. repeat split; lra.
  - destruct D as [D|[_ D]]; [|lra]. subst. exists ((a, d), M22 (a - d) 0 c 1). unfold is_eigen, eigen; cbn. repeat split; try ring. intros e. assert (a - d = 0) by lra. rewrite H in D. lra.
  - destruct D as [D|[D _]]; [|lra]. set (s := sqrt ((a - d)^2 + 4 * (b * c))). assert (Sp : 0 < s) by (apply sqrt_lt_R0; auto). assert (Ss : s * s = (a - d)^2 + 4 * (b * c)) by (apply sqrt_sqrt; lra).
    exists (((a + d + s) / 2, (a + d - s) / 2), M22 b b ((d - a + s) / 2) ((d - a - s) / 2)). unfold is_eigen, eigen; cbn [fst snd m11 m12 m21 m22_]. repeat split; try field.
    + transitivity ((b * c * 4 + 2 * d * (d - a) + 2 * d * s) / 4); [field|]. replace (b * c * 4) with (s * s - (a - d)^2) by lra. field.
    + transitivity ((b * c * 4 + 2 * d * (d - a) - 2 * d * s) / 4); [field|]. replace (b * c * 4) with (s * s - (a - d)^2) by lra. field.
    + intros e. assert (b * s = 0) by lra. apply Rmult_integral in H. destruct H; lra.
Qed.

Section Solution.
Variable P : shan.
Notation H := (s_H P).
Notation C := (Cmat P).
Notation K := (Kmat P).
Notation n := (s_nterms P).
Notation L := (the_layer P).
Hypothesis Hs : sound_unsat L.
Lemma sHH : 0 < H. Proof. apply Hs. Qed.
Lemma sHd : (s_drn P = 0 \/ s_drn P = 1)%Z. Proof. apply Hs. Qed.
Lemma detC : det2 C <> 0.
Proof. destruct Hs as (_ & _ & N & _). unfold det2; cbn in *. lra. Qed.
Lemma N_eigen IC : is_inverse C IC -> exists d, is_eigen (dot2 IC K) d.
Proof.
  intros [I1 I2]. apply eigen_exists. pose proof detC as Dc. destruct Hs as (_ & _ & _ & _ & _ & Dd). cbn in Dd. unfold det2 in Dc; cbn in Dc. destruct IC as [a b c d]. unfold dot2 in *; cbn in *. injection I1 as E1 E2 E3 E4. injection I2 as F1 F2 F3 F4.
  set (D := 1 * 1 - s_Cw P * s_Ca P) in *.
  assert (A1 : a = / D). { apply (Rmult_eq_reg_l D); [|auto]. rewrite Rinv_r by auto. unfold D. assert (c = - s_Ca P * a) by lra. subst c. lra. }
  assert (A4 : d = / D). { apply (Rmult_eq_reg_l D); [|auto]. rewrite Rinv_r by auto. unfold D. assert (b = - s_Cw P * d) by lra. subst b. lra. }
  assert (A2 : b = - s_Cw P * d) by lra. assert (A3 : c = - s_Ca P * a) by lra. subst b c. rewrite A1, A4 in *. destruct Dd as [Dd|[Da Dw]].
  - left. assert (Dp : 0 < D * D) by (destruct (Rlt_dec 0 D); nra).
    replace ((/ D * s_Cvw P + - s_Cw P * / D * 0 - (- s_Ca P * / D * 0 + / D * s_Cva P)) * ((/ D * s_Cvw P + - s_Cw P * / D * 0 - (- s_Ca P * / D * 0 + / D * s_Cva P)) * 1) + 4 * ((/ D * 0 + - s_Cw P * / D * s_Cva P) * (- s_Ca P * / D * s_Cvw P + / D * 0)))
      with (((s_Cvw P - s_Cva P)^2 + 4 * s_Ca P * s_Cw P * s_Cvw P * s_Cva P) / (D * D)) by (field; auto).
    apply Rdiv_lt_0_compat; auto.
  - right. rewrite Da, Dw. split; ring.
Qed.
Variables (eigs : R * R) (v Iv IC : m22).
Hypothesis HIC : is_inverse C IC.
Hypothesis HIv : is_inverse v Iv.
Hypothesis Heig : is_eigen (dot2 IC K) (eigs, v).
(** the characteristic polynomial *)
Lemma char_poly e : e = fst eigs \/ e = snd eigs -> (s_Cvw P - e) * (s_Cva P - e) = s_Ca P * s_Cw P * e^2.
Proof.
  intros He. assert (X : exists x, (fst x <> 0 \/ snd x <> 0) /\ apply2 (dot2 IC K) x = scal2 e x).
  { destruct Heig as (E1 & E2 & E3 & E4 & D). cbn [fst snd] in *. destruct He as [-> | ->].
    - exists (m11 v, m21 v). split; [|unfold apply2, scal2; cbn [fst snd]; f_equal; auto]. cbn. destruct (Req_dec (m11 v) 0) as [Z|]; auto. right. intros Z'. apply D. rewrite Z, Z'. ring.
    - exists (m12 v, m22_ v). split; [|unfold apply2, scal2; cbn [fst snd]; f_equal; auto]. cbn. destruct (Req_dec (m12 v) 0) as [Z|]; auto. right. intros Z'. apply D. rewrite Z, Z'. ring. }
  destruct X as (x & Nx & E). assert (E' : apply2 K x = scal2 e (apply2 C x)).
  { rewrite <- apply_scal, <- E, apply_dot, <- apply_dot, (proj1 HIC). rewrite apply_1. reflexivity. }
  destruct x as [x y]. unfold apply2, scal2 in E'; cbn in E', Nx. injection E' as E1 E2. ring_simplify in E1. ring_simplify in E2.
  assert (A : (s_Cvw P - e) * x = e * s_Cw P * y) by lra. assert (B : (s_Cva P - e) * y = e * s_Ca P * x) by lra.
  destruct Nx as [Nx|Nx].
  - apply (Rmult_eq_reg_r x); [|auto]. transitivity ((s_Cva P - e) * ((s_Cvw P - e) * x)); [ring|]. rewrite A. transitivity (e * s_Cw P * ((s_Cva P - e) * y)); [ring|]. rewrite B. ring.
  - apply (Rmult_eq_reg_r y); [|auto]. transitivity ((s_Cvw P - e) * ((s_Cva P - e) * y)); [ring|]. rewrite B. transitivity (e * s_Ca P * ((s_Cvw P - e) * x)); [ring|]. rewrite A. ring.
Qed.
Lemma e_nonzero e : e = fst eigs \/ e = snd eigs -> e <> 0.
Proof.
  intros He Z. pose proof (char_poly e He) as Q. rewrite Z in Q. destruct Hs as (_ & _ & _ & N1 & N2 & _). cbn in N1, N2. assert (Y : s_Cvw P * s_Cva P = 0) by lra. apply Rmult_integral in Y. tauto.
Qed.
(** loads whose time constant is no rate of decay *)
Definition not_resonant (l : load) : Prop := match l with LExp _ b => forall k, (k < n)%nat -> ~ decay_rate L k b | LSin _ _ => True end.
Lemma wn_M k : wave_number L k = s_M P k / H.
Proof. rewrite wn_eq, (M_mu P sHd). reflexivity. Qed.
Lemma fine_ok l : not_resonant l -> fine P eigs l.
Proof.
  intros F k Hk. pose proof sHH as Hp. pose proof (M_pos P sHd k) as Mp. assert (mp : 0 < s_M P k / H) by (apply Rdiv_lt_0_compat; auto).
  assert (X : forall e, e = fst eigs \/ e = snd eigs -> l_fine l (s_M P k / H) e); [|split; apply X; auto].
  intros e He. destruct l as [q0 b|q0 w]; cbn [l_fine not_resonant] in *.
  - intros Z. apply (F k Hk). unfold decay_rate. rewrite wn_M. cbn [ul_Cvw ul_Cva ul_Ca ul_Cw the_layer]. set (m := s_M P k / H) in *. assert (b = - e * m^2) by lra. subst b. pose proof (char_poly e He) as Q.
    transitivity ((m^2)^2 * ((s_Cvw P - e) * (s_Cva P - e))); [ring|]. rewrite Q. ring.
  - set (m := s_M P k / H) in *. assert (0 < e^2 * m^4). { apply Rmult_lt_0_compat; [|apply pow_lt; auto]. pose proof (e_nonzero e He). rewrite <- Rsqr_pow2. apply Rsqr_pos_lt; auto. } pose proof (pow2_ge_0 w). lra.
Qed.
(** loads that may be missing *)
Definition o_value (o : option load) (t : R) : R := match o with None => 0 | Some l => l_value l t end.
Definition o_rate (o : option load) (t : R) : R := match o with None => 0 | Some l => l_rate l t end.
Lemma o_value_d o t : is_derive (o_value o) t (o_rate o t).
Proof. destruct o; cbn; [apply l_value_d|apply (is_derive_const (K := R_AbsRing) (V := R_NormedModule))]. Qed.
Definition o_fine (o : option load) : Prop := match o with None => True | Some l => not_resonant l end.
Lemma with_part o (f : load -> R -> R -> R * R) (g : R -> R -> R * R) u gu : part P u gu ->
  (forall l, o = Some l -> part P (f l) (fun z t => scal2 (l_rate l t) (g z t))) ->
  part P (fun z t => with_load o (fun l => f l z t) (u z t)) (fun z t => add2 (gu z t) (scal2 (o_rate o t) (g z t))).
Proof.
  intros Pu Pf. destruct o as [l|]; cbn [with_load o_rate].
  - apply (part_add P u gu (f l)); auto.
  - intros z t. destruct (Pu z t) as (wz & az & wt & at' & wzz & azz & A1 & A2 & A3 & A4 & A5 & A6 & A7). exists wz, az, wt, at', wzz, azz. repeat (split; [assumption|]). rewrite A7. unfold add2, scal2; cbn [fst snd]. rewrite (surjective_pairing (gu z t)) at 1. f_equal; ring.
Qed.
Definition b1 : R := if Z.eqb (ul_drn L) 0 then 0 else 1.
Definition b3 : R := if Z.eqb (ul_drn L) 0 then 1 else ul_H L.
Lemma sw k z : sin (s_M P k * z / H) = wave L k z.
Proof. unfold wave. rewrite wn_M. pose proof sHH. f_equal. field. lra. Qed.
Lemma sum_pp (g : nat -> R) a b z : (forall k, g k = cf L a b k) -> ssum (fun k => g k * sin (s_M P k * z / H)) n = pp L n a b z.
Proof. intros E. unfold pp. apply ssum_ext. intros k _. rewrite E, sw. reflexivity. Qed.
Lemma ig0 k : 2 * (1 - cos (s_M P k)) / s_M P k = cf L 1 1 k.
Proof. unfold cf. rewrite <- (M_mu P sHd). pose proof (M_pos P sHd k). field. lra. Qed.
Lemma ig1 k : igral_top P k = cf L 1 b1 k.
Proof. unfold igral_top, cf, b1. rewrite <- (M_mu P sHd). pose proof (M_pos P sHd k). cbn [ul_drn the_layer]. destruct (Z.eqb (s_drn P) 0); field; lra. Qed.
Lemma ig3 k : igral_bot P k = cf L 0 b3 k.
Proof. unfold igral_bot, cf, b3. rewrite <- (M_mu P sHd). pose proof (M_pos P sHd k). cbn [ul_drn ul_H the_layer]. destruct (Z.eqb (s_drn P) 0); field; lra. Qed.
Lemma lt_eq z : lift_top P z = linear_with_depth H 1 b1 z.
Proof. unfold lift_top, linear_with_depth, b1. cbn [ul_drn the_layer]. destruct (Z.eqb (s_drn P) 0); ring. Qed.
Lemma lb_eq z : lift_bot P z = linear_with_depth H 0 b3 z.
Proof. unfold lift_bot, linear_with_depth, b3. cbn [ul_drn ul_H the_layer]. pose proof sHH. destruct (Z.eqb (s_drn P) 0); field; lra. Qed.
Lemma g_eq ui k : g_coef P ui k = cf L (fst ui) (snd ui) k.
Proof. unfold g_coef, cf. rewrite <- (M_mu P sHd). pose proof (M_pos P sHd k). pose proof sHH. field. lra. Qed.
Lemma part_ext u u' g g' : (forall z t, u z t = u' z t) -> (forall z t, g z t = g' z t) -> part P u g -> part P u' g'.
Proof.
  intros Eu Eg Pu z t. destruct (Pu z t) as (wz & az & wt & at' & wzz & azz & A1 & A2 & A3 & A4 & A5 & A6 & A7). exists wz, az, wt, at', wzz, azz.
  split; [eapply is_derive_ext; [|exact A1]; intros; cbn beta; rewrite Eu; reflexivity|].
  split; [eapply is_derive_ext; [|exact A2]; intros; cbn beta; rewrite Eu; reflexivity|].
  split; [intros y; eapply is_derive_ext; [|exact (A3 y)]; intros; cbn beta; rewrite Eu; reflexivity|].
  split; [auto|]. split; [intros y; eapply is_derive_ext; [|exact (A5 y)]; intros; cbn beta; rewrite Eu; reflexivity|]. split; auto. rewrite A7. apply Eg.
Qed.

Variables f f1 f2 f3 f4 : option load.
Notation u := (fun z t => cell P eigs v Iv IC z t f f1 f2 f3 f4).
Hypotheses (F0 : o_fine f) (F1 : o_fine f1) (F2 : o_fine f2) (F3 : o_fine f3) (F4 : o_fine f4).
Definition m1 (z : R) : R := linear_with_depth H 1 b1 z - pp L n 1 b1 z.
Definition m3 (z : R) : R := linear_with_depth H 0 b3 z - pp L n 0 b3 z.
Lemma end_part (w : bool) o (lift : R -> R) (ig : nat -> R) a b : o_fine o -> (forall z, lift z = linear_with_depth H a b z) -> (forall k, ig k = cf L a b k) ->
  forall l, o = Some l -> part P (fun z t => add2 (if w then (l_value l t * lift z, 0) else (0, l_value l t * lift z)) (load_part P eigs v Iv IC z t l ig (if w then (-1, - s_Ca P) else (- s_Cw P, -1))))
    (fun z t => scal2 (l_rate l t) (scal2 (linear_with_depth H a b z - pp L n a b z) (if w then (1, s_Ca P) else (s_Cw P, 1)))).
Proof.
  intros Fo El Ei l ->.
  eapply part_ext; [| |apply (part_add P _ _ _ _ (lift_is_part P sHH w l a b) (load_is_part P sHH eigs v Iv IC HIC HIv Heig l ig (if w then (-1, - s_Ca P) else (- s_Cw P, -1)) (fine_ok l Fo)))].
  - intros z t. cbn beta. rewrite El. reflexivity.
  - intros z t. cbn beta. rewrite (sum_pp ig a b z Ei). destruct w; unfold add2, scal2; cbn [fst snd]; f_equal; ring.
Qed.
Lemma sur_part l : f = Some l -> part P (fun z t => load_part P eigs v Iv IC z t l (fun k => 2 * (1 - cos (s_M P k)) / s_M P k) (s_Csw P, s_Csa P))
  (fun z t => scal2 (l_rate l t) (scal2 (pp L n 1 1 z) (s_Csw P, s_Csa P))).
Proof.
  intros Ef. pose proof F0 as Fo. rewrite Ef in Fo. eapply part_ext; [| |apply (load_is_part P sHH eigs v Iv IC HIC HIv Heig l (fun k => 2 * (1 - cos (s_M P k)) / s_M P k) (s_Csw P, s_Csa P) (fine_ok l Fo))].
  + intros z t. reflexivity.
  + intros z t. cbn beta. rewrite (sum_pp _ 1 1 z ig0). unfold scal2; cbn [fst snd]. f_equal; ring.
Qed.
Lemma cell_part : part P u (fun z t => add2 (scal2 (o_rate f t) (scal2 (pp L n 1 1 z) (s_Csw P, s_Csa P)))
  (add2 (scal2 (m1 z * o_rate f1 t + m3 z * o_rate f3 t) (1, s_Ca P)) (scal2 (m1 z * o_rate f2 t + m3 z * o_rate f4 t) (s_Cw P, 1)))).
Proof.
  eapply part_ext; [| |
    apply (with_part f4 _ (fun z t => scal2 (m3 z) (s_Cw P, 1)) _ _
      (with_part f3 _ (fun z t => scal2 (m3 z) (1, s_Ca P)) _ _
        (with_part f2 _ (fun z t => scal2 (m1 z) (s_Cw P, 1)) _ _
          (with_part f1 _ (fun z t => scal2 (m1 z) (1, s_Ca P)) _ _
            (with_part f _ (fun z t => scal2 (pp L n 1 1 z) (s_Csw P, s_Csa P)) _ _ (initial_is_part P sHH eigs v Iv IC HIC HIv Heig)
              sur_part)
            (end_part true f1 (lift_top P) (igral_top P) 1 b1 F1 lt_eq ig1))
          (end_part false f2 (lift_top P) (igral_top P) 1 b1 F2 lt_eq ig1))
        (end_part true f3 (lift_bot P) (igral_bot P) 0 b3 F3 lb_eq ig3))
      (end_part false f4 (lift_bot P) (igral_bot P) 0 b3 F4 lb_eq ig3))].
  - intros z t. unfold cell. cbn zeta. reflexivity.
  - intros z t. cbn beta. unfold add2, scal2; cbn [fst snd]. f_equal; ring.
Qed.
Definition hist : histories := mkHist (o_value f) (o_value f1) (o_value f2) (o_value f3) (o_value f4).
Theorem cell_governed : governed L n hist (fun z t => fst (u z t)) (fun z t => snd (u z t)).
Proof.
  exists (pp L n 1 1), (pp L n 1 b1), (pp L n 0 b3). cbn zeta. fold b1 b3.
  split; [apply pp_approximates; apply Hs|split; [apply pp_approximates; apply Hs|split; [apply pp_approximates; apply Hs|]]].
  intros z t. destruct (cell_part z t) as (wz & az & wt & at' & wzz & azz & A1 & A2 & A3 & A4 & A5 & A6 & A7).
  exists wz, az, wt, at', wzz, azz, (o_rate f t), (o_rate f1 t), (o_rate f2 t), (o_rate f3 t), (o_rate f4 t). cbn [hist h_q h_wtop h_atop h_wbot h_abot].
  repeat (split; [first [assumption|apply o_value_d]|]).
  cbn zeta. cbn [ul_H the_layer]. fold (m1 z) (m3 z). apply (f_equal (fun p => (fst p, snd p))) in A7. unfold add2, apply2, scal2 in A7; cbn [fst snd] in A7. injection A7 as B1 B2. cbn in B1, B2. cbn [ul_Cw ul_Ca ul_Cvw ul_Cva ul_Csw ul_Csa the_layer]. split; lra.
Qed.
(** boundary and initial values of the series *)
Lemma sum_S_top X : sum_S P X 0 = (0, 0).
Proof. rewrite sum_S_eq. f_equal; apply ssum_0'; intros k _; replace (s_M P k * 0 / H) with 0 by (unfold Rdiv; ring); rewrite sin_0; ring. Qed.
Lemma with_sum o (g : load -> R * R) x : with_load o g x = add2 x (match o with None => (0, 0) | Some l => g l end).
Proof. destruct o; cbn [with_load]; auto. unfold add2; cbn. rewrite !Rplus_0_r. apply surjective_pairing. Qed.
(** the solution is a linear profile plus a series *)
Lemma cell_split z t : exists X, u z t = add2 (o_value f1 t * lift_top P z + o_value f3 t * lift_bot P z, o_value f2 t * lift_top P z + o_value f4 t * lift_bot P z) (sum_S P X z) /\
  forall z', u z' t = add2 (o_value f1 t * lift_top P z' + o_value f3 t * lift_bot P z', o_value f2 t * lift_top P z' + o_value f4 t * lift_bot P z') (sum_S P X z').
Proof.
  assert (Z : forall z', sum_S P (fun _ => (0, 0)) z' = (0, 0)) by (intros; rewrite sum_S_eq; f_equal; apply ssum_0'; intros; cbn; ring).
  assert (Ad : forall X Y z', add2 (sum_S P X z') (sum_S P Y z') = sum_S P (fun k => add2 (X k) (Y k)) z') by (intros; rewrite !sum_S_eq; unfold add2; cbn [fst snd]; rewrite <- !ssum_plus; f_equal; apply ssum_ext; intros; ring).
  assert (Ld : forall o ig Cs, exists X, forall z', (match o with None => (0, 0) | Some l => load_part P eigs v Iv IC z' t l ig Cs end) = sum_S P X z').
  { intros [l|] ig Cs; [eexists; intros z'; unfold load_part; reflexivity|exists (fun _ => (0, 0)); intros; symmetry; apply Z]. }
  destruct (Ld f (fun k => 2 * (1 - cos (s_M P k)) / s_M P k) (s_Csw P, s_Csa P)) as (X0 & E0). destruct (Ld f1 (igral_top P) (-1, - s_Ca P)) as (X1 & E1). destruct (Ld f2 (igral_top P) (- s_Cw P, -1)) as (X2 & E2). destruct (Ld f3 (igral_bot P) (-1, - s_Ca P)) as (X3 & E3). destruct (Ld f4 (igral_bot P) (- s_Cw P, -1)) as (X4 & E4).
  pose (XI := fun k => response eigs v Iv (fun e => exp ((s_M P k)^2 / H^2 * e * t)) (g_coef P (s_uwi P) k, g_coef P (s_uai P) k)).
  pose (X := fun k => add2 (XI k) (add2 (X0 k) (add2 (X1 k) (add2 (X2 k) (add2 (X3 k) (X4 k)))))).
  assert (G : forall z', u z' t = add2 (o_value f1 t * lift_top P z' + o_value f3 t * lift_bot P z', o_value f2 t * lift_top P z' + o_value f4 t * lift_bot P z') (sum_S P X z')); [|exists X; split; [apply G|exact G]].
  intros z'. unfold X. rewrite <- !Ad, <- E0, <- E1, <- E2, <- E3, <- E4. unfold cell. cbn zeta. change (initial_part P eigs v Iv z' t) with (sum_S P XI z').
  rewrite !with_sum. destruct f, f1, f2, f3, f4; cbn [o_value]; unfold add2; cbn [fst snd]; f_equal; ring.
Qed.
Theorem cell_ends : unsat_ends L hist (fun z t => fst (u z t)) (fun z t => snd (u z t)).
Proof.
  pose proof sHH as Hp. unfold unsat_ends. cbn [hist h_wtop h_atop h_wbot h_abot ul_drn ul_H the_layer].
  split; [|split; [|split]].
  - intros t. destruct (cell_split 0 t) as (X & E & _). rewrite E, sum_S_top. unfold add2, lift_top, lift_bot; cbn [fst snd]. destruct (Z.eqb _ _); field; lra.
  - intros t. destruct (cell_split 0 t) as (X & E & _). rewrite E, sum_S_top. unfold add2, lift_top, lift_bot; cbn [fst snd]. destruct (Z.eqb _ _); field; lra.
  - intros D t. destruct (cell_split H t) as (X & E & _).
    assert (S0 : sum_S P X H = (0, 0)).
    { rewrite sum_S_eq. f_equal; apply ssum_0'; intros k _; replace (s_M P k * H / H) with (s_M P k) by (field; lra); rewrite (M_mu P sHd), (proj2 (cos_mu0 L k D)); ring. }
    rewrite E, S0. unfold add2, lift_top, lift_bot; cbn [fst snd]. rewrite D; cbn [Z.eqb]. split; field; lra.
  - intros D t. destruct (cell_split 0 t) as (X & _ & E).
    assert (Dm : forall k, cos (s_M P k * H / H) = 0) by (intros k; replace (s_M P k * H / H) with (s_M P k) by (field; lra); rewrite (M_mu P sHd), (mu1 L k D); apply cos_Mk).
    assert (G : forall (p : R * R -> R) (c1 c3 : R), is_derive (fun x => (c1 * lift_top P x + c3 * lift_bot P x) + ssum (fun k => sin (s_M P k * x / H) * p (X k)) n) H c3).
    { intros p c1 c3. unfold lift_top, lift_bot. rewrite D. cbn [Z.eqb].
      assert (Da : is_derive (fun x => c1 * 1 + c3 * x) H c3) by (auto_derive; auto; ring).
      assert (Db : is_derive (fun x => ssum (fun k => sin (s_M P k * x / H) * p (X k)) n) H 0).
      { rewrite <- (ssum_0' (fun k => s_M P k / H * cos (s_M P k * H / H) * p (X k)) n) by (intros; rewrite Dm; ring).
        apply (ssum_derive (fun k x => sin (s_M P k * x / H) * p (X k)) (fun k x => s_M P k / H * cos (s_M P k * x / H) * p (X k))). intros k _. auto_derive; [auto|]. unfold Rdiv. field. lra. }
      pose proof (is_derive_plus (V := R_NormedModule) _ _ _ _ _ Da Db) as Dc. change (plus c3 0) with (c3 + 0) in Dc. rewrite Rplus_0_r in Dc. exact Dc. }
    split; [eapply is_derive_ext; [|apply (G fst (o_value f1 t) (o_value f3 t))]|eapply is_derive_ext; [|apply (G snd (o_value f2 t) (o_value f4 t))]]; intros x; cbn beta; rewrite E, sum_S_eq; reflexivity.
Qed.
Lemma l_value_0 l : l_value l 0 = 0.
Proof. destruct l; cbn [l_value]; rewrite Rmult_0_r; [rewrite exp_0|rewrite sin_0]; ring. Qed.
Lemma load_part_0 z l ig Cs : load_part P eigs v Iv IC z 0 l ig Cs = (0, 0).
Proof.
  unfold load_part. rewrite sum_S_eq. f_equal; apply ssum_0'; intros k _; rewrite (resp_ext eigs v Iv _ (fun _ => 0)) by apply E_load_0; rewrite (resp_const eigs v Iv HIv); unfold scal2; cbn [fst snd]; ring.
Qed.
Theorem cell_initial z : u z 0 = (pp L n (fst (s_uwi P)) (snd (s_uwi P)) z, pp L n (fst (s_uai P)) (snd (s_uai P)) z).
Proof.
  unfold cell. cbn zeta. rewrite !with_sum.
  assert (I : initial_part P eigs v Iv z 0 = (pp L n (fst (s_uwi P)) (snd (s_uwi P)) z, pp L n (fst (s_uai P)) (snd (s_uai P)) z)).
  { unfold initial_part. rewrite sum_S_eq. f_equal; unfold pp; apply ssum_ext; intros k _; rewrite (resp_ext eigs v Iv _ (fun _ => 1)) by (rewrite Rmult_0_r, exp_0; reflexivity); rewrite (resp_one eigs v Iv HIv); cbn [fst snd]; rewrite g_eq, sw; ring. }
  rewrite I. destruct f, f1, f2, f3, f4; rewrite ?load_part_0, ?l_value_0; unfold add2; cbn [fst snd]; f_equal; ring.
Qed.
End Solution.

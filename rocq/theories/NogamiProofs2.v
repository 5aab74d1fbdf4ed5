(** * Proofs about the layered soil with a drain: the shape with depth *)
From Coq Require Import Reals List Arith ZArith Bool Lia Lra.
From Coquelicot Require Import Coquelicot.
From Verif Require Import Base ConstitutiveModel SpecPiecewise SpecStein SteinModel NogamiModel SpecNogami TerzaghiProofs SteinProofs SteinProofs4 NogamiProofs.
Import ListNotations.
Local Open Scope R_scope.

(** a continuous function, not negative, with integral zero is zero inside *)
Lemma zero_int f a b : (forall x, a <= x <= b -> continuous f x) -> (forall x, a < x < b -> 0 <= f x) -> is_RInt f a b 0 -> forall x, a < x < b -> f x = 0.
Proof.
  intros Hc Hp HI x Hx. set (F := fun y => RInt f a y).
  assert (Ex : forall u v, a <= u <= b -> a <= v <= b -> ex_RInt f u v).
  { intros u v Hu Hv. apply (ex_RInt_continuous (V := R_CompleteNormedModule)). intros w Hw. apply Hc. unfold Rmin, Rmax in Hw. destruct (Rle_dec u v); lra. }
  assert (D : is_derive F x (f x)).
  { unfold F. apply (is_derive_RInt (V := R_NormedModule) f (fun y => RInt f a y) a x); [|apply Hc; lra].
    assert (P0 : 0 < Rmin (x - a) (b - x)) by (apply Rmin_glb_lt; lra). exists (mkposreal _ P0). intros w Hw. unfold ball in Hw. cbn in Hw. unfold AbsRing_ball, abs, minus, plus, opp in Hw. cbn in Hw.
    pose proof (Rmin_l (x - a) (b - x)). pose proof (Rmin_r (x - a) (b - x)). apply Rabs_def2 in Hw. apply (RInt_correct (V := R_CompleteNormedModule)). apply Ex; lra. }
  assert (Z : forall y, a < y < b -> F y = 0).
  { intros y Hy. unfold F. pose proof (RInt_Chasles (V := R_CompleteNormedModule) f a y b (Ex a y ltac:(lra) ltac:(lra)) (Ex y b ltac:(lra) ltac:(lra))) as Q. rewrite (is_RInt_unique (V := R_CompleteNormedModule) _ _ _ _ HI) in Q.
    pose proof (RInt_ge_0 f a y (Rlt_le _ _ (proj1 Hy)) (Ex a y ltac:(lra) ltac:(lra)) (fun x Hx => Hp x ltac:(lra))) as Q1. pose proof (RInt_ge_0 f y b (Rlt_le _ _ (proj2 Hy)) (Ex y b ltac:(lra) ltac:(lra)) (fun x Hx => Hp x ltac:(lra))) as Q2.
    change (RInt f a y + RInt f y b = 0) in Q. apply Rle_antisym; [|exact Q1]. change (0 <= RInt f y b) in Q2. change (RInt f a y <= 0). lra. }
  assert (D0 : is_derive F x 0).
  { apply (is_derive_ext_loc (fun _ => 0)); [|apply (is_derive_const (V := R_NormedModule))].
    assert (P0 : 0 < Rmin (x - a) (b - x)) by (apply Rmin_glb_lt; lra). exists (mkposreal _ P0). intros y Hy. unfold ball in Hy. cbn in Hy. unfold AbsRing_ball, abs, minus, plus, opp in Hy. cbn in Hy.
    pose proof (Rmin_l (x - a) (b - x)). pose proof (Rmin_r (x - a) (b - x)). apply Rabs_def2 in Hy. symmetry. apply Z. lra. }
  pose proof (is_derive_unique _ _ _ D) as U1. pose proof (is_derive_unique _ _ _ D0) as U2. congruence.
Qed.
(** f'' = - a f has only these solutions *)
Lemma only_wv f g a d : a <> 0 -> (forall z, is_derive f z (g z) /\ is_derive g z (- a * f z)) -> forall z, f z = wv a (f d) (g d) (z - d) /\ g z = wd a (f d) (g d) (z - d).
Proof.
  intros Ha D z.
  set (A := fun x => f x * cc a (x - d) - g x * ss a (x - d)). set (B := fun x => a * f x * ss a (x - d) + g x * cc a (x - d)).
  assert (DD : forall x, is_derive A x 0 /\ is_derive B x 0).
  { intros x. destruct (D x) as [D1 D2]. pose proof (cc_d a (x - d) Ha) as D3. pose proof (ss_d a (x - d) Ha) as D4.
    assert (X1 : ex_derive f x) by (eexists; eauto). assert (X2 : ex_derive g x) by (eexists; eauto). assert (X3 : ex_derive (cc a) (x - d)) by (eexists; eauto). assert (X4 : ex_derive (ss a) (x - d)) by (eexists; eauto).
    unfold A, B. split; auto_derive; auto; change (fun x => cc a x) with (cc a); change (fun x => ss a x) with (ss a); change (fun x => f x) with f; change (fun x => g x) with g; unfold Rminus in *;
      rewrite (is_derive_unique _ _ _ D1), (is_derive_unique _ _ _ D2), (is_derive_unique _ _ _ D3), (is_derive_unique _ _ _ D4); ring. }
  assert (Const : forall h : R -> R, (forall x, is_derive h x 0) -> h z = h d).
  { intros h Hh. destruct (MVT_gen h d z (fun _ => 0)) as (x & _ & M); [intros; apply Hh|intros x _; apply continuity_pt_filterlim; apply (ex_derive_continuous (V := R_NormedModule) h x (ex_intro _ _ (Hh x)))|lra]. }
  pose proof (Const A (fun x => proj1 (DD x))) as CA. pose proof (Const B (fun x => proj2 (DD x))) as CB. unfold A, B in CA, CB. replace (d - d) with 0 in CA, CB by ring. rewrite cc_0, ss_0 in CA, CB.
  pose proof (cc_ss a (z - d) Ha) as I. unfold wv, wd. set (c := cc a (z - d)) in *. set (s := ss a (z - d)) in *.
  assert (E1 : f d = f z * c - g z * s) by lra. assert (E2 : g d = a * f z * s + g z * c) by lra. rewrite E1, E2.
  split; apply Rminus_diag_uniq; [transitivity (f z * (1 - (c^2 + a * s^2)))|transitivity (g z * (1 - (c^2 + a * s^2)))]; try ring; rewrite I; ring.
Qed.

Section Vert.
Variable P : nogami.
Definition nsoil : soil := mkSoil (g_h P) (g_kv P) (g_mv P).
Notation s := nsoil.
Notation N := (g_layers P).
Hypothesis Hs : is_soil s.
Definition as_stein : stein := mkStein (g_h P) (g_kv P) (g_mv P) (g_bctop P) (g_bcbot P) (g_nv P) (g_tim P) (g_mag P).
Lemma Hs' : is_soil (soil_of as_stein). Proof. exact Hs. Qed.
Lemma gN : N = layers s. Proof. exact (N_layers as_stein Hs'). Qed.
Lemma gN_pos : (1 <= N)%nat. Proof. exact (N_pos as_stein Hs'). Qed.
Lemma gh_pos i : (i < N)%nat -> 0 < gh P i. Proof. exact (hpos as_stein Hs' i). Qed.
Lemma gkv_pos i : (i < N)%nat -> 0 < gkv P i. Proof. exact (kvpos as_stein Hs' i). Qed.
Lemma gmv_pos i : (i < N)%nat -> 0 < gmv P i. Proof. exact (mvpos as_stein Hs' i). Qed.
Lemma gdepth i : (i < N)%nat -> depth s (S i) = depth s i + gh P i. Proof. exact (depth_step as_stein i). Qed.
Lemma gtop i : (i < N)%nat -> nth i (g_zlayer P) 0 - gh P i = depth s i. Proof. exact (zlayer_top as_stein Hs' i). Qed.
Lemma gin_layer z : 0 <= z <= depth s N -> let i := searchsorted (g_zlayer P) z in (i < N)%nat /\ depth s i <= z <= depth s (S i). Proof. exact (in_layer as_stein Hs' z). Qed.

(** horizontal permeability, radius of the drain *)
Definition lat (k : nat) : R := match g_drain P with Some d => nth k (d_kh d) 0 | None => 0 end.
Definition rad : R := match g_drain P with Some d => d_r0 d | None => 1 end.
Hypothesis Hr : 0 < rad.
Variables alp sv : R.
Definition coef (k : nat) : R := (alp^2 * gmv P k - lat k * (sv / rad)^2) / gkv P k.
Lemma g_beta_eq k : (k < N)%nat -> g_beta P alp sv k = csqrt (coef k).
Proof.
  intros Hk. unfold g_beta, coef, gch, gcv, lat, rad in *. pose proof (gkv_pos k Hk). pose proof (gmv_pos k Hk). destruct (g_drain P) as [d|]; f_equal; field; lra.
Qed.
Hypothesis Hc : forall k, (k < N)%nat -> coef k <> 0.
Variables p0 q0 : R.
Fixpoint rst (k : nat) : R * R :=
  match k with O => (p0, q0) | S j => (wv (coef j) (fst (rst j)) (snd (rst j)) (gh P j), wd (coef j) (fst (rst j)) (snd (rst j)) (gh P j) * gkv P j / gkv P (S j)) end.
Notation p k := (fst (rst k)). Notation q k := (snd (rst k)).
Notation bet := (g_beta P alp sv).
Notation st := (state P bet (RtoC p0, RtoC q0)).
Lemma state_real k : (k < N)%nat -> st k = (RtoC (p k), RtoC (q k)).
Proof.
  induction k as [|k IH]; intros Hk; [reflexivity|]. cbn [state rst]. rewrite IH by lia. rewrite g_beta_eq, transfer_real by (auto; try (apply Hc; auto); lia). cbn [fst snd].
  f_equal. pose proof (gkv_pos (S k) Hk). rewrite <- RtoC_mult, <- RtoC_div by lra. reflexivity.
Qed.
Definition vshape (k : nat) (z : R) : R := wv (coef k) (p k) (q k) (z - depth s k).
Definition vslope (k : nat) (z : R) : R := wd (coef k) (p k) (q k) (z - depth s k).
Lemma v_equation k z : (k < N)%nat -> is_derive (vshape k) z (vslope k z) /\ is_derive (vslope k) z (- coef k * vshape k z).
Proof. intros Hk. split; [apply wv_d|apply wd_d]; apply Hc; auto. Qed.
Lemma v_top : vshape 0 0 = p0 /\ vslope 0 0 = q0.
Proof. unfold vshape, vslope. unfold depth. rewrite total_0, Rminus_0_r, wv_0, wd_0. auto. Qed.
Lemma v_start k : vshape k (depth s k) = p k /\ vslope k (depth s k) = q k.
Proof. unfold vshape, vslope. replace (depth s k - depth s k) with 0 by ring. rewrite wv_0, wd_0. auto. Qed.
Lemma v_end k : (k < N)%nat -> vshape k (depth s (S k)) = wv (coef k) (p k) (q k) (gh P k) /\ vslope k (depth s (S k)) = wd (coef k) (p k) (q k) (gh P k).
Proof. intros Hk. unfold vshape, vslope. rewrite gdepth by auto. replace (depth s k + gh P k - depth s k) with (gh P k) by ring. auto. Qed.
Definition vmode (A : R) : mode := mkMode A (alp^2) vshape vslope.
Lemma v_joined A : joined s (vmode A).
Proof.
  intros k Hk. rewrite <- gN in Hk. cbn [shape slope vmode]. destruct (v_end k ltac:(lia)) as [-> ->]. destruct (v_start (S k)) as [-> ->]. cbn [rst fst snd]. split; auto.
  change (at_ (perm s) k) with (gkv P k). change (at_ (perm s) (S k)) with (gkv P (S k)). pose proof (gkv_pos (S k) Hk). field. lra.
Qed.
Lemma char_real i : vertical_characteristic P (RtoC p0, RtoC q0) i sv alp = if i : bool then vslope (N - 1) (depth s N) else vshape (N - 1) (depth s N).
Proof.
  pose proof gN_pos as NP. unfold vertical_characteristic. cbv zeta. rewrite state_real by lia. rewrite g_beta_eq, transfer_real by (auto; try (apply Hc); lia). cbn [fst snd].
  destruct (v_end (N - 1) ltac:(lia)) as [E1 E2]. replace (S (N - 1)) with N in E1, E2 by lia. destruct i; [rewrite E2|rewrite E1]; reflexivity.
Qed.
(** every other shape with the same conditions is a multiple *)
Lemma v_only (f g : nat -> R -> R) : (forall k z, (k < N)%nat -> is_derive (f k) z (g k z) /\ is_derive (g k) z (- coef k * f k z)) ->
  (forall k, (S k < N)%nat -> f k (depth s (S k)) = f (S k) (depth s (S k)) /\ gkv P k * g k (depth s (S k)) = gkv P (S k) * g (S k) (depth s (S k))) ->
  forall c, f 0%nat 0 = c * p0 -> g 0%nat 0 = c * q0 -> forall k, (k < N)%nat -> forall z, f k z = c * vshape k z /\ g k z = c * vslope k z.
Proof.
  intros E J c F0 G0.
  assert (L : forall k, (k < N)%nat -> f k (depth s k) = c * p k -> g k (depth s k) = c * q k -> forall z, f k z = c * vshape k z /\ g k z = c * vslope k z).
  { intros k Hk A B z. destruct (only_wv (f k) (g k) (coef k) (depth s k) (Hc k Hk) (fun z => E k z Hk) z) as [-> ->]. rewrite A, B. unfold vshape, vslope, wv, wd. split; ring. }
  induction k as [|k IH]; intros Hk; (apply L; [exact Hk| |]).
  - exact F0.
  - exact G0.
  - destruct (J k Hk) as [<- _]. rewrite (proj1 (IH ltac:(lia) _)). rewrite (proj1 (v_end k ltac:(lia))). reflexivity.
  - destruct (J k Hk) as [_ Q]. pose proof (gkv_pos (S k) Hk) as K. rewrite (proj2 (IH ltac:(lia) _)), (proj2 (v_end k ltac:(lia))) in Q. cbn [rst fst snd].
    apply (Rmult_eq_reg_l (gkv P (S k))); [|lra]. rewrite <- Q. field. lra.
Qed.
(** integrals *)
Definition vA (k : nat) : R := A_int (coef k) (gh P k) (p k) (q k).
Definition vB (k : nat) : R := B_int (coef k) (gh P k) (p k) (q k).
Lemma vA_ok k : (k < N)%nat -> is_RInt (vshape k) (depth s k) (depth s (S k)) (vA k).
Proof. intros Hk. rewrite gdepth by auto. apply A_int_ok. apply Hc; auto. Qed.
Lemma vB_ok k : (k < N)%nat -> is_RInt (fun z => (vshape k z)^2) (depth s k) (depth s (S k)) (vB k).
Proof. intros Hk. rewrite gdepth by auto. apply B_int_ok. apply Hc; auto. Qed.
Lemma vshape_cont k z : (k < N)%nat -> continuous (vshape k) z.
Proof. intros Hk. apply wv_cont. apply Hc; auto. Qed.
Lemma vsq_cont k z : (k < N)%nat -> continuous (fun z => (vshape k z)^2) z.
Proof. intros Hk. apply (continuous_ext (fun z => vshape k z * vshape k z)); [intros; cbn; ring|]. apply (continuous_mult (K := R_AbsRing)); apply vshape_cont; auto. Qed.
Lemma vB_nonneg k : (k < N)%nat -> 0 <= vB k.
Proof.
  intros Hk. pose proof (gdepth k Hk) as D. pose proof (gh_pos k Hk). apply (is_RInt_ge_0 (fun z => (vshape k z)^2) (depth s k) (depth s (S k))); [lra|apply vB_ok; auto|]. intros x _. apply pow2_ge_0.
Qed.
Lemma vB_pos : p0 <> 0 \/ q0 <> 0 -> 0 < vB 0.
Proof.
  intros Hpq. pose proof gN_pos as NP. assert (H0 : (0 < N)%nat) by lia. destruct (vB_nonneg 0 H0) as [|E]; auto. exfalso.
  pose proof (vB_ok 0 H0) as HI. rewrite <- E in HI. pose proof (gdepth 0 H0) as D. pose proof (gh_pos 0 H0) as HH.
  pose proof (zero_int _ _ _ (fun x _ => vsq_cont 0 x H0) (fun x _ => pow2_ge_0 _) HI) as Z. cbv beta in Z.
  assert (Z' : forall x, depth s 0 < x < depth s 1 -> vshape 0 x = 0). { intros x Hx. destruct (Req_dec (vshape 0 x) 0) as [|X]; auto. exfalso. apply pow_nonzero with (n := 2%nat) in X. apply X. apply Z. auto. }
  set (x := (depth s 0 + depth s 1) / 2). assert (Hx : depth s 0 < x < depth s 1) by (unfold x; lra).
  assert (Sl : vslope 0 x = 0).
  { destruct (v_equation 0 x H0) as [D1 _]. assert (D0 : is_derive (vshape 0) x 0).
    { apply (is_derive_ext_loc (fun _ => 0)); [|apply (is_derive_const (V := R_NormedModule))].
      assert (P0 : 0 < gh P 0 / 2) by lra. exists (mkposreal _ P0). intros y Hy. unfold ball in Hy. cbn in Hy. unfold AbsRing_ball, abs, minus, plus, opp in Hy. cbn in Hy. apply Rabs_def2 in Hy. symmetry. apply Z'. unfold x in *. lra. }
    pose proof (is_derive_unique _ _ _ D1). pose proof (is_derive_unique _ _ _ D0). congruence. }
  specialize (Z' x Hx). unfold vshape, vslope, wv, wd in Z', Sl. cbn [rst fst snd] in Z', Sl. pose proof (cc_ss (coef 0) (x - depth s 0) (Hc 0%nat H0)) as I.
  set (c := cc (coef 0) (x - depth s 0)) in *. set (sn := ss (coef 0) (x - depth s 0)) in *.
  assert (p0 = 0). { transitivity (c * (c * p0 + sn * q0) - sn * (- coef 0 * sn * p0 + c * q0) + p0 * (1 - (c^2 + coef 0 * sn^2))); [ring|]. rewrite Z', Sl, I. ring. }
  assert (q0 = 0). { transitivity (coef 0 * sn * (c * p0 + sn * q0) + c * (- coef 0 * sn * p0 + c * q0) + q0 * (1 - (c^2 + coef 0 * sn^2))); [ring|]. rewrite Z', Sl, I. ring. }
  tauto.
Qed.
Definition vn : R := total N (fun k => gmv P k * vA k).
Definition vd : R := total N (fun k => gmv P k * vB k).
Lemma vn_ok : over_depth s (weight s) vshape vn.
Proof. exists vA. rewrite <- gN. split; [apply vA_ok|reflexivity]. Qed.
Lemma vd_ok : over_depth s (weight s) (fun k z => (vshape k z)^2) vd.
Proof. exists vB. rewrite <- gN. split; [apply vB_ok|reflexivity]. Qed.
Lemma vd_pos : p0 <> 0 \/ q0 <> 0 -> 0 < vd.
Proof.
  intros H. pose proof (vB_pos H) as B0. pose proof gN_pos as NP. unfold vd.
  replace N with (1 + (N - 1))%nat by lia. rewrite total_split. rewrite total_S, total_0. pose proof (gmv_pos 0 ltac:(lia)) as M.
  assert (0 < gmv P 0 * vB 0) by (apply Rmult_lt_0_compat; auto).
  assert (0 <= total (N - 1) (fun i => gmv P (1 + i) * vB (1 + i))). { apply total_nonneg. intros i Hi. apply Rmult_le_pos; [apply Rlt_le, gmv_pos; lia|apply vB_nonneg; lia]. }
  lra.
Qed.
Lemma csumn_real (f : nat -> R) l : csumn (map (fun k => RtoC (f k)) l) = RtoC (sumn (map f l)).
Proof.
  unfold csumn. assert (G : forall acc, fold_left Cplus (map (fun k : nat => RtoC (f k)) l) (RtoC acc) = RtoC (acc + sumn (map f l))).
  { induction l as [|k l IH]; intros acc; cbn [map fold_left sumn]; [f_equal; cbn; ring|]. rewrite <- RtoC_plus, IH. f_equal. cbn. ring. }
  rewrite G, Rplus_0_l. reflexivity.
Qed.
Lemma Cm_real : p0 <> 0 \/ q0 <> 0 -> Cm P bet (fun k => Re (fst (st k))) (fun k => Re (snd (st k))) = RtoC (vn / vd).
Proof.
  intros H. unfold Cm.
  assert (E : forall k, In k (seq 0 N) -> (gmv P k * Amn (gh P k) (bet k) (Re (fst (st k))) (Re (snd (st k))))%C = RtoC (gmv P k * vA k) /\ (gmv P k * Bmn (gh P k) (bet k) (Re (fst (st k))) (Re (snd (st k))))%C = RtoC (gmv P k * vB k)).
  { intros k Hk. apply in_seq in Hk. assert (Hk' : (k < N)%nat) by lia. rewrite state_real by auto. cbn [fst snd Re RtoC]. rewrite g_beta_eq, Amn_real, Bmn_real by (auto; apply Hc; auto). rewrite <- !RtoC_mult. split; reflexivity. }
  rewrite (map_ext_in _ _ _ (fun k Hk => proj1 (E k Hk))), (map_ext_in _ _ _ (fun k Hk => proj2 (E k Hk))).
  rewrite !csumn_real, !total_sumn. pose proof (vd_pos H). fold vn vd. rewrite RtoC_div by lra. reflexivity.
Qed.
End Vert.

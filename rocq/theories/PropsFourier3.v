(** * C144: HankelTransform, vhankel_transform *)
From Coq Require Import Reals List Arith ZArith Bool Lia Lra Sorting.
From Coquelicot Require Import Coquelicot.
From Verif Require Import Base QuadratureGen QuadratureModel SteinModel SpecQuadrature QuadratureProofs QuadratureProofs2 QuadratureProofs3 QuadratureProofs4 PropsQuadrature FourierModel SpecFourier FourierProofs2 PropsFourier2.
Import ListNotations.
Local Open Scope R_scope.

Lemma gk_pos n : In n gk_allowed -> (0 < Z.to_nat n)%nat.
Proof. intros H. apply gk_allowed_iff in H. cbn [In] in H. repeat (destruct H as [<-|H]; [cbv; lia|]). destruct H. Qed.
Section S.
(** Bessel function and its first positive zeros, rising *)
Variable jn : R -> R.
Variable jn_0 : list R.
Hypothesis rising : sorted (0 :: jn_0).
(** the last break point available for a transform at s *)
Definition reach (s : R) : R := last jn_0 0 / s.
(** *** The vectorised transform without extrapolation is the integral of f(x) Jn(r x) x up to the last zero, within quadrature error *)
Theorem C144_vectorised (f : R -> R) (ri : list R) (ng : Z) : In ng gl_allowed -> (forall r, In r ri -> 0 < r) ->
  exists vs, vhankel_transform jn jn_0 f ri ng None = Ok vs /\ length vs = length ri /\
  forall i, (i < length ri)%nat -> forall delta M (I : R), let r := nth i ri 0 in
    near_pieces (2 * Z.to_nat ng) delta M (fun x => f x * (jn (r * x) * x)) (map (fun z => z / r) (0 :: jn_0)) ->
    is_RInt (fun x => f x * (jn (r * x) * x)) 0 (reach r) I ->
    Rabs (nth i vs 0 - I) <= (delta * (2 + / 10 ^ 24) + / 10 ^ 24 / 2 * M) * reach r.
Proof.
  intros Hn Hr. unfold vhankel_transform, jn_0s. destruct (vtransform_error (fun r x => jn (r * x) * x) f 0 jn_0 ng ri Hn rising Hr) as (vs & E & L & H).
  exists vs. split; [exact E|]. split; [exact L|]. intros i Hi delta M I. cbv zeta. set (r := nth i ri 0). intros HN HI. specialize (H i Hi delta M I). cbv zeta in H. fold r in H.
  fold (reach r) in H. assert (0 < r) by (apply Hr, nth_In; auto). replace (0 / r) with 0 in H by (unfold Rdiv; ring). rewrite Rminus_0_r in H. auto.
Qed.

(** ** HankelTransform: where it puts its break points *)
Section B.
Variable H : hankel.
Variables s a : R.
Variable b : option R.
Hypothesis s_pos : 0 < s.
(** as far as it integrates *)
Definition top : R := match b with Some b => Rmin b (reach s) | None => reach s end.
Lemma zeros_scaled : sorted (map (fun z => z / s) (0 :: jn_0)).
Proof. apply sorted_scale; auto. Qed.
Lemma get_last_cons {A} (x : A) l : get_last (x :: l) = Ok (last l x).
Proof. rewrite (get_last_nth (x :: l) x) by discriminate. f_equal. replace (last l x) with (last (x :: l) x) by (destruct l; reflexivity). clear. generalize (x :: l) as t. intros t. revert x. induction t as [|u [|v t] IH]; intros x; [reflexivity|reflexivity|]. change (last (u :: v :: t) x) with (last (v :: t) x). rewrite <- IH. cbn [length]. replace (S (S (length t)) - 1)%nat with (S (S (length t) - 1)) by lia. reflexivity. Qed.
Lemma last_scaled : last (map (fun z => z / s) jn_0) (0 / s) = reach s.
Proof. unfold reach. clear. generalize 0 as z0. induction jn_0 as [|u [|v l] IH]; intros z0; [reflexivity|reflexivity|]. apply (IH z0). Qed.
Lemma zeros_le z : In z (map (fun z => z / s) (0 :: jn_0)) -> 0 <= z <= reach s.
Proof.
  intros Hz. assert (S := zeros_scaled). split.
  - cbn [map] in *. destruct Hz as [<-|Hz]; [unfold Rdiv; lra|]. inversion S as [|? ? _ F]; subst. rewrite List.Forall_forall in F. specialize (F _ Hz). unfold Rdiv in F at 1. lra.
  - assert (M := sorted_last_max _ (0 / s) S z Hz). cbn [map] in M. rewrite <- last_scaled. destruct (map (fun z => z / s) jn_0); exact M.
Qed.
Definition wanted (x : R) : Prop := (exists z, In z jn_0 /\ x = z / s) \/ (exists ps, h_points H = Some ps /\ In x ps).
Lemma breaks_spec : 0 <= a -> a < top -> exists zs, breaks jn_0 H s a b = Ok zs /\ sorted zs /\ In a zs /\ In top zs /\ (forall x, In x zs -> a <= x <= top) /\
  (forall x, a < x < top -> (In x zs <-> wanted x)).
Proof.
  intros Ha Hab. unfold breaks, jn_0s. set (zeros := map (fun z => z / s) (0 :: jn_0)). assert (EG : get_last zeros = Ok (reach s)) by (unfold zeros; cbn [map]; rewrite get_last_cons, last_scaled; reflexivity). rewrite EG. cbn [bind].
  set (z1 := match h_points H with None => zeros | Some ps => _ end).
  assert (TR : top <= reach s) by (unfold top; destruct b; [apply Rmin_r|lra]).
  assert (S1 : sorted z1) by (unfold z1; destruct (h_points H); [apply unique_sorted|apply zeros_scaled]).
  assert (I1 : forall x, In x z1 <-> In x zeros \/ exists ps, h_points H = Some ps /\ In x ps /\ 0 < x < reach s).
  { intros x. unfold z1. destruct (h_points H) as [ps|].
    - rewrite unique_in, in_app_iff, filter_In, andb_true_iff, !Rltb_true. split; intros [X|X]; auto; right; [exists ps; tauto|destruct X as (ps' & E & X & Y); injection E as <-; tauto].
    - split; [auto|]. intros [X|(ps & X & _)]; [auto|discriminate]. }
  assert (Z0 : In 0 z1) by (apply I1; left; unfold zeros; left; unfold Rdiv; ring).
  assert (ZL : In (reach s) z1). { apply I1. left. assert (L := last_in zeros 0 ltac:(discriminate)). rewrite <- last_scaled. replace (last (map (fun z => z / s) jn_0) (0 / s)) with (last zeros 0); auto. unfold zeros. cbn [map]. destruct (map (fun z => z / s) jn_0) as [|u l] eqn:E; [cbn; unfold Rdiv; ring|]. apply (last_indep (u :: l)). discriminate. }
  assert (B1 : forall x, In x z1 -> 0 <= x <= reach s). { intros x Hx. apply I1 in Hx. destruct Hx as [Hx|(ps & _ & _ & Hx)]; [apply zeros_le; auto|lra]. }
  assert (CL : forall x, 0 <= x <= reach s -> clip a b x = Rmin (Rmax x a) top).
  { intros x Hx. unfold clip, top in *. destruct b as [b0|]; [|rewrite Rmin_left; auto; apply Rmax_lub; lra]. unfold Rmin, Rmax in *. repeat (match goal with |- context [Rle_dec ?u ?v] => destruct (Rle_dec u v) | H : context [Rle_dec ?u ?v] |- _ => destruct (Rle_dec u v) end); lra. }
  assert (W : forall x, a < x < top -> (In x z1 <-> wanted x)).
  { intros x Hx. rewrite I1. unfold wanted. split.
    - intros [X|(ps & X1 & X2 & X3)]; [|right; exists ps; auto]. unfold zeros in X. cbn [map] in X. destruct X as [X|X]; [exfalso; unfold Rdiv in X; lra|]. apply in_map_iff in X. destruct X as (z & <- & Hz). left. exists z. auto.
    - intros [(z & Hz & ->)|(ps & X1 & X2)]; [left; unfold zeros; right; apply in_map_iff; exists z; auto|right; exists ps; repeat split; auto; lra]. }
  destruct (negb (Reqb a 0) || negb (is_inf b)) eqn:E.
  - exists (unique (map (clip a b) z1)). split; [reflexivity|]. split; [apply unique_sorted|].
    assert (IN : forall x, In x (unique (map (clip a b) z1)) <-> exists y, In y z1 /\ x = Rmin (Rmax y a) top).
    { intros x. rewrite unique_in, in_map_iff. split; intros (y & Y1 & Y2); exists y; [rewrite <- CL by (apply B1; auto); auto|rewrite CL by (apply B1; auto); auto]. }
    split; [|split; [|split]].
    + apply IN. exists 0. split; auto. rewrite Rmax_right, Rmin_left; lra.
    + apply IN. exists (reach s). split; auto. rewrite Rmax_left, Rmin_right; lra.
    + intros x Hx. apply IN in Hx. destruct Hx as (y & _ & ->). split; [apply Rmin_glb; [apply Rmax_r|lra]|apply Rmin_r].
    + intros x Hx. rewrite IN, <- (W x Hx). split.
      * intros (y & Y1 & Y2). replace x with y; auto. unfold Rmin, Rmax in Y2. repeat (match goal with H : context [Rle_dec ?u ?v] |- _ => destruct (Rle_dec u v) end); lra.
      * intros X. exists x. split; auto. rewrite Rmax_left, Rmin_left; lra.
  - apply orb_false_iff in E. destruct E as [E1 E2]. apply negb_false_iff in E1. apply negb_false_iff in E2. apply Reqb_true in E1. unfold top in *. destruct b as [b0|]; [discriminate|]. subst a.
    exists z1. split; [reflexivity|]. split; [exact S1|]. split; [exact Z0|]. split; [exact ZL|]. split; [exact B1|exact W].
Qed.
(** *** Break points: they rise from a to the smaller of b and the last zero, and between are exactly the zeros of the kernel and the given points *)
Theorem C144_breaks : 0 <= a -> a < top -> exists zs, breaks jn_0 H s a b = Ok (a :: zs) /\ sorted (a :: zs) /\ last zs a = top /\
  (forall x, a < x < top -> (In x zs <-> wanted x)).
Proof.
  intros Ha Hab. destruct (breaks_spec Ha Hab) as (zs & E & S & IA & IT & BD & W). destruct (sorted_ends zs a top S IA IT BD) as (t & -> & L). exists t. split; [exact E|]. split; [exact S|]. split; [exact L|].
  intros x Hx. rewrite <- (W x Hx). cbn [In]. split; [auto|]. intros [Y|Y]; [lra|exact Y].
Qed.
(** *** The value: without extrapolation, the integral from a to there within quadrature error *)
Theorem C144_value delta M (I : R) : 0 <= a -> a < top -> h_shanks H = None \/ b <> None -> In (h_ng0 H) gk_allowed -> In (h_ng H) gk_allowed ->
  (forall zs, breaks jn_0 H s a b = Ok zs -> near_pieces (3 * Z.to_nat (Z.min (h_ng0 H) (h_ng H)) + 2) delta M (fun r => h_func H r * r * jn (s * r)) zs) ->
  is_RInt (fun r => h_func H r * r * jn (s * r)) a top I ->
  exists v e, hcall jn jn_0 H s a b = Ok (v, e) /\ 0 <= e /\ Rabs (v - I) <= (delta * (2 + / 10 ^ 24) + / 10 ^ 24 / 2 * M) * (top - a).
Proof.
  intros Ha Hab HX Hn0 Hn HN HI. destruct (C144_breaks Ha Hab) as (zs & E & S & L & _). specialize (HN _ E). unfold hcall. rewrite E. cbn [bind].
  assert (Ez : exists z1 zr, zs = z1 :: zr) by (destruct zs as [|z1 zr]; [cbn in L; lra|eauto]). destruct Ez as (z1 & zr & ->). change (get (a :: z1 :: zr) 0) with (Ok a : result R). cbn [bind]. change (get (a :: z1 :: zr) 1) with (Ok z1 : result R). cbn [bind].
  set (g := fun r => h_func H r * r * jn (s * r)) in *. change (integrand jn H s) with g.
  destruct (gk_full (h_ng0 H) Hn0) as (xi0 & u0 & w0 & E0 & _ & M0 & P0 & _). destruct (gk_full (h_ng H) Hn) as (xi & u1 & w1 & E1 & _ & M1 & P1 & _).
  assert (Hp0 : (0 < Z.to_nat (h_ng0 H))%nat /\ (0 < Z.to_nat (h_ng H))%nat). { split; apply gk_pos; auto. }
  assert (EPS : 0 <= / 10 ^ 24) by (left; apply Rinv_0_lt_compat, pow_lt; lra).
  assert (Q0 : gk_quad g [a] [z1] (h_ng0 H) = Ok ([rule g a z1 (combine xi0 w0)], [Rabs (rule g a z1 (combine xi0 w0) - rule g a z1 (combine xi0 u0))])) by (unfold gk_quad; rewrite E0; reflexivity).
  rewrite Q0. cbn [bind fst snd]. change (get [rule g a z1 (combine xi0 w0)] 0) with (Ok (rule g a z1 (combine xi0 w0)) : result R). cbn [bind].
  set (e0 := Rabs (rule g a z1 (combine xi0 w0) - rule g a z1 (combine xi0 u0))). change (get [e0] 0) with (Ok e0 : result R). cbn [bind]. set (i0 := rule g a z1 (combine xi0 w0)).
  assert (A1 : a < z1) by (apply (sorted_pairs _ S (a, z1)); left; reflexivity).
  assert (S' : sorted (z1 :: zr)) by (inversion S; auto). assert (L1 : last zr z1 = top) by (rewrite <- L; destruct zr as [|u l]; [reflexivity|]; apply (last_indep (u :: l)); discriminate).
  assert (R' : forall p, In p (pairs (z1 :: zr)) -> fst p <= snd p) by (intros p Hp; left; apply (sorted_pairs _ S'); auto). assert (ZT := last_ge zr z1 R'). rewrite L1 in ZT.
  assert (X : ex_RInt g a top) by (exists I; exact HI).
  assert (X1 : ex_RInt g a z1) by (apply (ex_RInt_Chasles_1 (V := R_CompleteNormedModule) g a z1 top); auto; lra).
  assert (X2 : ex_RInt g z1 top) by (apply (ex_RInt_Chasles_2 (V := R_CompleteNormedModule) g a z1 top); auto; lra).
  destruct X1 as (I1 & X1). destruct X2 as (I2 & X2). assert (EI : I = I1 + I2).
  { transitivity (RInt g a top); [symmetry; apply (is_RInt_unique g); exact HI|]. apply (is_RInt_unique g). apply (is_RInt_Chasles (V := R_NormedModule) g a z1 top); auto. }
  assert (B0 : Rabs (i0 - I1) <= (delta * (2 + / 10 ^ 24) + / 10 ^ 24 / 2 * M) * (z1 - a)).
  { destruct (HN (a, z1) (or_introl eq_refl)) as (cs & C1 & C2 & C3). cbn [fst snd] in *.
    assert (B := rule_approx g (combine xi0 w0) (3 * Z.to_nat (h_ng0 H) + 2) (/ 10 ^ 24) cs a z1 I1 delta P0 M0 ltac:(lia) ltac:(lia) ltac:(lra) X1 C3). fold i0 in B.
    assert (B2 : / 10 ^ 24 * ((z1 - a) / 2) * poly_size cs (Rmax (Rabs a) (Rabs z1)) <= / 10 ^ 24 * ((z1 - a) / 2) * M) by (apply Rmult_le_compat_l; auto; apply Rmult_le_pos; lra). lra. }
  destruct (Nat.ltb_spec 2 (length (a :: z1 :: zr))) as [HL|HL].
  - destruct zr as [|z2 zr]; [cbn in HL; lia|]. cbn [tl].
    assert (QM : exists es, gk_quad g (removelast (z1 :: z2 :: zr)) (z2 :: zr) (h_ng H) = Ok (map (fun p => rule g (fst p) (snd p) (combine xi w1)) (pairs (z1 :: z2 :: zr)), es)).
    { unfold gk_quad. rewrite E1. cbn [bind]. assert (G : forall (x : R) l, length (removelast (x :: l)) = length l) by (intros x t; revert x; induction t as [|y t IH]; intros x; [reflexivity|]; change (removelast (x :: y :: t)) with (x :: removelast (y :: t)); cbn [length]; rewrite IH; reflexivity).
      rewrite broadcast_same by apply G. cbn [bind]. change (z2 :: zr) with (tl (z1 :: z2 :: zr)) at 2. rewrite pairs_combine, pairs_cons2. cbn [nonempty bind]. eexists. reflexivity. }
    destruct QM as (es & QM). rewrite QM. cbn [bind fst snd].
    assert (B := composite g (combine xi w1) (3 * Z.to_nat (h_ng H) + 2) (/ 10 ^ 24) delta M P1 M1 ltac:(lia) EPS (z2 :: zr) z1 I2 R').
    assert (NP : near_pieces (3 * Z.to_nat (h_ng H) + 2) delta M g (z1 :: z2 :: zr)).
    { intros p Hp. destruct (HN p (or_intror Hp)) as (cs & C1 & C2 & C3). exists cs. split; [lia|auto]. }
    specialize (B NP). rewrite L1 in B. specialize (B X2).
    assert (PW : forall x, 0 <= pow15 (200 * Rabs x)) by (intros x; unfold pow15; apply Rmult_le_pos; [apply Rmult_le_pos; [lra|apply Rabs_pos]|apply sqrt_pos]).
    exists (i0 + rsum (map (fun p => rule g (fst p) (snd p) (combine xi w1)) (pairs (z1 :: z2 :: zr)))), (pow15 (200 * Rabs e0) + rsum (map (fun e => pow15 (200 * Rabs e)) es)). split.
    + destruct (h_shanks H) as [ind|]; [|destruct b; reflexivity]. destruct b as [b0|]; [reflexivity|]. destruct HX as [HX|HX]; [discriminate|congruence].
    + split.
      * apply Rplus_le_le_0_compat; [apply PW|]. clear - PW. induction es as [|e es IH]; [cbn; lra|]. cbn [map]. change (rsum (?u :: ?l)) with (u + rsum l). specialize (PW e). lra.
      * rewrite EI. set (r2 := rsum _) in *. replace (i0 + r2 - (I1 + I2)) with ((i0 - I1) + (r2 - I2)) by ring. assert (T := Rabs_triang (i0 - I1) (r2 - I2)). lra.
  - destruct zr as [|z2 zr]; [|cbn in HL; lia]. cbn [last] in L1. subst z1. exists i0, e0. split; [reflexivity|]. split; [apply Rabs_pos|]. replace I with I1; [exact B0|].
    rewrite EI. assert (Z2 : @eq R I2 0) by (rewrite <- (is_RInt_unique _ _ _ _ X2); exact (RInt_point (V := R_CompleteNormedModule) top g)). rewrite Z2. symmetry. apply Rplus_0_r.
Qed.
End B.
(** *** Extrapolated (b infinite): the first panel plus the limit the later partial sums settle to *)
Theorem C144_extrapolated (H : hankel) (s : R) (i : nat) (zs i0 e0 igs es : list R) (q a L : R) : 0 < s ->
  breaks jn_0 H s 0 None = Ok zs -> h_shanks H = Some (Z.of_nat i) ->
  gk_quad (fun r => h_func H r * r * jn (s * r)) [nth 0 zs 0] [nth 1 zs 0] (h_ng0 H) = Ok (i0, e0) ->
  gk_quad (fun r => h_func H r * r * jn (s * r)) (removelast (tl zs)) (tl (tl zs)) (h_ng H) = Ok (igs, es) ->
  (i + 3 <= length igs)%nat -> q <> 1 \/ a = 0 -> (forall k, (i <= k < length igs)%nat -> rsum (firstn (S k) igs) = L + a * q ^ k) ->
  exists e, hcall jn jn_0 H s 0 None = Ok (nth 0 i0 0 + L, e).
Proof.
  intros Hs E HS Q0 QM Hi Hq HG. unfold hcall. rewrite E. cbn [bind]. change (integrand jn H s) with (fun r => h_func H r * r * jn (s * r)).
  assert (G : forall f la lb n v w, gk_quad f la lb n = Ok (v, w) -> (length v <= length lb)%nat \/ (length la = length v)%nat).
  { intros f la lb n v w. unfold gk_quad. destruct (gauss_kronrod n) as [[[? ?] ?]|]; [|discriminate]. cbn [bind]. destruct (broadcast la lb) as [ab|] eqn:BR; [|discriminate]. cbn [bind]. destruct ab as [|p ab]; [discriminate|]. cbn [nonempty bind].
    intros X. apply ok_inj in X. injection X as <- _. change (rule f (fst p) (snd p) (combine l l1) :: map (fun e => rule f (fst e) (snd e) (combine l l1)) ab) with (map (fun e => rule f (fst e) (snd e) (combine l l1)) (p :: ab)). rewrite map_length.
    unfold broadcast in BR. destruct la as [|x [|y la]]; [destruct lb as [|x [|y lb]]; cbn in BR; discriminate| |].
    - injection BR as <-. left. rewrite map_length. lia.
    - destruct lb as [|x' [|y' lb]]; [discriminate| |].
      + injection BR as <- <-. right. cbn. rewrite map_length. lia.
      + destruct (Nat.eqb_spec (length (x :: y :: la)) (length (x' :: y' :: lb))); [|discriminate]. injection BR as <- <-. left. cbn. rewrite combine_length. cbn in *. lia. }
  assert (L3 : (2 < length zs)%nat). { specialize (G _ _ _ _ _ _ QM). destruct zs as [|x [|y [|z zs]]]; cbn [tl removelast length] in *; try lia. }
  destruct zs as [|x [|y [|z zs]]]; try (cbn in L3; lia). cbn [nth] in Q0. change (get (x :: y :: z :: zs) 0) with (Ok x : result R). cbn [bind]. change (get (x :: y :: z :: zs) 1) with (Ok y : result R). cbn [bind]. rewrite Q0. cbn [bind fst snd].
  assert (I0 : exists v w, i0 = [v] /\ e0 = [w]). { unfold gk_quad in Q0. destruct (gauss_kronrod (h_ng0 H)) as [[[? ?] ?]|]; [|discriminate]. cbn in Q0. injection Q0 as <- <-. eauto. } destruct I0 as (v & w & -> & ->).
  change (get [v] 0) with (Ok v : result R). change (get [w] 0) with (Ok w : result R). cbn [bind]. replace (2 <? length (x :: y :: z :: zs))%nat with true by (symmetry; apply Nat.ltb_lt; cbn; lia). rewrite QM. cbn [bind fst snd]. rewrite HS.
  destruct (C48_tail (cumsum 0 igs) i L a q Hq) as (arr & SH).
  - rewrite cumsum_len. exact Hi.
  - rewrite cumsum_len. intros k Hk. rewrite nth_cums by lia. rewrite HG by lia. ring.
  - rewrite SH. cbn [bind snd nth]. eexists. reflexivity.
Qed.
(** *** Defect: a lower limit at or beyond the last zero held is an IndexError *)
Theorem C144_start_refuted (H : hankel) (s a : R) (b : option R) : 0 < s -> reach s <= a -> match b with Some c => reach s <= c | None => a <> 0 end ->
  hcall jn jn_0 H s a b = Err IndexError.
Proof.
  intros Hs Ha Hb. unfold hcall. assert (X : exists y, breaks jn_0 H s a b = Ok [y]).
  { unfold breaks, jn_0s. set (zeros := map (fun z => z / s) (0 :: jn_0)). assert (EG : get_last zeros = Ok (reach s)) by (unfold zeros; cbn [map]; rewrite get_last_cons, last_scaled; reflexivity). rewrite EG. cbn [bind].
    replace (negb (Reqb a 0) || negb (is_inf b))%bool with true by (symmetry; destruct b; cbn [is_inf negb]; [apply orb_true_r|rewrite (proj2 (Reqb_false a 0)) by auto; reflexivity]).
    set (z1 := match h_points H with None => zeros | Some ps => _ end). set (y0 := match b with Some c => Rmin a c | None => a end). exists y0. f_equal.
    assert (B : forall x, In x z1 -> x <= reach s). { intros x Hx. unfold z1 in Hx. destruct (h_points H) as [ps|]; [rewrite unique_in in Hx; apply in_app_iff in Hx; destruct Hx as [Hx|Hx]; [apply (zeros_le s Hs); exact Hx|apply filter_In in Hx; destruct Hx as [_ Hx]; apply andb_true_iff in Hx; destruct Hx as [Hx _]; apply Rltb_true in Hx; lra]|apply (zeros_le s Hs); exact Hx]. }
    assert (CY : forall x, In x z1 -> clip a b x = y0) by (intros x Hx; unfold clip, y0; specialize (B x Hx); rewrite (Rmax_right x a) by lra; reflexivity).
    assert (NE : z1 <> []). { unfold z1. destruct (h_points H) as [ps|]; [|discriminate]. intros X. assert (Y : In (0 / s) (unique (zeros ++ filter (fun p => Rltb p (reach s) && Rltb 0 p)%bool ps))) by (apply unique_in, in_app_iff; left; left; reflexivity). rewrite X in Y. destruct Y. }
    assert (SU := unique_sorted (map (clip a b) z1)). assert (IU : forall y, In y (unique (map (clip a b) z1)) <-> y = y0).
    { intros y. rewrite unique_in, in_map_iff. split.
      - intros (x & <- & Hx). auto.
      - intros ->. destruct z1 as [|x z1]; [congruence|]. exists x. split; [apply CY|]; left; auto. }
    destruct (unique (map (clip a b) z1)) as [|u [|v l]].
    - exfalso. apply (IU y0). reflexivity.
    - f_equal. apply IU. left; auto.
    - exfalso. assert (U := proj1 (IU u) (or_introl eq_refl)). assert (V := proj1 (IU v) (or_intror (or_introl eq_refl))). inversion SU as [|? ? _ F]; subst u v. inversion F; subst. lra. }
  destruct X as (y & ->). reflexivity.
Qed.
(** *** Defect: an upper limit beyond the last zero held makes no difference -- the range is cut short without a word *)
Theorem C144_cut_refuted (H : hankel) (s a b b' : R) : 0 < s -> reach s <= b -> reach s <= b' -> hcall jn jn_0 H s a (Some b) = hcall jn jn_0 H s a (Some b').
Proof.
  intros Hs Hb Hb'. destruct (Rlt_le_dec a (reach s)) as [Ha|Ha].
  - assert (E : breaks jn_0 H s a (Some b) = breaks jn_0 H s a (Some b')).
    { unfold breaks, jn_0s. set (zeros := map (fun z => z / s) (0 :: jn_0)). assert (EG : get_last zeros = Ok (reach s)) by (unfold zeros; cbn [map]; rewrite get_last_cons, last_scaled; reflexivity). rewrite EG. cbn [bind is_inf negb]. rewrite !orb_true_r. f_equal.
      set (z1 := match h_points H with None => zeros | Some ps => _ end). f_equal. apply map_ext_in. intros x Hx.
      assert (B : x <= reach s). { unfold z1 in Hx. destruct (h_points H) as [ps|]; [rewrite unique_in in Hx; apply in_app_iff in Hx; destruct Hx as [Hx|Hx]; [apply (zeros_le s Hs); exact Hx|apply filter_In in Hx; destruct Hx as [_ Hx]; apply andb_true_iff in Hx; destruct Hx as [Hx _]; apply Rltb_true in Hx; lra]|apply (zeros_le s Hs); exact Hx]. }
      unfold clip. rewrite !Rmin_left; auto; apply Rmax_lub; lra. }
    unfold hcall. rewrite E. destruct (h_shanks H); reflexivity.
  - rewrite (C144_start_refuted H s a (Some b)), (C144_start_refuted H s a (Some b')) by auto. reflexivity.
Qed.
End S.

(** ** The hypotheses are met: x instead of the Bessel function, "zeros" 1, 2, 3; transform at 2 of the constant 1 from 1/4 to 1, so of 2 r^2: 2 (1 - 1/64) / 3 *)
Lemma w_rising : sorted [0; 1; 2; 3].
Proof. repeat (constructor; [|repeat (constructor; try lra)]). constructor. Qed.
Example C144_witness : exists v e, hcall (fun x => x) [1; 2; 3] (mkH (fun _ => 1) (Some [3 / 4; 9]) 10 20 (Some 1%Z)) 2 (1 / 4) (Some 1) = Ok (v, e) /\ Rabs (v - 21 / 32) <= / 10 ^ 23.
Proof.
  set (H := mkH (fun _ => 1) (Some [3 / 4; 9]) 10 20 (Some 1%Z)).
  assert (T1 : top [1; 2; 3] 2 (Some 1) = 1) by (unfold top, reach; cbn; apply Rmin_left; lra).
  destruct (C144_value (fun x => x) [1; 2; 3] w_rising H 2 (1 / 4) (Some 1) ltac:(lra) 0 (2 * 1) (21 / 32)) as (v & e & E & _ & B).
  - lra.
  - rewrite T1. lra.
  - right. discriminate.
  - cbn. tauto.
  - cbn. tauto.
  - intros zs Hz. destruct (C144_breaks (fun x => x) [1; 2; 3] w_rising H 2 (1 / 4) (Some 1) ltac:(lra) ltac:(lra)) as (t & E & S & L & _); [rewrite T1; lra|]. rewrite E in Hz. apply ok_inj in Hz. subst zs. rewrite T1 in L.
    intros p Hp. exists [0; 0; 2]. split; [cbn; lia|]. split.
    + assert (PB : 0 <= fst p /\ fst p <= 1 /\ 0 <= snd p /\ snd p <= 1).
      { assert (IP : forall (l : list R) p, In p (pairs l) -> In (fst p) l /\ In (snd p) l). { clear. induction l as [|u [|w l] IH]; intros p Hp; [destruct Hp|destruct Hp|]. rewrite pairs_cons2 in Hp. destruct Hp as [<-|Hp]; [cbn; auto|]. destruct (IH p Hp). split; right; auto. }
        destruct (IP _ _ Hp) as [F1 F2]. assert (LM := sorted_last_max _ (1 / 4) S). assert (EL : last (1 / 4 :: t) (1 / 4) = 1) by (transitivity (last t (1 / 4)); [destruct t; reflexivity|exact L]). rewrite EL in LM.
        assert (LB : forall x, In x (1 / 4 :: t) -> 0 <= x). { intros x [<-|Hx]; [lra|]. inversion S as [|? ? _ F]; subst. rewrite List.Forall_forall in F. specialize (F x Hx). lra. }
        repeat split; auto. }
      destruct PB as (P1 & P2 & P3 & P4). unfold poly_size. cbn [map poly]. rewrite !Rabs_R0, !(Rabs_pos_eq (fst p)), !(Rabs_pos_eq (snd p)), (Rabs_pos_eq 2) by lra.
      assert (0 <= Rmax (fst p) (snd p) <= 1) by (split; [apply Rle_trans with (1 := P1); apply Rmax_l|apply Rmax_lub; auto]). set (q := Rmax _ _) in *. nra.
    + intros x _. cbn [H h_func poly]. right. unfold Rminus. replace (1 * x * (2 * x) + - (0 + x * (0 + x * (2 + x * 0)))) with 0 by ring. apply Rabs_R0.
  - rewrite T1. cbn [H h_func].
    assert (D : is_RInt (fun r => 1 * r * (2 * r)) (1 / 4) 1 (minus ((fun r => 2 * r ^ 3 / 3) 1) ((fun r => 2 * r ^ 3 / 3) (1 / 4)))).
    { apply (is_RInt_derive (V := R_CompleteNormedModule) (fun r => 2 * r ^ 3 / 3)); intros x _; [auto_derive; auto; field|]. apply (ex_derive_continuous (K := R_AbsRing) (V := R_NormedModule)). auto_derive. auto. }
    assert (Z : minus ((fun r => 2 * r ^ 3 / 3) 1) ((fun r => 2 * r ^ 3 / 3) (1 / 4)) = 21 / 32) by (unfold minus, plus, opp; cbn; field).
    apply (eq_ind _ (fun v => is_RInt (fun r => 1 * r * (2 * r)) (1 / 4) 1 v) D). exact Z.
  - exists v, e. split; [exact E|]. eapply Rle_trans; [exact B|]. rewrite T1. replace (/ 10 ^ 23) with (10 * / 10 ^ 24) by (field; apply pow_nonzero; lra). assert (0 < / 10 ^ 24) by (apply Rinv_0_lt_compat, pow_lt; lra). nra.
Qed.

(** * Sums over panels *)
From Coq Require Import Reals List Arith ZArith Bool Lia Lra Sorting.
From Coquelicot Require Import Coquelicot.
From Verif Require Import Base QuadratureModel SteinModel QuadratureGen SpecQuadrature QuadratureProofs QuadratureProofs2 QuadratureProofs3 QuadratureProofs4 FourierModel SpecFourier.
Import ListNotations.
Local Open Scope R_scope.

Lemma pairs_cons2 {A} (a b : A) l : pairs (a :: b :: l) = (a, b) :: pairs (b :: l). Proof. reflexivity. Qed.
Lemma pairs_combine {A} (l : list A) : combine (removelast l) (tl l) = pairs l.
Proof. induction l as [|a [|b l] IH]; [reflexivity|reflexivity|]. rewrite pairs_cons2, <- IH. reflexivity. Qed.
Lemma last_ge (xs : list R) : forall x0, (forall p, In p (pairs (x0 :: xs)) -> fst p <= snd p) -> x0 <= last xs x0.
Proof.
  induction xs as [|y xs IH]; intros x0 H; [cbn; lra|]. assert (H0 := H (x0, y) (or_introl eq_refl)). cbn [fst snd] in H0.
  assert (H1 : y <= last xs y) by (apply IH; intros p Hp; apply H; right; exact Hp). replace (last (y :: xs) x0) with (last xs y); [lra|]. destruct xs as [|z xs]; [reflexivity|]. apply (last_indep (z :: xs)). discriminate.
Qed.
Lemma composite f xw m eps delta M : List.Forall (fun e => -1 < fst e < 1 /\ 0 < snd e) xw -> moments xw m eps -> (0 < m)%nat -> 0 <= eps ->
  forall xs x0 (I : R), (forall p, In p (pairs (x0 :: xs)) -> fst p <= snd p) -> near_pieces m delta M f (x0 :: xs) -> is_RInt f x0 (last xs x0) I ->
  Rabs (rsum (map (fun p => rule f (fst p) (snd p) xw) (pairs (x0 :: xs))) - I) <= (delta * (2 + eps) + eps / 2 * M) * (last xs x0 - x0).
Proof.
  intros Hx Hm Hp He. induction xs as [|y xs IH]; intros x0 I HR HN HI.
  - cbn in *. assert (E : I = 0). { rewrite <- (is_RInt_unique _ _ _ _ HI). exact (RInt_point (V := R_CompleteNormedModule) x0 f). } rewrite E, Rminus_0_r, Rabs_R0. lra.
  - assert (H0 := HR (x0, y) (or_introl eq_refl)). cbn [fst snd] in H0. assert (HR' : forall p, In p (pairs (y :: xs)) -> fst p <= snd p) by (intros p P; apply HR; right; exact P).
    assert (LE := last_ge xs y HR').
    assert (EL : last (y :: xs) x0 = last xs y) by (destruct xs as [|z xs]; [reflexivity|]; apply (last_indep (z :: xs)); discriminate). rewrite EL in *.
    assert (X : ex_RInt f x0 (last xs y)) by (exists I; exact HI).
    assert (X1 : ex_RInt f x0 y) by (apply (ex_RInt_Chasles_1 (V := R_CompleteNormedModule) f x0 y (last xs y)); auto; lra).
    assert (X2 : ex_RInt f y (last xs y)) by (apply (ex_RInt_Chasles_2 (V := R_CompleteNormedModule) f x0 y (last xs y)); auto; lra).
    destruct X1 as (I1 & X1). destruct X2 as (I2 & X2). assert (EI : I = I1 + I2).
    { transitivity (RInt f x0 (last xs y)); [symmetry; apply (is_RInt_unique f); exact HI|]. apply (is_RInt_unique f). apply (is_RInt_Chasles (V := R_NormedModule) f x0 y (last xs y)); auto. }
    rewrite pairs_cons2. cbn [map]. change (rsum (?u :: ?l)) with (u + rsum l). cbn [fst snd].
    specialize (IH y I2 HR' ltac:(intros p P; apply HN; right; exact P) X2).
    destruct (HN (x0, y) (or_introl eq_refl)) as (cs & C1 & C2 & C3). cbn [fst snd] in *.
    assert (B := rule_approx f xw m eps cs x0 y I1 delta Hx Hm C1 Hp H0 X1 C3).
    assert (B2 : eps * ((y - x0) / 2) * poly_size cs (Rmax (Rabs x0) (Rabs y)) <= eps * ((y - x0) / 2) * M) by (apply Rmult_le_compat_l; auto; apply Rmult_le_pos; lra).
    set (r1 := rule f x0 y xw) in *. set (r2 := rsum (map (fun p => rule f (fst p) (snd p) xw) (pairs (y :: xs)))) in *. rewrite EI.
    replace (r1 + r2 - (I1 + I2)) with ((r1 - I1) + (r2 - I2)) by ring. assert (T := Rabs_triang (r1 - I1) (r2 - I2)). nra.
Qed.
(** the sums of the vectorised transforms are that *)
Lemma rsum_scal c (l : list R) : rsum (map (fun x => c * x) l) = c * rsum l.
Proof. induction l as [|a l IH]; cbn; [ring|]. unfold rsum in *. cbn. rewrite IH. ring. Qed.
Lemma panel_rule g xw ps : panel_sums g xw ps = map (fun p => rule g (fst p) (snd p) xw) ps.
Proof.
  unfold panel_sums, rule. apply map_ext. intros p. cbv zeta. rewrite <- rsum_scal, map_map. f_equal. apply map_ext. intros e. ring.
Qed.
Lemma pairs_map {A B} (h : A -> B) (l : list A) : pairs (map h l) = map (fun p => (h (fst p), h (snd p))) (pairs l).
Proof. induction l as [|a [|b l] IH]; [reflexivity|reflexivity|]. cbn [map]. rewrite !pairs_cons2. cbn [map]. f_equal. exact IH. Qed.
Lemma panels_pairs zeros s : panels zeros s = pairs (map (fun z => z / s) zeros).
Proof. rewrite pairs_map. reflexivity. Qed.

(** rising lists *)
Definition sorted (l : list R) := StronglySorted Rlt l.
Lemma sorted_pairs l : sorted l -> forall p, In p (pairs l) -> fst p < snd p.
Proof.
  induction 1 as [|a l S IH F]; intros p P; [destruct P|]. destruct l as [|b l]; [destruct P|]. rewrite pairs_cons2 in P. destruct P as [<-|P]; [|auto]. cbn. inversion F; auto.
Qed.
Lemma sorted_scale l s : 0 < s -> sorted l -> sorted (map (fun z => z / s) l).
Proof.
  intros Hs. induction 1 as [|a l S IH F]; [constructor|]. cbn [map]. constructor; auto. rewrite List.Forall_forall in *. intros x Hx. apply in_map_iff in Hx. destruct Hx as (y & <- & Hy).
  apply Rmult_lt_compat_r; [apply Rinv_0_lt_compat; auto|apply F; auto].
Qed.
Lemma sorted_last_max l d : sorted l -> forall x, In x l -> x <= last l d.
Proof.
  induction 1 as [|a l S IH F]; intros x Hx; [destruct Hx|]. rewrite List.Forall_forall in F. destruct l as [|b l]; [destruct Hx as [<-|[]]; cbn; lra|]. change (last (a :: b :: l) d) with (last (b :: l) d).
  destruct Hx as [<-|Hx]; [|auto]. apply Rle_trans with b; [left; apply F; left; auto|apply IH; left; auto].
Qed.
Lemma last_in {A} (l : list A) d : l <> [] -> In (last l d) l.
Proof. induction l as [|a [|b l] IH]; intros H; [congruence|left; reflexivity|]. right. apply IH. discriminate. Qed.
Lemma insert_in x l y : In y (insert_unique x l) <-> y = x \/ In y l.
Proof.
  induction l as [|a l IH]; cbn [insert_unique]; [cbn; intuition congruence|]. destruct (Rltb x a) eqn:E1; [cbn; intuition congruence|]. destruct (Reqb x a) eqn:E2.
  - apply Reqb_true in E2. subst. cbn; intuition congruence.
  - cbn [In]. rewrite IH. intuition congruence.
Qed.
Lemma insert_sorted x l : sorted l -> sorted (insert_unique x l).
Proof.
  induction 1 as [|a l S IH F]; cbn [insert_unique]; [repeat constructor|]. destruct (Rltb x a) eqn:E1.
  - apply Rltb_true in E1. constructor; [constructor; auto|]. constructor; auto. rewrite List.Forall_forall in *. intros y Hy. specialize (F y Hy). lra.
  - apply Rltb_false in E1. destruct (Reqb x a) eqn:E2; [constructor; auto|]. apply Reqb_false in E2. constructor; auto. rewrite List.Forall_forall in *. intros y Hy. apply insert_in in Hy. destruct Hy as [->|Hy]; [lra|auto].
Qed.
Lemma unique_sorted l : sorted (unique l).
Proof. unfold unique. induction l as [|a l IH]; cbn [fold_right]; [constructor|]. apply insert_sorted. exact IH. Qed.
Lemma unique_in l y : In y (unique l) <-> In y l.
Proof. unfold unique. induction l as [|a l IH]; cbn [fold_right]; [tauto|]. rewrite insert_in, IH. cbn. intuition congruence. Qed.
(** first and last of a rising list from its members *)
Lemma sorted_ends l u v : sorted l -> In u l -> In v l -> (forall x, In x l -> u <= x <= v) -> exists t, l = u :: t /\ last t u = v.
Proof.
  intros S Hu Hv H. destruct l as [|a l]; [destruct Hu|]. assert (A := H a (or_introl eq_refl)). inversion S as [|a' l' S' F E]; subst. rewrite List.Forall_forall in F.
  assert (a = u). { destruct Hu as [->|Hu]; [reflexivity|]. specialize (F u Hu). lra. } subst a. exists l. split; auto.
  assert (M := sorted_last_max (u :: l) u S). assert (L := last_in (u :: l) u ltac:(discriminate)). assert (EL : last (u :: l) u = last l u) by (destruct l; reflexivity). rewrite EL in *.
  specialize (M v Hv). specialize (H _ L). lra.
Qed.
Lemma vtransform_plain kernel zeros f si ng xw : gauss_legendre ng = Ok xw ->
  vtransform kernel zeros f si ng None = Ok (map (fun s => rsum (map (fun p => rule (fun x => f x * kernel s x) (fst p) (snd p) xw) (pairs (map (fun z => z / s) zeros)))) si).
Proof. intros E. unfold vtransform. rewrite E. cbn [bind]. rewrite map_map. f_equal. apply map_ext. intros s. rewrite panel_rule, panels_pairs. reflexivity. Qed.
Lemma vtransform_error kernel f z0 zeros ng si : In ng gl_allowed -> sorted (z0 :: zeros) -> (forall s, In s si -> 0 < s) ->
  exists vs, vtransform kernel (z0 :: zeros) f si ng None = Ok vs /\ length vs = length si /\
  forall i, (i < length si)%nat -> forall delta M (I : R), let s := nth i si 0 in
    near_pieces (2 * Z.to_nat ng) delta M (fun x => f x * kernel s x) (map (fun z => z / s) (z0 :: zeros)) ->
    is_RInt (fun x => f x * kernel s x) (z0 / s) (last zeros z0 / s) I ->
    Rabs (nth i vs 0 - I) <= (delta * (2 + / 10 ^ 24) + / 10 ^ 24 / 2 * M) * (last zeros z0 / s - z0 / s).
Proof.
  intros Hn HS Hs. destruct (gl_rule ng Hn) as (xw & E & Mo & L & P). rewrite (vtransform_plain _ _ _ _ _ _ E). eexists. split; [reflexivity|]. split; [apply map_length|].
  intros i Hi delta M I s HN HI. set (F := fun s0 : R => _).
  assert (E1 : nth i (map F si) 0 = F s) by (rewrite (nth_indep _ 0 (F 0)) by (rewrite map_length; auto); apply map_nth). rewrite E1. clear E1. unfold F; clear F. assert (S0 : 0 < s) by (apply Hs, nth_In; auto).
  assert (LE : last (map (fun z => z / s) zeros) (z0 / s) = last zeros z0 / s).
  { clear. revert z0. induction zeros as [|a [|b l] IH]; intros z0; [reflexivity|reflexivity|]. apply (IH z0). }
  cbn [map]. rewrite <- LE. apply composite with (m := (2 * Z.to_nat ng)%nat); auto.
  - apply gl_allowed_iff in Hn. lia.
  - left. apply Rinv_0_lt_compat, pow_lt. lra.
  - intros p Hp. left. apply (sorted_pairs (map (fun z => z / s) (z0 :: zeros))); auto. apply sorted_scale; auto.
  - rewrite LE. exact HI.
Qed.

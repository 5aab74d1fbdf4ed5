(** * Property theorems: vertical drains and smear zones (C34-C38, C72-C77) *)
From Coq Require Import Reals List Arith Lia Lra Bool Ascii String.
From Coquelicot Require Import Coquelicot.
From Verif Require Import Base SmearModel SpecSmear SmearProofs SmearProofs2 SmearProofs3
  SmearProofs4 SmearProofs5 SmearProofs6 SmearProofs7 PiBounds.
Import ListNotations.
Local Open Scope list_scope.
Local Open Scope R_scope.
Local Notation length := List.length.

(** Two numbers are equal, or far enough apart for np.isclose to tell. *)
Definition told_apart (a b : R) : Prop := a = b \/ isclose a b = false.

(** All query radii lie between the drain wall and the outer edge. *)
Definition in_annulus (n : R) (si : list R) : Prop := List.Forall (fun x => 1 <= x <= n) si.

(** Deciding comparisons. *)
Lemma check_si_ok n si : in_annulus n si -> check_si n si = Ok tt.
Proof.
  intros H. unfold check_si, any. destruct (existsb _ si) eqn:E; auto.
  apply existsb_exists in E. destruct E as [v [Hv E]].
  unfold in_annulus in H. rewrite List.Forall_forall in H. specialize (H v Hv).
  apply orb_prop in E. destruct E as [E|E]; apply Rltb_true in E; lra.
Qed.
Lemma check_si_err n si : ~ in_annulus n si -> check_si n si = Err ValueError.
Proof.
  intros H. unfold check_si, any. destruct (existsb _ si) eqn:E; auto. exfalso. apply H.
  apply List.Forall_forall. intros v Hv.
  destruct (Rle_dec 1 v), (Rle_dec v n); try (split; auto);
  assert (existsb (fun v : R => Rltb v 1 || Rltb n v) si = true) as X;
    try (apply existsb_exists; exists v; split; auto; apply orb_true_iff;
         rewrite !Rltb_true; lra); congruence.
Qed.
Lemma check_nsk_ok n s kap : 1 < n -> 1 <= s <= n -> 0 < kap -> check_nsk n s kap = Ok tt.
Proof.
  intros. unfold check_nsk.
  rewrite (proj2 (Rleb_false _ _)) by lra. rewrite (proj2 (Rltb_false _ _)) by lra.
  rewrite (proj2 (Rleb_false _ _)) by lra. rewrite (proj2 (Rltb_false _ _)) by lra. reflexivity.
Qed.
Lemma mu_constant_ok n s kap : 1 < n -> 1 <= s <= n -> 0 < kap ->
  mu_constant n s kap = Ok (mu_constant_elem n s kap).
Proof.
  intros. unfold mu_constant.
  rewrite (proj2 (Rleb_false _ _)) by lra. rewrite (proj2 (Rltb_false _ _)) by lra.
  rewrite (proj2 (Rleb_false _ _)) by lra. rewrite (proj2 (Rltb_false _ _)) by lra. reflexivity.
Qed.
Lemma mu_linear_1 n s kap : 1 < n -> 1 <= s < n -> 0 < kap ->
  mu_linear [n] [s] [kap] = Ok [mu_linear_elem n s kap].
Proof.
  intros. unfold mu_linear, any. cbn [existsb].
  rewrite (proj2 (Rleb_false n 1)) by lra. rewrite (proj2 (Rltb_false s 1)) by lra.
  rewrite (proj2 (Rleb_false kap 0)) by lra. cbn.
  rewrite (proj2 (Rleb_false n s)) by lra. reflexivity.
Qed.
Lemma mu_ideal_1 n : 1 < n -> mu_ideal [n] = Ok [mu_ideal_elem n].
Proof.
  intros. unfold mu_ideal, any. cbn [existsb]. rewrite (proj2 (Rleb_false n 1)) by lra. reflexivity.
Qed.
Lemma mu_parabolic_ok n s kap : 1 < n -> 1 <= s <= n -> 0 < kap ->
  mu_parabolic n s kap = Ok (if isclose s 1 || isclose kap 1 then Some (mu_ideal_elem n)
                             else mu_p n s kap).
Proof.
  intros. unfold mu_parabolic.
  rewrite (proj2 (Rleb_false _ _)) by lra. rewrite (proj2 (Rltb_false _ _)) by lra.
  rewrite (proj2 (Rleb_false _ _)) by lra. rewrite (proj2 (Rltb_false _ _)) by lra.
  destruct (isclose s 1 || isclose kap 1); reflexivity.
Qed.

(** ** C34: the ideal drain, and the models that reduce to it *)

(** mu_ideal is the drain parameter of undisturbed soil. *)
Theorem C34_mu_ideal : forall ns : list R,
  (List.Forall (fun n => 1 < n) ns ->
     exists mus, mu_ideal ns = Ok mus /\ length mus = length ns /\
       forall i, (i < length ns)%nat -> is_mu (nth i ns 0) k_one (nth i mus 0)) /\
  (~ List.Forall (fun n => 1 < n) ns -> mu_ideal ns = Err ValueError).
Proof.
  intros ns. split.
  - intros H. exists (map mu_ideal_elem ns).
    split; [|split; [apply map_length|]].
    + unfold mu_ideal. destruct (any _ ns) eqn:E; auto.
      unfold any in E. apply existsb_exists in E. destruct E as [v [Hv E]].
      rewrite List.Forall_forall in H. specialize (H v Hv). apply Rleb_true in E. lra.
    + intros i Hi. rewrite (nth_indep (map mu_ideal_elem ns) 0 (mu_ideal_elem 0)) by (rewrite map_length; auto).
      rewrite map_nth. apply is_mu_ideal; [|auto].
      rewrite List.Forall_forall in H. apply H, nth_In; auto.
  - intros H. unfold mu_ideal. destruct (any _ ns) eqn:E; auto. exfalso; apply H.
    apply Forall_ix. intros i Hi. pose proof (any_false _ _ E i Hi) as Q. apply Rleb_false in Q. auto.
Qed.
Print Assumptions C34_mu_ideal.

Example C34_mu_ideal_applies : mu_ideal [20; 1] = Err ValueError /\
  exists m, mu_ideal [20] = Ok [m] /\ is_mu 20 k_one m.
Proof.
  split.
  - apply (proj2 (C34_mu_ideal [20; 1])). intros H. inversion H; subst. inversion H3; subst. lra.
  - exists (mu_ideal_elem 20). split; [apply mu_ideal_1; lra|apply is_mu_ideal; auto; lra].
Qed.

(** With no smear zone every model gives mu_ideal and u_ideal. *)
Theorem C34_no_smear : forall n s kap si uavg uw muw,
  1 < n -> 1 <= s < n -> 0 < kap -> s = 1 \/ kap = 1 ->
  exists mu, mu_ideal [n] = Ok [mu] /\
    mu_constant n s kap = Ok mu /\
    mu_linear [n] [s] [kap] = Ok [mu] /\
    mu_overlapping_linear n s kap = Ok mu /\
    mu_parabolic n s kap = Ok (Some mu) /\
    u_constant n s kap si uavg uw muw = u_ideal n si uavg uw muw /\
    u_linear n s kap si uavg uw muw = u_ideal n si uavg uw muw /\
    u_parabolic n s kap si uavg uw muw = rmap (map Some) (u_ideal n si uavg uw muw).
Proof.
  intros n s kap si uavg uw muw Hn Hs Hk HC.
  assert (I : (isclose s 1 || isclose kap 1)%bool = true).
  { destruct HC as [->| ->]; rewrite (isclose_refl 1 1) by auto; [reflexivity|apply orb_true_r]. }
  exists (mu_ideal_elem n).
  split; [apply mu_ideal_1; auto|].
  split.
  { rewrite mu_constant_ok by lra. f_equal. unfold mu_constant_elem, mu_ideal_elem.
    rewrite ln_div by lra.
    assert (n^2 - 1 <> 0) by (apply n2; auto).
    destruct HC as [->| ->]; rewrite ?ln_1; field; lra. }
  split.
  { rewrite mu_linear_1 by auto. unfold mu_linear_elem. rewrite I. reflexivity. }
  split.
  { unfold mu_overlapping_linear.
    rewrite (proj2 (Rleb_false n 1)) by lra. rewrite (proj2 (Rltb_false s 1)) by lra.
    rewrite (proj2 (Rleb_false kap 0)) by lra. rewrite I, mu_ideal_1 by auto. reflexivity. }
  split.
  { rewrite mu_parabolic_ok by lra. rewrite I. reflexivity. }
  assert (U : forall A (k : unit -> result A), 
     (_ <- check_si n si ;; k tt) = (if is_ok (check_si n si) then k tt else Err ValueError)).
  { intros A k. unfold check_si. destruct (any _ si); reflexivity. }
  assert (UI : is_ok (check_si n si) = false -> u_ideal n si uavg uw muw = Err ValueError).
  { intros E. unfold u_ideal. rewrite (proj2 (Rleb_false n 1)) by lra.
    unfold check_si in *. destruct (any _ si); [reflexivity|discriminate]. }
  split; [|split].
  - unfold u_constant. rewrite check_nsk_ok by lra. cbn [bind]. rewrite I.
    destruct (is_ok (check_si n si)) eqn:E; [|rewrite UI by auto];
    unfold check_si in *; destruct (any _ si); try discriminate; reflexivity.
  - unfold u_linear. rewrite check_nsk_ok by lra. cbn [bind]. rewrite I.
    destruct (is_ok (check_si n si)) eqn:E; [|rewrite UI by auto];
    unfold check_si in *; destruct (any _ si); try discriminate; reflexivity.
  - unfold u_parabolic. rewrite check_nsk_ok by lra. cbn [bind]. rewrite I.
    destruct (is_ok (check_si n si)) eqn:E; [|rewrite UI by auto];
    unfold check_si in *; destruct (any _ si); try discriminate; reflexivity.
Qed.
Print Assumptions C34_no_smear.

Example C34_no_smear_applies : 1 < 20 /\ 1 <= 5 < 20 /\ 0 < 1 /\ (5 = 1 \/ 1 = 1).
Proof. lra. Qed.

(** mu_constant is the drain parameter of the step profile, and it is refused exactly
    for parameters out of range. *)
Theorem C34_mu_constant : forall n s kap,
  (1 < n -> 1 <= s <= n -> 0 < kap ->
     exists mu, mu_constant n s kap = Ok mu /\ is_mu n (k_const s kap) mu) /\
  (~ (1 < n /\ 1 <= s <= n /\ 0 < kap) -> mu_constant n s kap = Err ValueError).
Proof.
  intros n s kap. split.
  - intros Hn Hs Hk. exists (mu_constant_elem n s kap). split; [apply mu_constant_ok; auto|].
    eapply good_mu; [|reflexivity]. apply (good_constant n s kap (fun x => / k_const s kap x)); auto.
    + intros x Hx. unfold k_const. destruct (Rlt_dec x s); [apply Rinv_inv|lra].
    + intros x Hx. unfold k_const. destruct (Rlt_dec x s); [lra|apply Rinv_1].
  - intros H. unfold mu_constant.
    destruct (Rleb n 1) eqn:E1; auto. destruct (Rltb s 1) eqn:E2; auto.
    destruct (Rleb kap 0) eqn:E3; auto. destruct (Rltb n s) eqn:E4; auto.
    apply Rleb_false in E1, E3. apply Rltb_false in E2, E4. exfalso; apply H. lra.
Qed.
Print Assumptions C34_mu_constant.

Example C34_mu_constant_applies :
  (exists mu, mu_constant 20 3 4 = Ok mu /\ is_mu 20 (k_const 3 4) mu) /\
  mu_constant 20 30 4 = Err ValueError.
Proof.
  split; [apply C34_mu_constant; lra|apply C34_mu_constant; lra].
Qed.

(** ** C35: piecewise constant smear zones *)
Definition increasing_from_1 (s : list R) : Prop :=
  (forall v, In v s -> 1 < v) /\
  (forall i, (S i < length s)%nat -> nth i s 0 < nth (S i) s 0).

Lemma pwc_ok_intro s kap : s <> [] -> length s = length kap -> increasing_from_1 s ->
  List.Forall (fun k => 0 < k) kap -> pwc_ok s kap.
Proof.
  intros Ne L [H1 H2] Hk. split; auto.
  - destruct s; [contradiction|cbn; lia].
  - intros i Hi. apply H1, nth_In; auto.
  - intros i Hi. rewrite L in Hi. revert i Hi. apply Forall_ix; auto.
Qed.

Lemma mu_pwc_ok s kap : pwc_ok s kap -> mu_piecewise_constant s kap None None = Ok (mu_pwc_value s kap).
Proof.
  intros O. unfold mu_piecewise_constant. cbn [with_outer bind].
  destruct (pwc_ok_check s kap O) as [-> ->]. reflexivity.
Qed.

(** For any number of zones the result is the drain parameter of the step profile;
    anything else is refused. *)
Theorem C35_mu_piecewise_constant : forall s kap,
  s <> [] ->
  (length s = length kap -> increasing_from_1 s -> List.Forall (fun k => 0 < k) kap ->
     exists mu, mu_piecewise_constant s kap None None = Ok mu /\
       is_mu (last s 0) (k_pwc s kap) mu) /\
  (~ (length s = length kap /\ increasing_from_1 s /\ List.Forall (fun k => 0 < k) kap) ->
     mu_piecewise_constant s kap None None = Err ValueError).
Proof.
  intros s kap Ne. split.
  - intros L H Hk. pose proof (pwc_ok_intro s kap Ne L H Hk) as O.
    exists (mu_pwc_value s kap). split; [apply mu_pwc_ok; auto|].
    destruct (pwc_main s kap O) as [G _].
    assert (El : last s 0 = ix s (length s - 1)).
    { unfold ix. destruct (exists_last Ne) as [l [a ->]]. rewrite last_last, app_length.
      cbn [List.length]. rewrite app_nth2 by lia.
      replace (length l + 1 - 1 - length l)%nat with 0%nat by lia. reflexivity. }
    rewrite El. eapply good_mu; [exact G|reflexivity].
  - intros H. unfold mu_piecewise_constant. cbn [with_outer bind].
    unfold check_pwc.
    destruct (Nat.eqb (length s) (length kap)) eqn:E1; cbn [negb]; [|reflexivity].
    destruct (any _ s) eqn:E2; [reflexivity|].
    destruct (any _ kap) eqn:E3; [reflexivity|].
    destruct (any_diff_nonpos s) eqn:E4; [reflexivity|].
    exfalso; apply H. apply Nat.eqb_eq in E1. split; [auto|]. split; [split|].
    + intros v Hv. apply (In_nth _ _ 0) in Hv. destruct Hv as [i [Hi <-]].
      pose proof (any_false _ _ E2 i Hi) as Q. apply Rleb_false in Q. auto.
    + intros i Hi. apply diff_lt; auto.
    + apply Forall_ix. intros i Hi. pose proof (any_false _ _ E3 i Hi) as Q. apply Rleb_false in Q. auto.
Qed.
Print Assumptions C35_mu_piecewise_constant.

(** Giving the outer radius n separately is the same as appending it (with kap_m, or
    with the last kap). *)
Theorem C35_outer_radius : forall s kap n km,
  mu_piecewise_constant s kap (Some n) (Some km)
    = mu_piecewise_constant (s ++ [n]) (kap ++ [km]) None None /\
  (kap <> [] -> mu_piecewise_constant s kap (Some n) None
    = mu_piecewise_constant (s ++ [n]) (kap ++ [last kap 0]) None None) /\
  mu_piecewise_linear s kap (Some n) (Some km)
    = mu_piecewise_linear (s ++ [n]) (kap ++ [km]) None None /\
  (kap <> [] -> mu_piecewise_linear s kap (Some n) None
    = mu_piecewise_linear (s ++ [n]) (kap ++ [last kap 0]) None None).
Proof.
  intros s kap n km.
  assert (G : kap <> [] -> get_last kap = Ok (last kap 0)).
  { intros Ne. destruct (exists_last Ne) as [l [a ->]]. unfold get_last.
    rewrite rev_app_distr, last_last. reflexivity. }
  split; [reflexivity|]. split; [|split; [reflexivity|]].
  - intros Ne. unfold mu_piecewise_constant, with_outer. rewrite G by auto. reflexivity.
  - intros Ne. unfold mu_piecewise_linear, with_outer. rewrite G by auto. reflexivity.
Qed.
Print Assumptions C35_outer_radius.

(** One smear zone: the same number as mu_constant. *)
Theorem C35_one_zone_is_mu_constant : forall n s kap,
  1 < s < n -> 0 < kap ->
  mu_piecewise_constant [s] [kap] (Some n) (Some 1) = mu_constant n s kap.
Proof.
  intros n s kap Hs Hk.
  destruct (proj1 (C35_mu_piecewise_constant [s; n] [kap; 1] ltac:(discriminate)))
    as [m [E1 I1]]; auto.
  - split.
    + intros v [<-|[<-|[]]]; lra.
    + intros [|i] Hi; cbn in *; [lra|lia].
  - repeat constructor; lra.
  - destruct (C35_outer_radius [s] [kap] n 1) as [-> _]. cbn [app]. rewrite E1.
    destruct (proj1 (C34_mu_constant n s kap)) as [m2 [E2 I2]]; try lra. rewrite E2. f_equal.
    cbn [last] in I1. apply (is_mu_unique n (k_const s kap)); auto; [lra|].
    eapply is_mu_ext; [lra| |exact I1]. intros x Hx. cbn [k_pwc]. unfold k_const.
    destruct (Rlt_dec x s); auto. destruct (Rlt_dec x n); [|lra]. apply Rinv_1.
Qed.
Print Assumptions C35_one_zone_is_mu_constant.

Lemma incr_mid (s1 s2 : list R) a b c :
  increasing_from_1 (s1 ++ [a; c] ++ s2) -> a < b < c -> increasing_from_1 (s1 ++ [a; b; c] ++ s2).
Proof.
  intros [H1 H2] Hb. split.
  - intros v Hv. apply in_app_or in Hv. destruct Hv as [Hv|Hv].
    + apply H1, in_or_app; auto.
    + cbn in Hv. destruct Hv as [<-|[<-|[<-|Hv]]].
      * apply H1, in_or_app; right; left; auto.
      * apply Rlt_trans with a; [|lra]. apply H1, in_or_app; right; left; auto.
      * apply H1, in_or_app; right; right; left; auto.
      * apply H1, in_or_app; right; right; right; auto.
  - intros i Hi. rewrite app_length in Hi. cbn [List.length app] in Hi.
    destruct (Nat.lt_ge_cases (S i) (length s1)) as [L|L].
    + rewrite !app_nth1 by lia. specialize (H2 i). rewrite !app_nth1 in H2 by lia. apply H2.
      rewrite app_length; lia.
    + rewrite (app_nth2 _ _ _ L). destruct (Nat.eq_dec (S i) (length s1)) as [E|E].
      * rewrite app_nth1 by lia. replace (S i - length s1)%nat with 0%nat by lia. cbn.
        specialize (H2 i). rewrite app_nth1 in H2 by lia. rewrite app_nth2 in H2 by lia.
        replace (S i - length s1)%nat with 0%nat in H2 by lia. apply H2.
        rewrite app_length; cbn; lia.
      * rewrite app_nth2 by lia.
        replace (S i - length s1)%nat with (S (i - length s1)) by lia.
        destruct (i - length s1)%nat as [|[|j]] eqn:Ej; cbn; try lra.
        specialize (H2 (i - 1)%nat). replace (S (i - 1)) with i in H2 by lia.
        rewrite (app_nth2 s1 _ _ (n := (i - 1)%nat)) in H2 by lia.
        rewrite (app_nth2 s1 _ _ (n := i)) in H2 by lia.
        replace (i - 1 - length s1)%nat with (S j) in H2 by lia.
        rewrite Ej in H2. cbn in H2. apply H2.
        rewrite app_length; cbn; lia.
Qed.

Lemma k_pwc_split s1 k1 a b c s2 ka k k2 x : length s1 = length k1 -> a < b < c ->
  k_pwc (s1 ++ [a; b; c] ++ s2) (k1 ++ [ka; k; k] ++ k2) x =
  k_pwc (s1 ++ [a; c] ++ s2) (k1 ++ [ka; k] ++ k2) x.
Proof.
  intros L Hb. revert k1 L. induction s1 as [|d s1 IH]; intros [|kd k1] L; cbn in L; try lia.
  - cbn. destruct (Rlt_dec x a); auto. destruct (Rlt_dec x b); auto.
    destruct (Rlt_dec x c); auto. lra.
  - cbn. destruct (Rlt_dec x d); auto.
Qed.

(** Splitting the zone from a to c (after any zones, before any zones) at b changes
    nothing. *)
Theorem C35_splitting_a_zone : forall s1 k1 a b c ka k s2 k2,
  length s1 = length k1 -> length s2 = length k2 -> a < b < c ->
  increasing_from_1 (s1 ++ [a; c] ++ s2) -> List.Forall (fun v => 0 < v) (k1 ++ [ka; k] ++ k2) ->
  mu_piecewise_constant (s1 ++ [a; b; c] ++ s2) (k1 ++ [ka; k; k] ++ k2) None None =
  mu_piecewise_constant (s1 ++ [a; c] ++ s2) (k1 ++ [ka; k] ++ k2) None None.
Proof.
  intros s1 k1 a b c ka k s2 k2 L1 L2 Hb Hi Hk.
  destruct (proj1 (C35_mu_piecewise_constant (s1 ++ [a; c] ++ s2) (k1 ++ [ka; k] ++ k2)
    ltac:(intros E; apply (f_equal (@length R)) in E; rewrite app_length in E; cbn in E; lia)))
    as [m [E1 I1]]; auto.
  { rewrite !app_length; cbn; lia. }
  destruct (proj1 (C35_mu_piecewise_constant (s1 ++ [a; b; c] ++ s2) (k1 ++ [ka; k; k] ++ k2)
    ltac:(intros E; apply (f_equal (@length R)) in E; rewrite app_length in E; cbn in E; lia)))
    as [m2 [E2 I2]]; auto.
  { rewrite !app_length; cbn; lia. }
  { apply incr_mid; auto. }
  { apply List.Forall_app in Hk. destruct Hk as [K1 K2]. apply List.Forall_app. split; auto.
    cbn in *. inversion K2; subst. inversion H2; subst. constructor; auto. }
  rewrite E1, E2. f_equal.
  assert (El : last (s1 ++ [a; b; c] ++ s2) 0 = last (s1 ++ [a; c] ++ s2) 0).
  { assert (Q : forall l1 (l2 : list R), l2 <> [] -> last (l1 ++ l2) 0 = last l2 0).
    { intros l1 l2 Ne. destruct (exists_last Ne) as [l [z ->]]. rewrite app_assoc, !last_last. auto. }
    rewrite (Q s1 ([a; b; c] ++ s2)), (Q s1 ([a; c] ++ s2)) by discriminate.
    destruct s2 as [|d s2]; [reflexivity|].
    rewrite (Q [a; b; c] (d :: s2)), (Q [a; c] (d :: s2)) by discriminate. reflexivity. }
  assert (P : 1 < last (s1 ++ [a; c] ++ s2) 0).
  { destruct Hi as [Hi _]. apply Hi.
    assert (Ne : s1 ++ [a; c] ++ s2 <> []).
    { intros E; apply (f_equal (@length R)) in E; rewrite app_length in E; cbn in E; lia. }
    destruct (exists_last Ne) as [l [z Ez]]. rewrite Ez, last_last. apply in_or_app; right; left; auto. }
  apply (is_mu_unique (last (s1 ++ [a; c] ++ s2) 0) (k_pwc (s1 ++ [a; c] ++ s2) (k1 ++ [ka; k] ++ k2)));
    [exact P| |exact I1].
  rewrite El in I2. eapply is_mu_ext; [exact P| |exact I2].
  intros x Hx. apply k_pwc_split; auto.
Qed.
Print Assumptions C35_splitting_a_zone.

(** The same for the innermost zone (from the drain wall to c). *)
Theorem C35_splitting_the_first_zone : forall b c k s2 k2,
  length s2 = length k2 -> 1 < b < c ->
  increasing_from_1 (c :: s2) -> List.Forall (fun v => 0 < v) (k :: k2) ->
  mu_piecewise_constant (b :: c :: s2) (k :: k :: k2) None None =
  mu_piecewise_constant (c :: s2) (k :: k2) None None.
Proof.
  intros b c k s2 k2 L Hb Hi Hk.
  destruct (proj1 (C35_mu_piecewise_constant (c :: s2) (k :: k2) ltac:(discriminate))) as [m [E1 I1]]; auto.
  { cbn; lia. }
  destruct (proj1 (C35_mu_piecewise_constant (b :: c :: s2) (k :: k :: k2) ltac:(discriminate)))
    as [m2 [E2 I2]]; auto.
  { cbn; lia. }
  { destruct Hi as [H1 H2]. split.
    - intros v [<-|Hv]; [lra|auto].
    - intros [|i] Hi; cbn in *; [lra|]. apply (H2 i). cbn; lia. }
  { inversion Hk; subst. constructor; auto. }
  rewrite E1, E2. f_equal. change (last (b :: c :: s2) 0) with (last (c :: s2) 0) in I2.
  assert (P : 1 < last (c :: s2) 0).
  { destruct Hi as [Hi _]. apply Hi. destruct (exists_last (l := c :: s2) ltac:(discriminate)) as [l [z Ez]].
    rewrite Ez, last_last. apply in_or_app; right; left; auto. }
  apply (is_mu_unique (last (c :: s2) 0) (k_pwc (c :: s2) (k :: k2))); [exact P| |exact I1].
  eapply is_mu_ext; [exact P| |exact I2].
  intros x Hx. cbn [k_pwc]. destruct (Rlt_dec x b); auto. destruct (Rlt_dec x c); auto; lra.
Qed.
Print Assumptions C35_splitting_the_first_zone.

Example C35_applies :
  increasing_from_1 ([2] ++ [3; 5] ++ [10]) /\ 3 < 4 < 5 /\
  List.Forall (fun v => 0 < v) ([6] ++ [3; 2] ++ [1]).
Proof.
  split; [split|split; [lra|]].
  - intros v [<-|[<-|[<-|[<-|[]]]]]; lra.
  - intros [|[|[|i]]] Hi; cbn in *; try lra; lia.
  - repeat constructor; lra.
Qed.

(** ** C36: pore pressure profiles *)
Lemma c_nonzero mu muw : 0 < mu -> 0 <= muw -> mu + muw <> 0. Proof. lra. Qed.

Theorem C36_u_ideal : forall n uavg uw muw, 1 < n -> 0 <= muw ->
  exists u, (forall si, in_annulus n si -> u_ideal n si uavg uw muw = Ok (map u si)) /\
    (forall si, ~ in_annulus n si -> u_ideal n si uavg uw muw = Err ValueError) /\
    drain_profile n k_one [] uavg uw muw u.
Proof.
  intros n uavg uw muw Hn Hm.
  exists (fun x => (uavg - uw) / (mu_ideal_elem n + muw) * (F_ideal n x + muw) + uw).
  split; [|split].
  - intros si Hsi. unfold u_ideal. rewrite (proj2 (Rleb_false n 1)) by lra.
    rewrite check_si_ok by auto. reflexivity.
  - intros si Hsi. unfold u_ideal. rewrite (proj2 (Rleb_false n 1)) by lra.
    rewrite check_si_err by auto. reflexivity.
  - apply (good_profile n [] k_one (F_ideal n) (mu_ideal_elem n)); auto.
    + apply good_ideal; auto. intros; apply Rinv_1.
    + unfold F_ideal. rewrite ln_1. ring.
    + apply c_nonzero; auto. apply mu_ideal_pos; auto.
Qed.
Print Assumptions C36_u_ideal.

Theorem C36_u_constant : forall n s kap uavg uw muw,
  1 < n -> 1 <= s <= n -> 0 < kap -> 0 <= muw -> told_apart s 1 -> told_apart kap 1 ->
  exists u, (forall si, in_annulus n si -> u_constant n s kap si uavg uw muw = Ok (map u si)) /\
    (forall si, ~ in_annulus n si -> u_constant n s kap si uavg uw muw = Err ValueError) /\
    drain_profile n (k_const s kap) [s] uavg uw muw u.
Proof.
  intros n s kap uavg uw muw Hn Hs Hk Hm T1 T2.
  destruct (isclose s 1 || isclose kap 1) eqn:I.
  - assert (HC : s = 1 \/ kap = 1).
    { destruct T1 as [?|T1]; auto. destruct T2 as [?|T2]; auto. rewrite T1, T2 in I. discriminate. }
    destruct (C36_u_ideal n uavg uw muw Hn Hm) as [u [U1 [U2 U3]]]. exists u.
    split; [|split].
    + intros si Hsi. unfold u_constant. rewrite check_nsk_ok, check_si_ok by auto. cbn [bind].
      rewrite I. auto.
    + intros si Hsi. unfold u_constant. rewrite check_nsk_ok, check_si_err by auto. reflexivity.
    + destruct U3 as [C [c [F1 F2]] M]. split; auto. exists c. split; auto. intros x Hx Hb.
      replace (k_const s kap x) with (k_one x); [apply F2; auto|].
      unfold k_const, k_one. destruct (Rlt_dec x s); auto.
      destruct HC as [->| ->]; [lra|symmetry; apply Rinv_1].
  - assert (G : good n [s] (fun x => / k_const s kap x) (F_constant n s kap) 1 n (mu_constant_elem n s kap * (n^2 - 1))).
    { apply good_constant; auto.
      + intros x Hx. unfold k_const. destruct (Rlt_dec x s); [apply Rinv_inv|lra].
      + intros x Hx. unfold k_const. destruct (Rlt_dec x s); [lra|apply Rinv_1]. }
    exists (fun x => (uavg - uw) / (mu_constant_elem n s kap + muw) * (F_constant n s kap x + muw) + uw).
    split; [|split].
    + intros si Hsi. unfold u_constant. rewrite check_nsk_ok, check_si_ok by auto. cbn [bind].
      rewrite I, mu_constant_ok by auto. reflexivity.
    + intros si Hsi. unfold u_constant. rewrite check_nsk_ok, check_si_err by auto. reflexivity.
    + apply (good_profile n [s] (k_const s kap) (F_constant n s kap) (mu_constant_elem n s kap)); auto.
      * unfold F_constant. destruct (Rltb 1 s) eqn:E.
        -- unfold u_constant_part. rewrite ln_1. ring.
        -- apply Rltb_false in E. assert (s = 1) by lra. subst.
           unfold u_constant_undisturbed. replace (1 / 1) with 1 by field. rewrite ln_1. ring.
      * apply c_nonzero; auto. pose proof (Rinv_0_lt_compat _ Hk).
        apply (is_mu_gt0 n (k_const s kap) _ (1 + / kap)); auto; [lra| |].
        -- intros; apply k_const_bounds; auto.
        -- eapply good_mu; [exact G|reflexivity].
Qed.
Print Assumptions C36_u_constant.

Theorem C36_u_linear : forall n s kap uavg uw muw,
  1 < n -> 1 <= s < n -> 0 < kap -> 0 <= muw ->
  told_apart s 1 -> told_apart kap 1 -> told_apart s kap ->
  exists u, (forall si, in_annulus n si -> u_linear n s kap si uavg uw muw = Ok (map u si)) /\
    (forall si, ~ in_annulus n si -> u_linear n s kap si uavg uw muw = Err ValueError) /\
    drain_profile n (k_lin s kap) [s] uavg uw muw u.
Proof.
  intros n s kap uavg uw muw Hn Hs Hk Hm T1 T2 T3.
  destruct (isclose s 1 || isclose kap 1) eqn:I.
  - assert (HC : s = 1 \/ kap = 1).
    { destruct T1 as [?|T1]; auto. destruct T2 as [?|T2]; auto. rewrite T1, T2 in I. discriminate. }
    destruct (C36_u_ideal n uavg uw muw Hn Hm) as [u [U1 [U2 U3]]]. exists u.
    split; [|split].
    + intros si Hsi. unfold u_linear. rewrite check_nsk_ok, check_si_ok by (auto; lra). cbn [bind].
      rewrite I. auto.
    + intros si Hsi. unfold u_linear. rewrite check_nsk_ok, check_si_err by (auto; lra). reflexivity.
    + destruct U3 as [C [c [F1 F2]] M]. split; auto. exists c. split; auto. intros x Hx Hb.
      replace (k_lin s kap x) with (k_one x); [apply F2; auto|].
      unfold k_lin, k_one. destruct (Rlt_dec x s); auto.
      destruct HC as [->| ->]; [lra|rewrite Rinv_1; ring].
  - pose proof I as I0. apply orb_false_elim in I. destruct I as [I1 I2].
    assert (s <> 1) by (intros ->; rewrite isclose_refl in I1; auto; discriminate).
    assert (kap <> 1) by (intros ->; rewrite isclose_refl in I2; auto; discriminate).
    assert (Hs1 : 1 < s) by (apply Rnot_le_lt; intros ?; apply H; lra).
    assert (G : good n [s] (fun x => / k_lin s kap x) (F_linear n s kap) 1 n (mu_linear_elem n s kap * (n^2 - 1))
       /\ F_linear n s kap 1 = 0).
    { unfold mu_linear_elem. rewrite I0. destruct T3 as [E|T3].
      - rewrite isclose_refl by auto. split.
        + apply good_linear_eq; auto; try lra; [| |apply isclose_refl; auto].
          * intros x Hx. rewrite k_lin_form by lra. subst kap.
            replace ((s - 1) / (s - 1) * x + (s - s) / (s - 1)) with x by (field; lra). field. lra.
          * intros x Hx. rewrite k_lin_out by lra. apply Rinv_1.
        + unfold F_linear. rewrite Rltb_t by lra. unfold u_linear_part. rewrite isclose_refl by auto.
          field. lra.
      - rewrite T3. assert (s <> kap) by (intros E; rewrite isclose_refl in T3; auto; discriminate).
        split.
        + apply good_linear_neq; auto; try lra.
          * intros x Hx. pose proof (k_lin_pos s kap x Hs1 Hk ltac:(lra)) as P.
            rewrite k_lin_form in * by lra. set (t := _ * x + _) in *.
            assert (t <> 0) by (intros E; rewrite E in P; unfold Rdiv in P; lra). field. lra.
          * intros x Hx. rewrite k_lin_out by lra. apply Rinv_1.
        + unfold F_linear. rewrite Rltb_t by lra. unfold u_linear_part. rewrite T3.
          replace ((kap - 1) / (s - 1) * 1 + (s - kap) / (s - 1)) with 1 by (field; lra).
          rewrite ln_1. unfold Rdiv; ring. }
    destruct G as [G F1].
    exists (fun x => (uavg - uw) / (mu_linear_elem n s kap + muw) * (F_linear n s kap x + muw) + uw).
    split; [|split].
    + intros si Hsi. unfold u_linear. rewrite check_nsk_ok, check_si_ok by (auto; lra). cbn [bind].
      rewrite I0, mu_linear_1 by auto. reflexivity.
    + intros si Hsi. unfold u_linear. rewrite check_nsk_ok, check_si_err by (auto; lra). reflexivity.
    + apply (good_profile n [s] (k_lin s kap) (F_linear n s kap) (mu_linear_elem n s kap)); auto.
      apply c_nonzero; auto. pose proof (Rinv_0_lt_compat _ Hk).
      apply (is_mu_gt0 n (k_lin s kap) _ (1 + / kap)); auto; [lra| |].
      -- intros; apply k_lin_bounds; lra.
      -- eapply good_mu; [exact G|reflexivity].
Qed.
Print Assumptions C36_u_linear.

Theorem C36_u_parabolic : forall n s kap uavg uw muw,
  1 < n -> 1 <= s <= n -> 1 <= kap -> 0 <= muw ->
  told_apart s 1 -> told_apart kap 1 -> kap / (kap - 1) <> (s / (s - 1))^2 ->
  exists u, (forall si, in_annulus n si ->
      u_parabolic n s kap si uavg uw muw = Ok (map (fun x => Some (u x)) si)) /\
    (forall si, ~ in_annulus n si -> u_parabolic n s kap si uavg uw muw = Err ValueError) /\
    drain_profile n (k_par s kap) [s] uavg uw muw u.
Proof.
  intros n s kap uavg uw muw Hn Hs Hk Hm T1 T2 NS.
  destruct (isclose s 1 || isclose kap 1) eqn:I.
  - assert (HC : s = 1 \/ kap = 1).
    { destruct T1 as [?|T1]; auto. destruct T2 as [?|T2]; auto. rewrite T1, T2 in I. discriminate. }
    destruct (C36_u_ideal n uavg uw muw Hn Hm) as [u [U1 [U2 U3]]]. exists u.
    split; [|split].
    + intros si Hsi. unfold u_parabolic. rewrite check_nsk_ok, check_si_ok by (auto; lra). cbn [bind].
      rewrite I, U1 by auto. cbn. rewrite map_map. reflexivity.
    + intros si Hsi. unfold u_parabolic. rewrite check_nsk_ok, check_si_err by (auto; lra). reflexivity.
    + destruct U3 as [C [c [F1 F2]] M]. split; auto. exists c. split; auto. intros x Hx Hb.
      replace (k_par s kap x) with (k_one x); [apply F2; auto|].
      unfold k_par, k_one. destruct (Rlt_dec x s); auto.
      destruct HC as [->| ->]; [lra|rewrite Rinv_1; ring].
  - pose proof I as I0. apply orb_false_elim in I. destruct I as [I1 I2].
    assert (s <> 1) by (intros ->; rewrite isclose_refl in I1; auto; discriminate).
    assert (kap <> 1) by (intros ->; rewrite isclose_refl in I2; auto; discriminate).
    assert (Hs1 : 1 < s) by (apply Rnot_le_lt; intros ?; apply H; lra).
    assert (Hk1 : 1 < kap) by (apply Rnot_le_lt; intros ?; apply H0; lra).
    destruct (mu_p_some n s kap Hk1 Hs1 NS) as [mu Hmu].
    destruct (good_par n s kap mu Hn ltac:(lra) Hk1 Hmu) as [G F1].
    exists (fun x => (uavg - uw) / (mu + muw) * (F_parabolic n s kap x + muw) + uw).
    split; [|split].
    + intros si Hsi. unfold u_parabolic. rewrite check_nsk_ok, check_si_ok by (auto; lra). cbn [bind].
      rewrite I0, mu_parabolic_ok by lra. rewrite I0. cbn [bind]. rewrite Hmu. reflexivity.
    + intros si Hsi. unfold u_parabolic. rewrite check_nsk_ok, check_si_err by (auto; lra). reflexivity.
    + apply (good_profile n [s] (k_par s kap) (F_parabolic n s kap) mu); auto.
      apply c_nonzero; auto.
      apply (is_mu_gt0 n (k_par s kap) _ 1); auto; [lra| |].
      -- intros; apply k_par_bounds; lra.
      -- eapply good_mu; [exact G|reflexivity].
Qed.
Print Assumptions C36_u_parabolic.

Theorem C36_u_piecewise_constant : forall s kap uavg uw muw,
  s <> [] -> length s = length kap -> increasing_from_1 s -> List.Forall (fun k => 0 < k) kap ->
  0 <= muw ->
  exists u, (forall si, in_annulus (last s 0) si ->
      u_piecewise_constant s kap si uavg uw muw None None = Ok (map u si)) /\
    (forall si, ~ in_annulus (last s 0) si ->
      u_piecewise_constant s kap si uavg uw muw None None = Err ValueError) /\
    drain_profile (last s 0) (k_pwc s kap) s uavg uw muw u.
Proof.
  intros s kap uavg uw muw Ne L Hi Hk Hm. pose proof (pwc_ok_intro s kap Ne L Hi Hk) as O.
  destruct (pwc_main s kap O) as [G F1].
  assert (El : last s 0 = ix s (length s - 1)).
  { unfold ix. destruct (exists_last Ne) as [l [a ->]]. rewrite last_last, app_length.
    cbn [List.length]. rewrite app_nth2 by lia.
    replace (length l + 1 - 1 - length l)%nat with 0%nat by lia. reflexivity. }
  rewrite El. set (n := ix s (length s - 1)) in *.
  assert (Hn : 1 < n) by apply (pwc_n s kap O).
  destruct (pwc_ok_check s kap O) as [C1 C2]. fold n in C2.
  exists (fun x => (uavg - uw) / (mu_pwc_value s kap + muw) * (u_pwc_raw s kap 0 x + muw) + uw).
  split; [|split].
  - intros si Hsi. unfold u_piecewise_constant. cbn [with_outer bind]. rewrite C1, C2. cbn [bind].
    rewrite check_si_ok by auto. cbn [bind]. rewrite mu_pwc_ok by auto. cbn [bind].
    f_equal. apply map_ext. intros x.
    replace (u_pwc_raw s kap muw x) with (u_pwc_raw s kap 0 x + muw) by (unfold u_pwc_raw; ring).
    ring.
  - intros si Hsi. unfold u_piecewise_constant. cbn [with_outer bind]. rewrite C1, C2. cbn [bind].
    rewrite check_si_err by auto. reflexivity.
  - apply (good_profile n s (k_pwc s kap) (fun x => u_pwc_raw s kap 0 x) (mu_pwc_value s kap)); auto.
    apply c_nonzero; auto.
    apply (is_mu_gt0 n (k_pwc s kap) _ (inv_sum kap)); auto.
    + pose proof (inv_sum_pos kap Hk); lra.
    + intros; apply k_pwc_bounds; auto.
    + eapply good_mu; [exact G|reflexivity].
Qed.
Print Assumptions C36_u_piecewise_constant.

(** Piecewise linear: s starts at 1 and never decreases (a repeated radius is a jump of
    the permeability). *)
Definition node_list (s kap : list R) : Prop :=
  length s = length kap /\ nth 0 s 0 = 1 /\ 1 < last s 0 /\
  List.Forall (fun k => 0 < k) kap /\
  (forall i, (S i < length s)%nat -> nth i s 0 <= nth (S i) s 0).
Definition all_clear_cut (s kap : list R) : Prop :=
  forall i, (S i < length s)%nat ->
    clear_cut (nth i s 0) (nth (S i) s 0) (nth i kap 0) (nth (S i) kap 0).

Lemma last_ix s : s <> [] -> last s 0 = ix s (length s - 1).
Proof.
  intros Ne. unfold ix. destruct (exists_last Ne) as [l [a ->]]. rewrite last_last, app_length.
  cbn [List.length]. rewrite app_nth2 by lia.
  replace (length l + 1 - 1 - length l)%nat with 0%nat by lia. reflexivity.
Qed.

Lemma pwl_ok_intro s kap : node_list s kap -> all_clear_cut s kap ->
  pwl_ok s kap /\ last s 0 = ix s (length s - 1) /\ check_pwl s kap = Ok tt.
Proof.
  intros [L [H0 [Hl [Hk Hi]]]] HC.
  assert (Ne : s <> []) by (intros ->; cbn in Hl; lra).
  assert (O : pwl_ok s kap).
  { split; auto.
    - rewrite <- last_ix; auto.
    - intros i Hi2. rewrite L in Hi2. revert i Hi2. apply Forall_ix; auto. }
  split; [exact O|]. split; [apply last_ix; auto|].
  assert (1 <= length s)%nat by (destruct s; [contradiction|cbn; lia]).
  apply check_pwl_iff; auto; try lia.
  - intros i Hi2. rewrite <- H0. fold (ix s 0). apply mono_le; auto. lia.
  - destruct O; auto.
  - apply isclose_refl. exact H0.
Qed.

Theorem C36_u_piecewise_linear : forall s kap uavg uw muw,
  node_list s kap -> all_clear_cut s kap -> nth 0 s 0 < nth 1 s 0 -> 0 <= muw ->
  exists u, (forall si, in_annulus (last s 0) si ->
      u_piecewise_linear s kap si uavg uw muw None None = Ok (map u si)) /\
    (forall si, ~ in_annulus (last s 0) si ->
      u_piecewise_linear s kap si uavg uw muw None None = Err ValueError) /\
    drain_profile (last s 0) (k_pwl s kap) s uavg uw muw u.
Proof.
  intros s kap uavg uw muw N HC H01 Hm.
  destruct (pwl_ok_intro s kap N HC) as [O [El Ck]].
  destruct (pwl_main s kap O H01) as [G F1].
  pose proof N as [L [H0 [Hl [Hk Hi]]]].
  rewrite El in *. set (n := ix s (length s - 1)) in *.
  assert (L2 : (2 <= length s)%nat) by (apply (pwl_len2 s kap O)).
  assert (Pre : negb (length s =? length kap)%nat = false /\ any (fun v => Rltb v 1) s = false /\
     any (fun v => Rleb v 0) kap = false /\ any_diff_neg s = false /\ get_last s = Ok n).
  { split; [rewrite L, Nat.eqb_refl; auto|]. split; [|split; [|split]].
    - apply any_false_of. intros i Hi2. apply Rltb_false. rewrite <- H0. fold (ix s 0).
      apply mono_le; auto. lia.
    - apply any_false_of. intros i Hi2. apply Rleb_false. revert i Hi2. apply Forall_ix; auto.
    - apply diff_le_of; auto.
    - unfold n, ix. apply get_last_nth. intros ->; cbn in L2; lia. }
  destruct Pre as [P1 [P2 [P3 [P4 P5]]]].
  exists (fun x => (uavg - uw) / (mu_pwl_value s kap + muw) * (u_pwl_raw s kap 0 x + muw) + uw).
  split; [|split].
  - intros si Hsi. unfold u_piecewise_linear. cbn [with_outer bind].
    rewrite P1, P2, P3, P4, P5. cbn [bind].
    rewrite check_si_ok by auto. cbn [bind]. unfold mu_piecewise_linear. cbn [with_outer bind].
    rewrite Ck. cbn [bind]. replace (length s <? 2)%nat with false by (symmetry; apply Nat.ltb_ge; auto).
    cbn [andb]. f_equal. apply map_ext. intros x.
    replace (u_pwl_raw s kap muw x) with (u_pwl_raw s kap 0 x + muw) by (unfold u_pwl_raw; ring).
    ring.
  - intros si Hsi. unfold u_piecewise_linear. cbn [with_outer bind].
    rewrite P1, P2, P3, P4, P5. cbn [bind]. rewrite check_si_err by auto. reflexivity.
  - apply (good_profile n s (k_pwl s kap) (fun x => u_pwl_raw s kap 0 x) (mu_pwl_value s kap)); auto.
    apply c_nonzero; auto.
    apply (is_mu_gt0 n (k_pwl s kap) _ (inv_sum kap)); auto.
    + pose proof (inv_sum_pos kap Hk); lra.
    + intros x Hx. apply k_pwl_bounds; auto. intros a t E. rewrite E in H0. cbn in H0. lra.
    + eapply good_mu; [exact G|reflexivity].
Qed.
Print Assumptions C36_u_piecewise_linear.

(** At the drain wall without well resistance the pressure is uw. *)
Theorem C36_wall_pressure : forall n k bs uavg uw u,
  drain_profile n k bs uavg uw 0 u -> u 1 = uw.
Proof. intros n k bs uavg uw u [_ [c [E _]] _]. rewrite E. ring. Qed.
Print Assumptions C36_wall_pressure.

Example C36_applies :
  told_apart 3 1 /\ told_apart 4 1 /\ told_apart 3 4 /\ 
  4 / (4 - 1) <> (3 / (3 - 1))^2 /\
  node_list [1; 2; 2; 6] [4; 2; 3; 1] /\ all_clear_cut [1; 2; 2; 6] [4; 2; 3; 1].
Proof.
  assert (D : forall a b, / 100000000 + / 100000 * Rabs b < Rabs (a - b) -> isclose a b = false).
  { intros a b H. unfold isclose. apply Rleb_false. auto. }
  assert (A3 : forall a, 0 <= a -> Rabs a = a) by (intros; apply Rabs_right; lra).
  assert (A4 : forall a, a <= 0 -> Rabs a = - a) by (intros; apply Rabs_left1; lra).
  split; [right; apply D; rewrite !A3 by lra; lra|].
  split; [right; apply D; rewrite !A3 by lra; lra|].
  split; [right; apply D; rewrite A3, A4 by lra; lra|].
  split; [intros E; field_simplify in E; lra|].
  split.
  - split; [reflexivity|]. split; [reflexivity|]. split; [cbn; lra|]. split; [repeat constructor; lra|].
    intros [|[|[|i]]] Hi; cbn in *; try lra; lia.
  - intros [|[|[|i]]] Hi; cbn [nth List.length] in *; try lia; unfold clear_cut; (split; [|split]).
    + right; apply D; rewrite A3, A4 by lra; lra.
    + right; split; apply D; rewrite !A3 by lra; lra.
    + left. lra.
    + left; reflexivity.
    + right; split; apply D; rewrite A3, A4 by lra; lra.
    + right; apply D; rewrite A3, A4 by lra; lra.
    + right; apply D; rewrite A3, A4 by lra; lra.
    + right; split; apply D; rewrite !A3 by lra; lra.
    + left; lra.
Qed.

(** ** C37: well resistance *)
(** The value without depth is the mean over the depth 0..H of the values with depth. *)
Theorem C37_mean_over_depth : forall kh qw n H, 1 < n -> 0 < H -> qw <> 0 ->
  exists muz mean, (forall z, mu_well_resistance kh qw n H (Some z) = Ok (muz z)) /\
    mu_well_resistance kh qw n H None = Ok mean /\
    is_RInt muz 0 H (mean * H).
Proof.
  intros kh qw n H Hn HH Hq.
  exists (fun z => kh / qw * PI * z * (2 * H - z) * (1 - 1 / n^2)),
         (2 * kh * H^2 / 3 / qw * PI * (1 - 1 / n^2)).
  unfold mu_well_resistance. rewrite (proj2 (Rleb_false n 1)) by lra.
  split; [auto|]. split; [auto|].
  eapply is_RInt_val.
  - apply (is_RInt_derive (fun z => kh / qw * PI * (H * z^2 - z^3 / 3) * (1 - 1 / n^2))
             (fun z => kh / qw * PI * z * (2 * H - z) * (1 - 1 / n^2))).
    + intros z _. auto_derive; auto. field. lra.
    + intros z _. apply (ex_derive_continuous (fun z => kh / qw * PI * z * (2 * H - z) * (1 - 1 / n^2))).
      auto_derive; auto.
  - unfold minus, plus, opp; cbn -[pow]. field. lra.
Qed.
Print Assumptions C37_mean_over_depth.

(** It is zero at the top of the drain, grows with depth down to H, is never negative
    in between, and n <= 1 is refused. *)
Theorem C37_shape : forall kh qw n H, 0 < kh -> 0 < qw ->
  (1 < n -> mu_well_resistance kh qw n H (Some 0) = Ok 0 /\
     forall z1 z2 v1 v2, 0 <= z1 < z2 -> z2 <= H ->
       mu_well_resistance kh qw n H (Some z1) = Ok v1 ->
       mu_well_resistance kh qw n H (Some z2) = Ok v2 -> 0 <= v1 < v2) /\
  (n <= 1 -> forall z, mu_well_resistance kh qw n H z = Err ValueError).
Proof.
  intros kh qw n H Hk Hq. split.
  - intros Hn. unfold mu_well_resistance. rewrite (proj2 (Rleb_false n 1)) by lra. split.
    + f_equal. ring.
    + intros z1 z2 v1 v2 Hz Hz2 E1 E2. injection E1 as <-. injection E2 as <-.
      change (n * (n * 1)) with (n^2).
      pose proof PI_RGT_0. assert (0 < kh / qw) by (apply Rdiv_lt_0_compat; auto).
      assert (P : 0 < 1 - 1 / n^2).
      { assert (1 / n^2 < 1); [|lra]. apply Rmult_lt_reg_r with (n^2); [nra|].
        unfold Rdiv. rewrite Rmult_assoc, Rinv_l by nra. nra. }
      set (q := kh / qw * PI * (1 - 1 / n^2)).
      assert (Q : 0 < q) by (unfold q; apply Rmult_lt_0_compat; [apply Rmult_lt_0_compat|]; auto).
      replace (kh / qw * PI * z1 * (2 * H - z1) * (1 - 1 / n^2)) with (q * (z1 * (2 * H - z1))) by (unfold q; ring).
      replace (kh / qw * PI * z2 * (2 * H - z2) * (1 - 1 / n^2)) with (q * (z2 * (2 * H - z2))) by (unfold q; ring).
      clearbody q. split; [apply Rmult_le_pos; [lra|apply Rmult_le_pos; lra]|apply Rmult_lt_compat_l; auto].
      assert (0 < (z2 - z1) * (2 * H - z1 - z2)) by (apply Rmult_lt_0_compat; lra). lra.
  - intros Hn z. unfold mu_well_resistance. rewrite (proj2 (Rleb_true n 1)) by lra. reflexivity.
Qed.
Print Assumptions C37_shape.
Example C37_applies : 1 < 20 /\ 0 < 10 /\ 3 <> 0. Proof. lra. Qed.

(** ** C38: spacing to influence radius *)
Definition starts_with (c d : ascii) (pattern : string) : Prop :=
  exists rest, pattern = String c rest \/ pattern = String d rest.

Lemma upper_T c : Ascii.eqb (upper c) "T" = true <-> c = "T"%char \/ c = "t"%char.
Proof.
  split.
  - intros H. destruct c as [[] [] [] [] [] [] [] []]; vm_compute in H; try discriminate; auto.
  - intros [->| ->]; reflexivity.
Qed.
Lemma upper_S c : Ascii.eqb (upper c) "S" = true <-> c = "S"%char \/ c = "s"%char.
Proof.
  split.
  - intros H. destruct c as [[] [] [] [] [] [] [] []]; vm_compute in H; try discriminate; auto.
  - intros [->| ->]; reflexivity.
Qed.

(** The circle of radius re has, to 14 digits, the area of one cell of the pattern:
    sqrt 3/2 sp^2 (triangular) or sp^2 (square). *)
Theorem C38_area_of_cell : forall sp pattern, 0 < sp ->
  (starts_with "T" "t" pattern -> exists re, re_from_drain_spacing [sp] pattern = Ok [re] /\ 0 < re /\
     Rabs (PI * re^2 - sqrt 3 / 2 * sp^2) <= / 10^14 * sp^2) /\
  (starts_with "S" "s" pattern -> exists re, re_from_drain_spacing [sp] pattern = Ok [re] /\ 0 < re /\
     Rabs (PI * re^2 - sp^2) <= / 10^14 * sp^2).
Proof.
  intros sp pattern Hsp. pose proof PI_bounds as [P1 P2].
  assert (Ck : any (fun v => Rleb v 0) [sp] = false).
  { unfold any. cbn [existsb]. rewrite (proj2 (Rleb_false sp 0)) by lra. reflexivity. }
  assert (Q : 0 < sp^2) by nra.
  split; intros [rest Hr].
  - exists (525037567904332 / 10^15 * sp). split; [|split].
    + unfold re_from_drain_spacing. rewrite Ck. destruct Hr as [->| ->]; reflexivity.
    + apply Rmult_lt_0_compat; lra.
    + replace (PI * (525037567904332 / 10 ^ 15 * sp) ^ 2 - sqrt 3 / 2 * sp ^ 2)
        with ((PI * (525037567904332 / 10 ^ 15)^2 - sqrt 3 / 2) * sp^2) by ring.
      rewrite Rabs_mult, (Rabs_right (sp^2)) by lra. apply Rmult_le_compat_r; [lra|].
      assert (S3 : 1.7320508075688772 < sqrt 3 < 1.7320508075688773).
      { split.
        - rewrite <- (sqrt_Rsqr 1.7320508075688772) by lra. apply sqrt_lt_1_alt. unfold Rsqr. lra.
        - rewrite <- (sqrt_Rsqr 1.7320508075688773) by lra. apply sqrt_lt_1_alt. unfold Rsqr. lra. }
      apply Rabs_le_between. lra.
  - exists (5641895835477563 / 10^16 * sp). split; [|split].
    + unfold re_from_drain_spacing. rewrite Ck. destruct Hr as [->| ->]; reflexivity.
    + apply Rmult_lt_0_compat; lra.
    + replace (PI * (5641895835477563 / 10 ^ 16 * sp) ^ 2 - sp ^ 2)
        with ((PI * (5641895835477563 / 10 ^ 16)^2 - 1) * sp^2) by ring.
      rewrite Rabs_mult, (Rabs_right (sp^2)) by lra. apply Rmult_le_compat_r; [lra|].
      apply Rabs_le_between. lra.
Qed.
Print Assumptions C38_area_of_cell.

(** Elementwise, linear and increasing in the spacing; the square pattern reaches
    further; other inputs are refused. *)
Theorem C38_spacing_to_radius : forall sp pattern,
  (List.Forall (fun v => 0 < v) sp -> starts_with "T" "t" pattern \/ starts_with "S" "s" pattern ->
     exists f, 0 < f /\ re_from_drain_spacing sp pattern = Ok (map (fun v => f * v) sp)) /\
  (List.Forall (fun v => 0 < v) sp -> pattern <> EmptyString ->
     ~ (starts_with "T" "t" pattern \/ starts_with "S" "s" pattern) ->
     re_from_drain_spacing sp pattern = Err ValueError) /\
  (~ List.Forall (fun v => 0 < v) sp -> re_from_drain_spacing sp pattern = Err ValueError).
Proof.
  intros sp pattern.
  assert (Ck : List.Forall (fun v => 0 < v) sp -> any (fun v => Rleb v 0) sp = false).
  { intros H. apply any_false_of. intros i Hi. apply Rleb_false. revert i Hi. apply Forall_ix; auto. }
  split; [|split].
  - intros H [[rest Hr]|[rest Hr]].
    + exists (525037567904332 / 10^15). split; [lra|]. unfold re_from_drain_spacing. rewrite Ck by auto.
      destruct Hr as [->| ->]; reflexivity.
    + exists (5641895835477563 / 10^16). split; [lra|]. unfold re_from_drain_spacing. rewrite Ck by auto.
      destruct Hr as [->| ->]; reflexivity.
  - intros H Ne Hn. unfold re_from_drain_spacing. rewrite Ck by auto.
    destruct pattern as [|c rest]; [contradiction|].
    destruct (Ascii.eqb (upper c) "T") eqn:E1.
    { exfalso; apply Hn. left. exists rest. apply upper_T in E1. destruct E1 as [->| ->]; auto. }
    destruct (Ascii.eqb (upper c) "S") eqn:E2; auto.
    exfalso; apply Hn. right. exists rest. apply upper_S in E2. destruct E2 as [->| ->]; auto.
  - intros H. unfold re_from_drain_spacing. destruct (any _ sp) eqn:E; auto. exfalso; apply H.
    apply Forall_ix. intros i Hi. pose proof (any_false _ _ E i Hi) as Q. apply Rleb_false in Q. auto.
Qed.
Print Assumptions C38_spacing_to_radius.

Theorem C38_square_exceeds_triangle : forall sp pt ps rt rs, 0 < sp ->
  starts_with "T" "t" pt -> starts_with "S" "s" ps ->
  re_from_drain_spacing [sp] pt = Ok [rt] -> re_from_drain_spacing [sp] ps = Ok [rs] -> rt < rs.
Proof.
  intros sp pt ps rt rs Hsp [r1 H1] [r2 H2] E1 E2.
  assert (Ck : any (fun v => Rleb v 0) [sp] = false).
  { unfold any. cbn [existsb]. rewrite (proj2 (Rleb_false sp 0)) by lra. reflexivity. }
  unfold re_from_drain_spacing in E1, E2. rewrite Ck in E1, E2.
  assert (A : rt = 525037567904332 / 10 ^ 15 * sp) by (destruct H1 as [->| ->]; cbn in E1; injection E1; auto).
  assert (B : rs = 5641895835477563 / 10 ^ 16 * sp) by (destruct H2 as [->| ->]; cbn in E2; injection E2; auto).
  subst. apply Rmult_lt_compat_r; auto. lra.
Qed.
Print Assumptions C38_square_exceeds_triangle.

Example C38_applies : starts_with "T" "t" "triangle" /\ starts_with "S" "s" "Square" /\
  ~ (starts_with "T" "t" "hex" \/ starts_with "S" "s" "hex").
Proof.
  split; [exists "riangle"%string; auto|]. split; [exists "quare"%string; auto|].
  intros [[r [H|H]]|[r [H|H]]]; discriminate.
Qed.

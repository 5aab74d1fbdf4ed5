(** * Proofs about find_n_roots *)
From Coq Require Import Reals List Bool ZArith Lia Lra.
From Verif Require Import Base RootModel SpecRoot.
Import ListNotations.
Open Scope R_scope.

Lemma frac01 a b : 0 <= a -> 0 < b -> a <= b -> 0 <= a / b <= 1.
Proof.
  intros Ha Hb H. unfold Rdiv. assert (I := Rinv_0_lt_compat b Hb). split; [apply Rmult_le_pos; lra|].
  replace 1 with (b * / b) by (field; lra). apply Rmult_le_compat_r; lra.
Qed.
Section P.
Variables (f fsolve : R -> R) (n : nat) (p : R) (max_iter : Z) (atol rtol : R).
Hypothesis Hp : 0 < p.
Notation step := (step f fsolve n p max_iter atol rtol).
Notation run := (run f fsolve n p max_iter atol rtol).

Definition resume (r b : R) : R := if allclose atol rtol r b then b else r + (b - r) * 0.1.
Lemma resume_next a b g r : next_start atol rtol (mkI a b g) r (resume r b).
Proof.
  unfold resume, allclose, next_start. cbn [right]. destruct (Rleb _ _) eqn:E.
  - apply Rleb_true in E. left. auto.
  - apply Rleb_false in E. right. split; [exact E|]. cbn [right]. try lra; auto.
Qed.

Definition good (s : st) : Prop :=
  0 < sdx s /\ sy s = f (sx s) /\ (0 <= ic s)%Z /\ (ic s = 0%Z -> sx s = x00 s) /\ ((1 <= ic s)%Z -> x00 s < sx s /\ sy s <> 0) /\
  (rts s = [] -> same s = None).

(** what a step can do *)
Inductive stepped (s : st) : outcome -> Prop :=
| st_done : (n <= length (rts s))%nat -> stepped s (Done (Ok (rts s)))
| st_max : (length (rts s) < n)%nat -> (max_iter < ic s)%Z -> stepped s (Done (Err ValueError))
| st_restart : (length (rts s) < n)%nat -> (ic s <= max_iter)%Z -> sy s * f (sx s + sdx s) <= 0 -> (ic s < 4)%Z ->
    stepped s (Next (mkSt (rts s) 0 (same s) (x00 s) (x00 s) (f (x00 s)) (sdx s * 0.2)))
| st_unbound : forall g, (length (rts s) < n)%nat -> (ic s <= max_iter)%Z -> (4 <= ic s)%Z -> rts s = [] ->
    changes_sign f (mkI (sx s) (sx s + sdx s) g) -> Rabs (fsolve g) <= atol -> stepped s (Done (Err UnboundLocalError))
| st_found : forall g dx, (length (rts s) < n)%nat -> (ic s <= max_iter)%Z -> (4 <= ic s)%Z -> 0 < dx ->
    changes_sign f (mkI (sx s) (sx s + sdx s) g) -> (rts s = [] -> g = sx s) -> (rts s = [] -> atol < Rabs (fsolve g)) ->
    (dx = sdx s * 0.5 * p \/ rts s = [] /\ dx = sdx s / p * 0.5 * p) ->
    let x := resume (fsolve g) (sx s + sdx s) in
    stepped s (Next (mkSt (rts s ++ [fsolve g]) 0 (Some 0%Z) x x (f x) dx))
| st_next : (length (rts s) < n)%nat -> (ic s <= max_iter)%Z -> 0 < sy s * f (sx s + sdx s) ->
    stepped s (Next (mkSt (rts s) (ic s + 1) (same s) (x00 s) (sx s + sdx s) (f (sx s + sdx s)) (sdx s * p))).

Lemma step_cases s : good s -> stepped s (step s).
Proof.
  intros (Hdx & Hy & Hic & H0 & H1 & Hs). unfold RootModel.step.
  destruct (Nat.leb_spec n (length (rts s))) as [L|L]; [constructor; auto|].
  destruct (Z.ltb_spec max_iter (ic s)) as [M|M]; [constructor; auto|]. cbv zeta.
  destruct (Rleb (sy s * f (sx s + sdx s)) 0) eqn:E.
  2: { apply Rleb_false in E. apply st_next; auto. }
  apply Rleb_true in E. destruct (Z.ltb_spec (ic s + 1) 5) as [I|I]; [apply st_restart; auto; lia|].
  assert (HI : (4 <= ic s)%Z) by lia. destruct (H1 ltac:(lia)) as [Hx Hy0].
  destruct (rts s) as [|r0 rs] eqn:Er; cbn [length].
  - unfold Reqb. destruct (Req_EM_T p 0) as [Q|Q]; [lra|].
    assert (Hc : changes_sign f (mkI (sx s) (sx s + sdx s) (sx s))) by (unfold changes_sign; cbn; rewrite <- Hy; repeat split; try lra; auto).
    unfold allclose at 1, zero_entry. destruct (Rleb _ _) eqn:A.
    + apply Rleb_true in A. rewrite Rabs_R0, Rminus_0_r in A. rewrite (Hs eq_refl). apply (st_unbound s (sx s)); auto; [rewrite Er; auto|lra].
    + apply Rleb_false in A. rewrite Rabs_R0, Rminus_0_r in A.
      assert (D : 0 < sdx s / p * 0.5 * p).
      { assert (D1 : 0 < / p) by (apply Rinv_0_lt_compat; auto). unfold Rdiv. apply Rmult_lt_0_compat; auto. apply Rmult_lt_0_compat; [|lra]. apply Rmult_lt_0_compat; auto. }
      assert (G := st_found s (sx s) (sdx s / p * 0.5 * p)). rewrite Er in G. apply G; auto. intros _. lra.
  - assert (Hne : f (sx s + sdx s) - sy s <> 0).
    { intros D. assert (f (sx s + sdx s) = sy s) by lra. rewrite H in E. assert (0 < sy s * sy s) by (destruct (Rdichotomy _ _ Hy0); nra). lra. }
    unfold Reqb. destruct (Req_EM_T (f (sx s + sdx s) - sy s) 0) as [Q|Q]; [contradiction|].
    set (g := sx s - sy s * (sx s + sdx s - sx s) / (f (sx s + sdx s) - sy s)).
    assert (Hc : changes_sign f (mkI (sx s) (sx s + sdx s) g)).
    { unfold changes_sign. cbn [left right guess]. rewrite <- Hy. split; [lra|]. split; [auto|]. set (y1 := f (sx s + sdx s)) in *. set (y0 := sy s) in *.
      assert (T : 0 <= y0 / (y0 - y1) <= 1).
      { destruct (Rdichotomy _ _ Hy0) as [N|N].
        - assert (0 <= y1) by nra. replace (y0 / (y0 - y1)) with ((- y0) / (y1 - y0)) by (field; lra). apply frac01; lra.
        - assert (y1 <= 0) by nra. apply frac01; lra. }
      assert (G : g = sx s + sdx s * (y0 / (y0 - y1))).
      { unfold g. assert (Hn2 : y0 - y1 <> 0) by (intros D; apply Hne; lra). field; repeat split; auto. }
      rewrite G. split; [assert (0 <= sdx s * (y0 / (y0 - y1))) by (apply Rmult_le_pos; lra); lra|].
      assert (sdx s * (y0 / (y0 - y1)) <= sdx s * 1) by (apply Rmult_le_compat_l; lra). lra. }
    assert (D : 0 < sdx s * 0.5 * p) by (apply Rmult_lt_0_compat; lra).
    assert (G := st_found s g (sdx s * 0.5 * p)). rewrite Er in G. apply G; auto; discriminate.
Qed.

Lemma stepped_good s s' : good s -> stepped s (Next s') -> good s'.
Proof.
  intros (Hdx & Hy & Hic & H0 & H1 & Hs) H. inversion H; subst; unfold good; cbn.
  - repeat split; auto; try lia; try lra.
  - repeat split; auto; try lia; try lra. intros E. destruct (rts s); discriminate.
  - repeat split; auto; try lia.
    + apply Rmult_lt_0_compat; auto.
    + destruct (Z.eq_dec (ic s) 0) as [E|E]; [rewrite <- (H0 E); lra|destruct (H1 ltac:(lia)); lra].
    + intros E. rewrite E in *. lra.
Qed.

Lemma run_search (W : R -> Prop) : (forall w, W w -> W (w * 0.2) /\ W (w * p) /\ W (w * 0.5 * p) /\ W (w / p * 0.5 * p)) ->
  forall fuel s, good s -> W (sdx s) -> stepped_over f W (x00 s) (sx s) -> forall l, run fuel s = Some (Ok l) ->
  exists is rs, searched f fsolve atol rtol W (x00 s) is rs /\ l = rts s ++ rs /\ (length l = Nat.max n (length (rts s))).
Proof.
  intros HW. induction fuel as [|k IH]; intros s Hg Hw Hso l Hr; [discriminate|]. cbn [RootModel.run] in Hr.
  assert (C := step_cases s Hg). destruct (step s) as [r|s'] eqn:E.
  - injection Hr as ->. inversion C; subst. exists [], []. split; [constructor|]. split; [rewrite app_nil_r; auto|lia].
  - assert (Hg' := stepped_good _ _ Hg C). destruct (HW _ Hw) as (W1 & W2 & W3 & W4).
    assert (Hsx : x00 s <= sx s).
    { destruct Hg as (_ & _ & Hic & H0 & H1 & _). destruct (Z.eq_dec (ic s) 0) as [Q|Q]; [rewrite (H0 Q); lra|destruct (H1 ltac:(lia)); lra]. }
    assert (Hempty : forall x, stepped_over f W x x) by (intros x z Hz; lra).
    destruct Hg as (Hdx & Hy & Hic & H0 & H1 & Hs).
    inversion C; subst; cbn [ic rts x00 sx sdx sy same] in *.
    + destruct (IH _ Hg' W1 (Hempty _) l Hr) as (is & rs & Hse & -> & Hl). exists is, rs. split; auto.
    + assert (Wd : W dx) by (match goal with H : _ \/ _ |- _ => destruct H as [->|[_ ->]]; auto end).
      destruct (IH _ Hg' Wd (Hempty _) l Hr) as (is & rs & Hse & -> & Hl). cbn [rts x00] in *.
      exists (mkI (sx s) (sx s + sdx s) g :: is), (fsolve g :: rs). rewrite <- !app_assoc in *. cbn [app] in *. split; [|split; auto].
      * apply (searched_cons f fsolve atol rtol W (x00 s) (mkI (sx s) (sx s + sdx s) g) (resume (fsolve g) (sx s + sdx s))); auto; cbn [left right guess].
        -- apply H1. lia.
        -- replace (sx s + sdx s - sx s) with (sdx s) by ring. auto.
        -- apply resume_next.
      * rewrite Hl, app_length. cbn. lia.
    + assert (Hso' : stepped_over f W (x00 s) (sx s + sdx s)).
      { intros z Hz. destruct (Rlt_dec z (sx s)) as [L|L].
        - destruct (Hso z ltac:(lra)) as (u & v & Hu & Hv & Hww & Hp0). exists u, v. repeat split; try lra; auto.
        - exists (sx s), (sx s + sdx s). repeat split; try lra; [|rewrite <- Hy; auto]. replace (sx s + sdx s - sx s) with (sdx s) by ring. auto. }
      destruct (IH _ Hg' W2 Hso' l Hr) as (is & rs & Hse & -> & Hl). exists is, rs. split; auto.
Qed.

Lemma run_errors s : good s -> forall fuel e, run fuel s = Some (Err e) ->
  e = ValueError \/ (e = UnboundLocalError /\ exists i, changes_sign f i /\ x00 s < left i /\ Rabs (fsolve (guess i)) <= atol).
Proof.
  intros Hg fuel. assert (K : forall s, good s -> forall e, run fuel s = Some (Err e) ->
    e = ValueError \/ (e = UnboundLocalError /\ rts s = [] /\ exists i, changes_sign f i /\ x00 s < left i /\ Rabs (fsolve (guess i)) <= atol)).
  { clear s Hg. induction fuel as [|k IH]; intros s Hg e Hr; [discriminate|]. cbn [RootModel.run] in Hr.
    assert (C := step_cases s Hg). destruct (step s) as [r|s'] eqn:E.
    - injection Hr as ->. inversion C; subst; auto. right. split; auto. split; auto. exists (mkI (sx s) (sx s + sdx s) g). split; auto. split; auto. cbn.
      destruct Hg as (_ & _ & _ & _ & H1' & _). apply H1'. lia.
    - assert (Hg' := stepped_good _ _ Hg C). destruct (IH s' Hg' e Hr) as [->|(-> & Hr0 & i & Hi)]; auto. right. split; auto.
      inversion C; subst; cbn in *; eauto. destruct (rts s); discriminate. }
  intros e He. destruct (K s Hg e He) as [|(? & _ & ?)]; auto.
Qed.

Lemma init_good x0 dx : 0 < dx -> good (mkSt [] 0 None x0 x0 (f x0) dx).
Proof. intros. unfold good. cbn. repeat split; auto; lia. Qed.
End P.

(** ** More fuel *)
Lemma run_more f fsolve n p mi atol rtol fuel : forall s r, run f fsolve n p mi atol rtol fuel s = Some r ->
  forall k, run f fsolve n p mi atol rtol (fuel + k) s = Some r.
Proof.
  induction fuel as [|m IH]; intros s r H k; [discriminate|]. cbn [run Nat.add] in *. destruct (step _ _ _ _ _ _ _ s); auto.
Qed.
Lemma run_det f fsolve n p mi atol rtol fuel1 fuel2 s r1 r2 : run f fsolve n p mi atol rtol fuel1 s = Some r1 ->
  run f fsolve n p mi atol rtol fuel2 s = Some r2 -> r1 = r2.
Proof.
  intros H1 H2. assert (A := run_more _ _ _ _ _ _ _ _ _ _ H1 fuel2). assert (B := run_more _ _ _ _ _ _ _ _ _ _ H2 fuel1).
  rewrite Nat.add_comm in B. congruence.
Qed.

(** ** Searching from a root never ends *)
Lemma run_stuck f fsolve n p mi atol rtol : (0 < n)%nat -> (0 <= mi)%Z -> forall fuel s, rts s = [] -> ic s = 0%Z -> sx s = x00 s -> sy s = 0 -> f (x00 s) = 0 ->
  run f fsolve n p mi atol rtol fuel s = None.
Proof.
  intros Hn Hm. induction fuel as [|k IH]; intros s Hr Hi Hx Hy Hf; [reflexivity|]. cbn [run]. unfold step. rewrite Hr, Hi. cbn [length].
  destruct (Nat.leb_spec n 0); [lia|]. destruct (Z.ltb_spec mi 0); [lia|]. cbv zeta. rewrite Hy, Rmult_0_l.
  replace (Rleb 0 0) with true by (symmetry; apply Rleb_true; lra). cbn [Z.add Z.ltb Z.compare Pos.compare Pos.compare_cont]. apply IH; auto.
Qed.

(** * Properties C47, C86: root finding and fixed point iteration (root_finding.py) *)
From Coq Require Import Reals List Bool ZArith Lia Lra.
From Verif Require Import Base RootModel SpecRoot RootProofs RootProofs2.
Import ListNotations.
Open Scope R_scope.

(** ** C47 *)
(** What it returns: n answers of the solver for n successive sign changes. *)
Theorem C47_search : forall f solver n p max_iter atol rtol fuel x0 dx l, 0 < p -> 0 < dx ->
  find_n_roots f solver n p max_iter atol rtol fuel x0 dx = Some (Ok l) ->
  length l = n /\ exists is, searched f solver atol rtol (fun w => 0 < w) x0 is l.
Proof.
  intros f solver n p mi atol rtol fuel x0 dx l Hp Hdx H.
  destruct (run_search f solver n p mi atol rtol Hp (fun w => 0 < w)) with (fuel := fuel) (s := mkSt [] 0 None x0 x0 (f x0) dx) (l := l) as (is & rs & Hs & -> & Hl); auto.
  - intros w Hw. assert (I := Rinv_0_lt_compat p Hp). assert (0 < w * p) by (apply Rmult_lt_0_compat; auto). assert (0 < w * / p) by (apply Rmult_lt_0_compat; auto).
    assert (0 < w * / p * p) by (apply Rmult_lt_0_compat; auto). repeat split; try lra; unfold Rdiv at 1; lra.
  - apply init_good; auto.
  - intros z Hz. cbn in Hz. lra.
  - cbn in *. split; [rewrite Hl; lia|]. exists is. auto.
Qed.
(** If the zeros are crossings more than dx apart and the solver finds the zero of an interval it is
    started in, then these are exactly the first n zeros from x0 on, in increasing order. *)
Lemma last_def {A} (l : list A) d d' : l <> [] -> last l d = last l d'.
Proof. induction l as [|a [|b l] IH]; intros H; [contradiction|auto|]. cbn [last] in *. apply IH. discriminate. Qed.
Theorem C47_first_roots : forall f solver n p max_iter atol rtol fuel x0 dx l, 0 < p <= 1 -> 0 < dx ->
  (forall z1 z2, f z1 = 0 -> f z2 = 0 -> Rabs (z1 - z2) <= dx -> z1 = z2) ->
  (forall a b z, a <= z <= b -> b - a <= dx -> f z = 0 -> f a * f b <= 0) ->
  (forall i, changes_sign f i -> right i - left i <= dx -> left i <= solver (guess i) <= right i /\ f (solver (guess i)) = 0) ->
  find_n_roots f solver n p max_iter atol rtol fuel x0 dx = Some (Ok l) ->
  length l = n /\ increasing_from x0 l /\ (forall r, In r l -> f r = 0) /\
  (forall z, x0 <= z <= last l x0 -> f z = 0 -> l <> [] -> In z l).
Proof.
  intros f solver n p mi atol rtol fuel x0 dx l [Hp Hp1] Hdx Hiso Hcross Hsol H.
  destruct (run_search f solver n p mi atol rtol Hp (fun w => 0 < w <= dx)) with (fuel := fuel) (s := mkSt [] 0 None x0 x0 (f x0) dx) (l := l) as (is & rs & Hs & -> & Hl); auto.
  - intros w Hw. assert (I := Rinv_0_lt_compat p Hp). split; [lra|]. split; [nra|]. split; [nra|].
    replace (w / p * 0.5 * p) with (w * (/ p * p) * 0.5) by (unfold Rdiv; ring). rewrite Rinv_l by lra. lra.
  - apply init_good; auto.
  - cbn. lra.
  - intros z Hz. cbn in Hz. lra.
  - cbn in *. split; [rewrite Hl; lia|]. clear Hl H.
    assert (G : forall start l, searched f solver atol rtol (fun w => 0 < w <= dx) start is l ->
      increasing_from start l /\ (forall r, In r l -> f r = 0) /\ (forall z, start <= z <= last l start -> f z = 0 -> l <> [] -> In z l)).
    { clear rs Hs. induction is as [|i is IH]; intros start l Hs; inversion Hs; subst.
      - split; [constructor|]. split; [intros r []|]. intros z _ _ C. contradiction.
      - destruct (IH _ _ H8) as (I1 & I2 & I3). destruct (Hsol i H3 ltac:(lra)) as [Hr Hz]. set (r := solver (guess i)) in *.
        assert (HC := H3). destruct HC as (Hlr & _ & _).
        assert (Hrs : r <= s <= right i).
        { destruct H6 as [[_ ->]|[_ ->]]; lra. }
        assert (Hweak : increasing_from r rs) by (inversion I1; subst; constructor; auto; lra).
        split; [constructor; auto; lra|]. split; [intros r' [<-|Hin]; auto|].
        intros z Hzz Hfz _. destruct (Rlt_dec z (left i)) as [L|L].
        + exfalso. destruct (H2 z ltac:(lra)) as (u & v & Hu & Hv & Hw & Hpos). assert (C := Hcross u v z ltac:(lra) ltac:(lra) Hfz). lra.
        + destruct (Rle_dec z (right i)) as [R|R].
          * left. apply Hiso; auto. apply Rabs_le. lra.
          * right. destruct rs as [|r1 rs1]; [cbn in Hzz; lra|]. apply I3; auto; [|discriminate]. split; [lra|].
            cbn [last] in Hzz. rewrite (last_def (r1 :: rs1) s start) by discriminate. apply Hzz. }
    apply G. auto.
Qed.
(** How it can fail: ValueError, or (a defect) UnboundLocalError if the solver's first answer is
    within atol of zero. *)
Theorem C47_failures : forall f solver n p max_iter atol rtol fuel x0 dx e, 0 < p -> 0 < dx ->
  find_n_roots f solver n p max_iter atol rtol fuel x0 dx = Some (Err e) ->
  e = ValueError \/
  (e = UnboundLocalError /\ exists i, changes_sign f i /\ x0 < left i /\ Rabs (solver (guess i)) <= atol).
Proof.
  intros f solver n p mi atol rtol fuel x0 dx e Hp Hdx H.
  apply (run_errors f solver n p mi atol rtol Hp (mkSt [] 0 None x0 x0 (f x0) dx) (init_good f x0 dx Hdx) fuel). auto.
Qed.
(** For a continuous function it terminates if and only if no search for a root starts exactly at a
    zero (x00 is the point where the search for the current root starts). *)
Theorem C47_terminates : forall f solver n p max_iter atol rtol x0 dx, 0 < p -> p * p * p < 5 -> 0 < dx -> (0 <= max_iter)%Z -> continuity f ->
  (exists fuel r, find_n_roots f solver n p max_iter atol rtol fuel x0 dx = Some r) <->
  (forall s, reach f solver n p max_iter atol rtol (mkSt [] 0 None x0 x0 (f x0) dx) s -> (length (rts s) < n)%nat -> f (x00 s) <> 0).
Proof.
  intros f solver n p mi atol rtol x0 dx Hp Hp3 Hdx Hm Hc. set (s0 := mkSt [] 0 None x0 x0 (f x0) dx). assert (G0 := init_good f x0 dx Hdx). fold s0 in G0. split.
  - intros (fuel & r & H) s Hs Hl Hz.
    destruct (reach_good f solver n p mi atol rtol Hp s0 s G0 ltac:(intros Q; cbn in Q; lia) Hs) as [(_ & Hy & Hic & Hx & _) Hi].
    assert (I0 : ic s = 0%Z) by (destruct (Z.eq_dec (ic s) 0) as [Q|Q]; auto; exfalso; apply (Hi ltac:(lia)); auto).
    destruct (reach_run f solver n p mi atol rtol s0 s Hs) as (k & K).
    assert (D : run f solver n p mi atol rtol (k + fuel) s0 = None).
    { rewrite (proj1 (K fuel)). apply stuck_from; auto. rewrite Hy, (Hx I0). auto. }
    assert (E := run_more f solver n p mi atol rtol fuel s0 r H k). rewrite Nat.add_comm in E. congruence.
  - intros H. apply (all_stop f solver n p mi atol rtol Hp Hp3 Hc s0 H _ s0 eq_refl G0 eq_refl). apply reach_start.
Qed.
(** One root of a continuous function that is not zero at x0: it always terminates. *)
Theorem C47_one_root_terminates : forall f solver p max_iter atol rtol x0 dx, 0 < p -> p * p * p < 5 -> 0 < dx -> continuity f -> f x0 <> 0 ->
  exists fuel r, find_n_roots f solver 1 p max_iter atol rtol fuel x0 dx = Some r.
Proof.
  intros f solver p mi atol rtol x0 dx Hp Hp3 Hdx Hc Hx. assert (G0 := init_good f x0 dx Hdx).
  apply (all_stop f solver 1 p mi atol rtol Hp Hp3 Hc (mkSt [] 0 None x0 x0 (f x0) dx)) with (r := 1%nat); auto; [|apply reach_start].
  intros s Hs Hl. assert (x00 s = x0 /\ good f s); [|intuition congruence].
  induction Hs as [|s s' Hs IH E]; [auto|]. assert (C0 : good f s) by (apply (reach_good f solver 1 p mi atol rtol Hp _ s G0 ltac:(intros Q; cbn in Q; lia) Hs)).
  assert (C := step_cases f solver 1 p mi atol rtol Hp s C0). rewrite E in C. split; [|eapply (stepped_good f solver 1 p mi atol rtol Hp); eauto].
  inversion C; subst; cbn in *; try (apply IH; lia); try (apply IH; auto).
  rewrite app_length in Hl. cbn in Hl. lia.
Qed.
Print Assumptions C47_search.
Print Assumptions C47_terminates.
(** No roots asked for: an empty array. *)
Theorem C47_none : forall f solver p max_iter atol rtol fuel x0 dx,
  find_n_roots f solver 0 p max_iter atol rtol (S fuel) x0 dx = Some (Ok []).
Proof. reflexivity. Qed.
(** Starting exactly at a zero, the loop never ends: no iteration limit applies. *)
Theorem C47_start_at_root_refuted : forall f solver n p max_iter atol rtol x0 dx, (0 < n)%nat -> (0 <= max_iter)%Z -> f x0 = 0 ->
  forall fuel, find_n_roots f solver n p max_iter atol rtol fuel x0 dx = None.
Proof. intros. apply run_stuck; auto. Qed.

Section Eval.
Variables (f solver : R -> R) (n : nat) (p : R) (mi : Z) (atol rtol : R).
Lemma run_next k rs i sm a x y d : (length rs < n)%nat -> (i <= mi)%Z -> 0 < y * f (x + d) ->
  run f solver n p mi atol rtol (S k) (mkSt rs i sm a x y d) = run f solver n p mi atol rtol k (mkSt rs (i + 1) sm a (x + d) (f (x + d)) (d * p)).
Proof.
  intros H1 H2 H3. cbn [run]. unfold step. cbn [rts ic same x00 sx sy sdx]. destruct (Nat.leb_spec n (length rs)); [lia|]. destruct (Z.ltb_spec mi i); [lia|].
  cbv zeta. replace (Rleb (y * f (x + d)) 0) with false by (symmetry; apply Rleb_false; auto). reflexivity.
Qed.
Lemma run_first k i sm a x y d : (0 < n)%nat -> (4 <= i <= mi)%Z -> y * f (x + d) <= 0 -> p <> 0 -> atol < Rabs (solver x) ->
  run f solver n p mi atol rtol (S k) (mkSt [] i sm a x y d) =
  let x' := resume atol rtol (solver x) (x + d) in run f solver n p mi atol rtol k (mkSt [solver x] 0 (Some 0%Z) x' x' (f x') (d / p * 0.5 * p)).
Proof.
  intros H1 H2 H3 H4 H5. cbn [run]. unfold step. cbn [rts ic same x00 sx sy sdx length]. destruct (Nat.leb_spec n 0); [lia|]. destruct (Z.ltb_spec mi i); [lia|].
  cbv zeta. replace (Rleb (y * f (x + d)) 0) with true by (symmetry; apply Rleb_true; auto). destruct (Z.ltb_spec (i + 1) 5); [lia|].
  unfold Reqb. destruct Req_EM_T; [contradiction|]. unfold allclose at 1, zero_entry.
  replace (Rleb _ _) with false by (symmetry; apply Rleb_false; rewrite Rabs_R0, Rminus_0_r; lra). reflexivity.
Qed.
Lemma run_later k r rs i sm a x y d : (length (r :: rs) < n)%nat -> (4 <= i <= mi)%Z -> y * f (x + d) <= 0 -> f (x + d) - y <> 0 ->
  run f solver n p mi atol rtol (S k) (mkSt (r :: rs) i sm a x y d) =
  let g := x - y * (x + d - x) / (f (x + d) - y) in let x' := resume atol rtol (solver g) (x + d) in
  run f solver n p mi atol rtol k (mkSt ((r :: rs) ++ [solver g]) 0 (Some 0%Z) x' x' (f x') (d * 0.5 * p)).
Proof.
  intros H1 H2 H3 H4. cbn [run]. unfold step. cbn [rts ic same x00 sx sy sdx]. destruct (Nat.leb_spec n (length (r :: rs))); [lia|]. destruct (Z.ltb_spec mi i); [lia|].
  cbv zeta. replace (Rleb (y * f (x + d)) 0) with true by (symmetry; apply Rleb_true; auto). destruct (Z.ltb_spec (i + 1) 5); [lia|].
  cbn [length]. unfold Reqb. destruct Req_EM_T; [contradiction|]. reflexivity.
Qed.
Lemma run_end k rs i sm a x y d : (n <= length rs)%nat -> run f solver n p mi atol rtol (S k) (mkSt rs i sm a x y d) = Some (Ok rs).
Proof. intros H. cbn [run]. unfold step. cbn [rts]. destruct (Nat.leb_spec n (length rs)); [reflexivity|lia]. Qed.
End Eval.
(** A first root at zero: UnboundLocalError. *)
Theorem C47_root_zero_refuted : find_n_roots (fun x => x) (fun _ => 0) 1 1 2000 (1/100000000) (1/100000) 5 (-5) 1 = Some (Err UnboundLocalError).
Proof.
  unfold find_n_roots. do 4 (rewrite run_next; [|cbn; lia|cbn; lia|lra]). cbn [run]. unfold step. cbn [rts ic same x00 sx sy sdx length Nat.leb]. cbn.
  unfold Rleb. destruct Rle_dec as [L|L]; [|exfalso; apply L; lra]. unfold Reqb. destruct Req_EM_T; [lra|].
  unfold allclose, zero_entry, Rleb. destruct Rle_dec as [L2|L2]; [reflexivity|]. exfalso. apply L2. rewrite Rminus_0_r, Rabs_R0. lra.
Qed.
(** The documented check for finding the same root again is not made: if the solver answers with the
    zero 9/2 for both intervals, the result lists it twice. *)
Definition ex_f (x : R) : R := (x - 9/2) * (x - 15/2).
Theorem C47_same_root_refuted : find_n_roots ex_f (fun _ => 9/2) 2 1 2000 (1/100000000) (1/100000) 13 0 1 = Some (Ok [9/2; 9/2]) /\
  ex_f (9/2) = 0.
Proof.
  split; [|unfold ex_f; lra]. unfold find_n_roots. do 4 (rewrite run_next; [|cbn; lia|cbn; lia|unfold ex_f; lra]).
  rewrite run_first; [|lia|cbn; lia|unfold ex_f; lra|lra|rewrite Rabs_pos_eq; lra]. cbv zeta.
  unfold resume at 1 2 3, allclose. replace (Rleb _ _) with false.
  2: { symmetry; apply Rleb_false. rewrite (Rabs_left (9 / 2 - _)) by lra. rewrite Rabs_pos_eq by lra. lra. }
  replace (9 / 2 + _) with (455/100) by lra. replace (_ / 1 * 0.5 * 1) with (1/2) by lra.
  do 5 (rewrite run_next; [|cbn; lia|cbn; lia|unfold ex_f; lra]).
  rewrite run_later; [|cbn; lia|cbn; lia|unfold ex_f; lra|unfold ex_f; lra]. cbv zeta. apply run_end. cbn. lia.
Qed.
Print Assumptions C47_first_roots.
Print Assumptions C47_failures.
Print Assumptions C47_one_root_terminates.
Print Assumptions C47_start_at_root_refuted.
Print Assumptions C47_root_zero_refuted.
Print Assumptions C47_same_root_refuted.
(** The hypotheses of [C47_first_roots] hold, and it returns both zeros. *)
Definition ex_solver (g : R) : R := if Rlt_dec g 6 then 9/2 else 15/2.
Example C47_witness : 
  (forall z1 z2, ex_f z1 = 0 -> ex_f z2 = 0 -> Rabs (z1 - z2) <= 1 -> z1 = z2) /\
  (forall a b z, a <= z <= b -> b - a <= 1 -> ex_f z = 0 -> ex_f a * ex_f b <= 0) /\
  (forall i, changes_sign ex_f i -> right i - left i <= 1 -> left i <= ex_solver (guess i) <= right i /\ ex_f (ex_solver (guess i)) = 0) /\
  find_n_roots ex_f ex_solver 2 1 2000 (1/100000000) (1/100000) 13 0 1 = Some (Ok [9/2; 15/2]).
Proof.
  assert (Z : forall z, ex_f z = 0 -> z = 9/2 \/ z = 15/2) by (intros z Hz; unfold ex_f in Hz; apply Rmult_integral in Hz; lra).
  split; [|split; [|split]].
  - intros z1 z2 H1 H2 H. destruct (Z _ H1) as [->| ->], (Z _ H2) as [->| ->]; auto; exfalso; revert H; unfold Rabs; destruct Rcase_abs; lra.
  - intros a b z Hz Hw H0. destruct (Z _ H0) as [->| ->]; unfold ex_f.
    + assert (0 <= (a - 9/2) * (a - 15/2)) by nra. assert ((b - 9/2) * (b - 15/2) <= 0) by nra. nra.
    + assert ((a - 9/2) * (a - 15/2) <= 0) by nra. assert (0 <= (b - 9/2) * (b - 15/2)) by nra. nra.
  - intros [a b g] (H1 & H2 & H3) Hw. cbn [left right guess] in *.
    assert (K : a <= 9/2 <= b \/ a <= 15/2 <= b).
    { destruct (Rlt_dec b (9/2)) as [L1|L1]; [exfalso; unfold ex_f in H2; assert (0 < (a - 9/2) * (a - 15/2)) by nra; assert (0 < (b - 9/2) * (b - 15/2)) by nra; nra|].
      destruct (Rle_dec a (9/2)) as [L2|L2]; [left; lra|]. destruct (Rlt_dec b (15/2)) as [L3|L3]; [exfalso; unfold ex_f in H2; assert ((a - 9/2) * (a - 15/2) < 0) by nra; assert ((b - 9/2) * (b - 15/2) < 0) by nra; nra|].
      destruct (Rle_dec a (15/2)) as [L4|L4]; [right; lra|]. exfalso. unfold ex_f in H2. assert (0 < (a - 9/2) * (a - 15/2)) by nra; assert (0 < (b - 9/2) * (b - 15/2)) by nra; nra. }
    unfold ex_solver. destruct (Rlt_dec g 6); (split; [lra|unfold ex_f; lra]).
  - assert (S1 : forall g, g < 6 -> ex_solver g = 9/2) by (intros; unfold ex_solver; destruct (Rlt_dec g 6); lra).
    assert (S2 : forall g, 6 <= g -> ex_solver g = 15/2) by (intros; unfold ex_solver; destruct (Rlt_dec g 6); lra).
    unfold find_n_roots. do 4 (rewrite run_next; [|cbn; lia|cbn; lia|unfold ex_f; lra]).
    rewrite run_first; [|lia|cbn; lia|unfold ex_f; lra|lra|rewrite S1 by lra; rewrite Rabs_pos_eq; lra]. cbv zeta. rewrite !S1 by lra.
    unfold resume at 1 2 3, allclose. replace (Rleb _ _) with false.
    2: { symmetry; apply Rleb_false. rewrite (Rabs_left (9/2 - _)) by lra. rewrite Rabs_pos_eq by lra. lra. }
    replace (9 / 2 + _) with (455/100) by lra. replace (_ / 1 * 0.5 * 1) with (1/2) by lra.
    do 5 (rewrite run_next; [|cbn; lia|cbn; lia|unfold ex_f; lra]).
    rewrite run_later; [|cbn; lia|cbn; lia|unfold ex_f; lra|unfold ex_f; lra]. cbv zeta. rewrite run_end by (cbn; lia).
    set (x := 455 / 100 + _ + _ + _ + _ + _). assert (Ex : x = 705/100) by (unfold x; lra). rewrite Ex. replace (1 / 2 * 1 * 1 * 1 * 1 * 1) with (1/2) by lra.
    cbn [app]. rewrite S2; [reflexivity|]. unfold ex_f.
    match goal with |- 6 <= ?a - ?b / ?c => replace c with (13/10) by lra; replace b with (- (1.1475 / 2)) by lra end. lra.
Qed.
Example C47_witness_terminates : continuity ex_f /\ (forall s, reach ex_f ex_solver 2 1 2000 (1/100000000) (1/100000) (mkSt [] 0 None 0 0 (ex_f 0) 1) s ->
  (length (rts s) < 2)%nat -> ex_f (x00 s) <> 0).
Proof.
  assert (Hc : continuity ex_f) by (unfold ex_f; intros x; reg).
  split; auto. apply C47_terminates; auto; try lra; try lia. eexists _, _. apply C47_witness.
Qed.

(** ** C86 *)
Lemma fp_rel p0 q : rel_change p0 q (fp_relerr p0 q).
Proof. unfold rel_change, fp_relerr, Reqb. destruct (Req_EM_T p0 0); auto. Qed.
Lemma rel_fun p0 q d : rel_change p0 q d -> d = fp_relerr p0 q.
Proof. unfold rel_change, fp_relerr, Reqb. destruct (Req_EM_T p0 0); intuition. Qed.
Lemma iterate_shift f k x : iterate f k (f x) = f (iterate f k x).
Proof. induction k as [|k IH]; [reflexivity|]. cbn [iterate]. rewrite IH. auto. Qed.
(** The k-th iterate passes the test: its relative change from the previous one is below xtol. *)
Definition converged (f : R -> R) (x0 xtol : R) (k : nat) : Prop :=
  exists d, rel_change (iterate f k x0) (iterate f (S k) x0) d /\ Rabs d < xtol.
Lemma fp_loop f xtol m : forall bound x0,
  match fixed_point_loop f xtol m bound x0 with
  | Ok v => exists k, (k < m)%nat /\ v = iterate f (S k) x0 /\ converged f x0 xtol k /\ forall j, (j < k)%nat -> ~ converged f x0 xtol j
  | Err e => (forall j, (j < m)%nat -> ~ converged f x0 xtol j) /\ e = if (m =? 0)%nat && negb bound then UnboundLocalError else RuntimeError
  end.
Proof.
  induction m as [|m IH]; intros bound x0; cbn [fixed_point_loop].
  - destruct bound; (split; [intros; lia|reflexivity]).
  - cbv zeta. destruct (Rltb _ xtol) eqn:E.
    + apply Rltb_true in E. exists 0%nat. split; [lia|]. split; auto. split; [exists (fp_relerr x0 (f x0)); split; [apply fp_rel|auto]|intros; lia].
    + apply Rltb_false in E. assert (N0 : ~ converged f x0 xtol 0) by (intros (d & Hd & Hl); apply rel_fun in Hd; cbn in Hd; subst d; lra).
      assert (Sh : forall j, converged f (f x0) xtol j <-> converged f x0 xtol (S j)).
      { intros j. unfold converged. cbn [iterate]. rewrite !iterate_shift. tauto. }
      specialize (IH true (f x0)). destruct (fixed_point_loop f xtol m true (f x0)) as [v|e].
      * destruct IH as (k & Hk & -> & Hc & Hj). exists (S k). split; [lia|]. split; [cbn [iterate]; rewrite iterate_shift; auto|]. split; [apply Sh; auto|].
        intros [|j] Hlt; auto. rewrite <- Sh. apply Hj. lia.
      * destruct IH as [Hj ->]. split; [|destruct m; auto]. intros [|j] Hlt; auto. rewrite <- Sh. apply Hj. lia.
Qed.
(** It returns the first iterate whose relative change is below xtol among the first maxiter, and
    otherwise raises RuntimeError. *)
Theorem C86_result : forall f x0 xtol maxiter v, fixed_point_no_accel f x0 xtol maxiter = Ok v <->
  exists k, (k < maxiter)%nat /\ v = iterate f (S k) x0 /\ converged f x0 xtol k /\ forall j, (j < k)%nat -> ~ converged f x0 xtol j.
Proof.
  intros f x0 xtol m v. unfold fixed_point_no_accel. assert (L := fp_loop f xtol m false x0). destruct (fixed_point_loop f xtol m false x0) as [w|e].
  - destruct L as (k & Hk & -> & Hc & Hj). split.
    + intros H. injection H as <-. exists k. auto.
    + intros (k' & Hk' & -> & Hc' & Hj'). f_equal. assert (k = k'); [|subst; auto].
      destruct (Nat.lt_trichotomy k k') as [Q|[Q|Q]]; auto; exfalso; [apply (Hj' k)|apply (Hj k')]; auto.
  - destruct L as [Hj _]. split; [discriminate|]. intros (k & Hk & _ & Hc & _). exfalso. apply (Hj k); auto.
Qed.
Theorem C86_fails : forall f x0 xtol maxiter, (0 < maxiter)%nat -> (forall j, (j < maxiter)%nat -> ~ converged f x0 xtol j) <->
  fixed_point_no_accel f x0 xtol maxiter = Err RuntimeError.
Proof.
  intros f x0 xtol m Hm. unfold fixed_point_no_accel. assert (L := fp_loop f xtol m false x0). destruct (fixed_point_loop f xtol m false x0) as [w|e].
  - destruct L as (k & Hk & -> & Hc & Hj). split; [|discriminate]. intros H. exfalso. apply (H k); auto.
  - destruct L as [Hj ->]. destruct m; [lia|]. cbn. split; auto.
Qed.
(** For a contraction the returned value is that close to the fixed point. *)
Theorem C86_accuracy : forall f x0 xtol maxiter v z L, (forall x y, Rabs (f x - f y) <= L * Rabs (x - y)) -> 0 <= L < 1 -> f z = z ->
  fixed_point_no_accel f x0 xtol maxiter = Ok v ->
  exists p0, v = f p0 /\ Rabs (v - z) <= L / (1 - L) * (xtol * (if Req_EM_T p0 0 then 1 else Rabs p0)).
Proof.
  intros f x0 xtol m v z L HL HL1 Hz H. apply C86_result in H. destruct H as (k & _ & -> & (d & Hd & Hx) & _).
  exists (iterate f k x0). set (p0 := iterate f k x0) in *. cbn [iterate] in Hd. fold p0 in Hd. cbn [iterate]. fold p0. split; auto.
  assert (D : Rabs (f p0 - p0) <= xtol * (if Req_EM_T p0 0 then 1 else Rabs p0)).
  { apply rel_fun in Hd. unfold fp_relerr, Reqb in Hd. destruct (Req_EM_T p0 0) as [E|E].
    - rewrite E in *. rewrite Rminus_0_r. rewrite <- Hd. lra.
    - replace (f p0 - p0) with (d * p0) by (rewrite Hd; field; auto). rewrite Rabs_mult. apply Rmult_le_compat_r; [apply Rabs_pos|lra]. }
  set (t := xtol * _) in *. assert (A := HL p0 z). rewrite Hz in A.
  assert (B : Rabs (p0 - z) <= Rabs (f p0 - p0) + Rabs (f p0 - z)).
  { replace (p0 - z) with (- (f p0 - p0) + (f p0 - z)) by ring. rewrite <- (Rabs_Ropp (f p0 - p0)). apply Rabs_triang. }
  assert (C : Rabs (f p0 - z) <= L * (t + Rabs (f p0 - z))) by (apply Rle_trans with (L * Rabs (p0 - z)); auto; apply Rmult_le_compat_l; lra).
  apply Rmult_le_reg_r with (1 - L); [lra|]. replace (L / (1 - L) * t * (1 - L)) with (L * t) by (field; lra). lra.
Qed.
(** A contraction with a fixed point other than zero converges whatever the tolerance, given enough iterations. *)
Lemma contraction_iterate f z L x0 : (forall x y, Rabs (f x - f y) <= L * Rabs (x - y)) -> 0 <= L -> f z = z ->
  forall k, Rabs (iterate f k x0 - z) <= L ^ k * Rabs (x0 - z).
Proof.
  intros HL H0 Hz. induction k as [|k IH]; [cbn; lra|]. cbn [iterate pow]. rewrite <- Hz at 1. apply Rle_trans with (1 := HL _ _).
  rewrite Rmult_assoc. apply Rmult_le_compat_l; auto.
Qed.
Theorem C86_converges : forall f x0 xtol z L, (forall x y, Rabs (f x - f y) <= L * Rabs (x - y)) -> 0 <= L < 1 -> f z = z -> z <> 0 -> 0 < xtol ->
  exists N, forall maxiter, (N <= maxiter)%nat -> exists v, fixed_point_no_accel f x0 xtol maxiter = Ok v.
Proof.
  intros f x0 xtol z L HL HL1 Hz Hz0 Ht. assert (AZ := Rabs_pos_lt z Hz0). assert (D0 := Rabs_pos (x0 - z)).
  set (e := Rmin (Rabs z / 2) (xtol * Rabs z / 4)). assert (He : 0 < e).
  { unfold e. apply Rmin_pos; [lra|]. apply Rmult_lt_0_compat; [|lra]. apply Rmult_lt_0_compat; auto. }
  destruct (pow_lt_1_zero L) with (y := e / (Rabs (x0 - z) + 1)) as (N & HN); [rewrite Rabs_pos_eq; lra|apply Rdiv_lt_0_compat; lra|].
  assert (Cl : forall k, (N <= k)%nat -> Rabs (iterate f k x0 - z) < e).
  { intros k Hk. apply Rle_lt_trans with (1 := contraction_iterate f z L x0 HL (proj1 HL1) Hz k). specialize (HN k Hk).
    assert (P : 0 <= L ^ k) by (apply pow_le; lra). rewrite Rabs_pos_eq in HN by auto.
    apply Rle_lt_trans with (L ^ k * (Rabs (x0 - z) + 1)); [apply Rmult_le_compat_l; lra|].
    apply (Rmult_lt_compat_r (Rabs (x0 - z) + 1)) in HN; [|lra]. replace (e / (Rabs (x0 - z) + 1) * (Rabs (x0 - z) + 1)) with e in HN by (field; lra). auto. }
  assert (HC : converged f x0 xtol N).
  { exists (fp_relerr (iterate f N x0) (iterate f (S N) x0)). split; [apply fp_rel|].
    assert (C1 := Cl N (le_n N)). assert (C2 := Cl (S N) (le_S _ _ (le_n N))). set (a := iterate f N x0) in *. set (b := iterate f (S N) x0) in *.
    assert (E1 : e <= Rabs z / 2) by apply Rmin_l. assert (E2 : e <= xtol * Rabs z / 4) by apply Rmin_r.
    assert (Ha : Rabs z / 2 < Rabs a) by (assert (T := Rabs_triang (z - a) a); replace (z - a + a) with z in T by ring; rewrite (Rabs_minus_sym z a) in T; lra).
    unfold fp_relerr, Reqb. destruct (Req_EM_T a 0) as [Ea|Ea]; [rewrite Ea, Rabs_R0 in Ha; lra|].
    unfold Rdiv. rewrite Rabs_mult, Rabs_inv. apply Rmult_lt_reg_r with (Rabs a); [lra|]. rewrite Rmult_assoc, Rinv_l, Rmult_1_r by (intros Q; rewrite Q in Ha; lra).
    assert (T := Rabs_triang (b - z) (z - a)). replace (b - z + (z - a)) with (b - a) in T by ring. rewrite (Rabs_minus_sym z a) in T.
    assert (xtol * (Rabs z / 2) < xtol * Rabs a) by (apply Rmult_lt_compat_l; auto). lra. }
  exists (S N). intros m Hm. assert (Fl := C86_fails f x0 xtol m ltac:(lia)). unfold fixed_point_no_accel in *. assert (Lp := fp_loop f xtol m false x0).
  destruct (fixed_point_loop f xtol m false x0) as [w|er]; [exists w; auto|]. exfalso. destruct Lp as [Hj _]. apply (Hj N); auto.
Qed.
(** Converging to zero the relative test is never passed: x -> x/2 from 1 always raises. *)
Theorem C86_zero_fixed_point_refuted : forall maxiter, (0 < maxiter)%nat ->
  fixed_point_no_accel (fun x => x / 2) 1 (1/100000000) maxiter = Err RuntimeError.
Proof.
  intros m Hm. apply C86_fails; auto. intros j _ (d & Hd & Hl).
  assert (P : 0 < iterate (fun x => x / 2) j 1) by (clear; induction j as [|j IH]; cbn; [lra|apply Rdiv_lt_0_compat; [|lra]; auto]).
  apply rel_fun in Hd. cbn [iterate] in Hd. set (a := iterate _ j 1) in *. unfold fp_relerr, Reqb in Hd. destruct (Req_EM_T a 0); [lra|].
  replace ((a / 2 - a) / a) with (- (1/2)) in Hd by (field; auto). rewrite Hd in Hl. rewrite Rabs_Ropp, Rabs_pos_eq in Hl; lra.
Qed.
Print Assumptions C86_result.
Print Assumptions C86_fails.
Print Assumptions C86_accuracy.
Print Assumptions C86_converges.
Print Assumptions C86_zero_fixed_point_refuted.
Example C86_witness : (forall x y, Rabs ((x / 2 + 1) - (y / 2 + 1)) <= 1/2 * Rabs (x - y)) /\ 2 / 2 + 1 = 2.
Proof. split; [|lra]. intros x y. replace (x / 2 + 1 - (y / 2 + 1)) with (1/2 * (x - y)) by field. rewrite Rabs_mult, (Rabs_pos_eq (1/2)) by lra. lra. Qed.
(** Vectors: the same with every component below the tolerance. *)
Fixpoint viterate (f : list R -> list R) (k : nat) (x : list R) : list R := match k with O => x | S k => f (viterate f k x) end.
Definition vconverged (f : list R -> list R) (x0 : list R) (xtol : R) (k : nat) : Prop :=
  List.Forall2 (fun a b => exists d, rel_change a b d /\ Rabs d < xtol) (viterate f k x0) (viterate f (S k) x0).
Lemma viterate_shift f k x : viterate f k (f x) = f (viterate f k x).
Proof. induction k as [|k IH]; [reflexivity|]. cbn [viterate]. rewrite IH. auto. Qed.
Lemma test_Forall2 xtol : forall p0 p, length p = length p0 ->
  forallb (fun e => Rltb (Rabs (fp_relerr (fst e) (snd e))) xtol) (combine p0 p) = true <-> List.Forall2 (fun a b => exists d, rel_change a b d /\ Rabs d < xtol) p0 p.
Proof.
  induction p0 as [|a p0 IH]; intros [|b p] Hl; try discriminate; cbn; [split; auto|]. rewrite andb_true_iff, Rltb_true, IH by (cbn in Hl; lia). split.
  - intros [H1 H2]. constructor; auto. exists (fp_relerr a b). split; [apply fp_rel|auto].
  - intros H. inversion H as [|? ? ? ? (d & Hd & Hl2) H2]; subst. apply rel_fun in Hd. subst d. auto.
Qed.
Theorem C86_vector : forall f x0 xtol maxiter v, (forall x, length (f x) = length x) ->
  fixed_point_vec f x0 xtol maxiter = Ok v <->
  exists k, (k < maxiter)%nat /\ v = viterate f (S k) x0 /\ vconverged f x0 xtol k /\ forall j, (j < k)%nat -> ~ vconverged f x0 xtol j.
Proof.
  intros f x0 xtol m v Hlen. unfold fixed_point_vec. revert x0. generalize false.
  induction m as [|m IH]; intros bound x0; cbn [fixed_point_vloop].
  - destruct bound; (split; [discriminate|intros (k & Hk & _); lia]).
  - cbv zeta. rewrite Hlen, Nat.eqb_refl. assert (T := test_Forall2 xtol x0 (f x0) (Hlen x0)). destruct (forallb _ _).
    + assert (C0 : vconverged f x0 xtol 0) by (apply T; auto). split.
      * intros H. injection H as <-. exists 0%nat. split; [lia|]. split; auto. split; auto. intros; lia.
      * intros (k & Hk & -> & _ & Hj). destruct k as [|k]; [reflexivity|]. exfalso. apply (Hj 0%nat); auto. lia.
    + assert (N0 : ~ vconverged f x0 xtol 0) by (intros Q; apply T in Q; discriminate).
      assert (Sh : forall j, vconverged f (f x0) xtol j <-> vconverged f x0 xtol (S j)).
      { intros j. unfold vconverged. cbn [viterate]. rewrite !viterate_shift. tauto. }
      rewrite IH. split.
      * intros (k & Hk & -> & Hc & Hj). exists (S k). split; [lia|]. split; [cbn [viterate]; rewrite viterate_shift; auto|]. split; [apply Sh; auto|].
        intros [|j] Hlt; auto. rewrite <- Sh. apply Hj. lia.
      * intros ([|k] & Hk & -> & Hc & Hj); [contradiction|]. exists k. split; [lia|]. split; [cbn [viterate]; rewrite viterate_shift; auto|]. split; [apply Sh; auto|].
        intros j Hlt Q. apply (Hj (S j)); [lia|]. apply Sh. auto.
Qed.
Print Assumptions C86_vector.

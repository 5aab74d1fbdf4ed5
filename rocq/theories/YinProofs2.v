(** * Yin and Graham: the simulations *)
From Coq Require Import Reals List Arith ZArith Bool Lia Lra.
From Coquelicot Require Import Coquelicot.
From Verif Require Import Base PiecewiseModel SpecPiecewise SpecPiecewiseApi PiecewiseProofs PiecewiseProofs3 PiecewiseProofs4 ConstitutiveModel MeshModel MeshProofs SteinModel YinModel SpecYin YinProofs.
Import ListNotations.
Local Open Scope R_scope.

Lemma rising_tail a l : rising (a :: l) -> rising l. Proof. destruct l; cbn; tauto. Qed.
Lemma rising_app a l m : rising l -> rising m -> (forall e, In e l -> e < a) -> (forall e, In e m -> a <= e) -> rising (l ++ m).
Proof.
  induction l as [|h t IH]; intros H1 H2 Hl Hm; auto. destruct t as [|b t].
  - destruct m as [|c m]; cbn; auto. split; auto. apply Rlt_le_trans with a; [apply Hl|apply Hm]; left; auto.
  - destruct H1 as [H1 H1']. split; auto. apply IH; auto. intros; apply Hl; right; auto.
Qed.
Lemma linspace_rising a b n : a < b -> rising (linspace_open a b n) /\ forall e, In e (linspace_open a b n) -> a <= e < b.
Proof.
  intros Hab. unfold linspace_open. split.
  - destruct n as [|n]; [exact I|]. assert (0 < (b - a) / INR (S n)) by (apply Rdiv_lt_0_compat; [lra|apply lt_0_INR; lia]).
    generalize (S n) at 2 as m. generalize 0%nat as s. intros s m; revert s; induction m as [|m IH]; intros s; cbn [seq map]; [exact I|].
    specialize (IH (S s)). destruct m as [|m]; cbn [seq map] in *; [exact I|]. split; auto. rewrite (S_INR s). lra.
  - intros e He. apply in_map_iff in He. destruct He as (k & <- & Hk). apply in_seq in Hk.
    assert (N : 0 < INR n) by (apply lt_0_INR; lia). assert (K : 0 <= INR k) by apply pos_INR. assert (L : INR k < INR n) by (apply lt_INR; lia).
    assert (0 <= INR k / INR n < 1).
    { split; [apply Rmult_le_pos; [auto|left; apply Rinv_0_lt_compat; auto]|]. apply (Rmult_lt_reg_r (INR n)); auto. unfold Rdiv. rewrite Rmult_assoc, Rinv_l by lra. lra. }
    replace (INR k * ((b - a) / INR n)) with ((INR k / INR n) * (b - a)) by (field; lra). split; nra.
Qed.
Lemma concat_rising (N : R * R -> nat) x a : rising (a :: x) ->
  rising (concat (map (fun p => linspace_open (fst p) (snd p) (N p)) (pairs (a :: x))) ++ [last (a :: x) 0]) /\
  (forall e, In e (concat (map (fun p => linspace_open (fst p) (snd p) (N p)) (pairs (a :: x))) ++ [last (a :: x) 0]) -> a <= e <= last (a :: x) 0).
Proof.
  revert a; induction x as [|b x IH]; intros a H.
  - cbn. split; auto. intros e [<-|[]]; lra.
  - destruct H as [H1 H2]. specialize (IH b H2). destruct IH as [IH1 IH2]. change (pairs (a :: b :: x)) with ((a, b) :: pairs (b :: x)). change (last (a :: b :: x) 0) with (last (b :: x) 0).
    cbn [map concat fst snd]. rewrite <- app_assoc. destruct (linspace_rising a b (N (a, b)) H1) as [L1 L2]. split.
    + apply (rising_app b); auto; intros e He; [apply L2; auto|apply IH2; auto].
    + intros e He. assert (B : b <= last (b :: x) 0) by (apply (IH2 (last (b :: x) 0)); apply in_or_app; right; left; auto). apply in_app_or in He. destruct He as [He|He]; [specialize (L2 e He); lra|]. specialize (IH2 e He). lra.
Qed.
(** the times of a simulation *)
Lemma times_ok tvals dx ms ts : rising tvals -> (2 <= length tvals)%nat -> (forall n, ms = Some n -> (1 <= n)%nat) -> y_times tvals dx ms = Ok ts ->
  rising ts /\ (2 <= length ts)%nat /\ at_ ts 0 = at_ tvals 0 /\ at_ ts (length ts - 1) = at_ tvals (length tvals - 1) /\ (forall t, In t ts -> at_ tvals 0 <= t <= at_ tvals (length tvals - 1)).
Proof.
  intros Ri Le Hms E. destruct tvals as [|a [|b x]]; cbn [length] in Le; try lia. unfold y_times in E. change (get (a :: b :: x) 0) with (Ok a) in E. cbn [bind] in E. rewrite (get_last_nth (a :: b :: x) 0), last_get_last in E by discriminate. cbn [bind] in E.
  unfold subdivide_x_into_segments, subdivide_x_y_into_segments in E. rewrite Nat.eqb_refl in E. cbn [negb] in E. change (get (a :: b :: x) 0) with (Ok a) in E. cbn [bind] in E. rewrite (get_last_nth (a :: b :: x) 0), last_get_last in E by discriminate. cbn [bind] in E. cbv zeta in E.
  destruct (_ && _)%bool; [discriminate|]. cbn [bind fst] in E. set (nm := match ms with Some n => n | None => 50%nat end) in *. assert (Hnm : (1 <= nm)%nat) by (unfold nm; destruct ms as [k|]; [apply Hms; auto|lia]). set (d := match dx with Some d => d | None => _ end) in *.
  set (N := fun p : R * R => nseg d nm (fst p) (snd p)). destruct (concat_rising N (b :: x) a Ri) as [C1 C2].
  assert (Ets : ts = concat (map (fun p => linspace_open (fst p) (snd p) (N p)) (pairs (a :: b :: x))) ++ [last (a :: b :: x) 0]) by (injection E as <-; reflexivity). clear E. rewrite <- Ets in C1, C2.
  assert (Hd : exists r, ts = a :: r /\ (1 <= length r)%nat). { rewrite Ets. change (pairs (a :: b :: x)) with ((a, b) :: pairs (b :: x)). cbn [map concat fst snd]. assert (G : (1 <= N (a, b))%nat) by (unfold N, nseg; lia). destruct (N (a, b)) as [|k]; [lia|]. unfold linspace_open at 1. cbn [seq map]. eexists. split; [cbn [app]; f_equal; cbn [INR]; ring|]. rewrite app_length. cbn [length]. lia. }
  destruct Hd as (r & Er & Lr). assert (La : at_ (a :: b :: x) (length (a :: b :: x) - 1) = last (a :: b :: x) 0) by (apply last_get_last; discriminate). rewrite La. change (at_ (a :: b :: x) 0) with a.
  assert (Lt : (length ts - 1)%nat = length (concat (map (fun p => linspace_open (fst p) (snd p) (N p)) (pairs (a :: b :: x))))) by (rewrite Ets, app_length; cbn [length]; lia).
  repeat (match goal with |- _ /\ _ => split end); auto.
  - rewrite Er. cbn [length]. lia.
  - rewrite Er. reflexivity.
  - rewrite Lt. unfold at_. rewrite Ets, app_nth2 by lia. rewrite Nat.sub_diag. reflexivity.
Qed.
Lemma rising_at l : rising l -> forall i j, (i < j < length l)%nat -> at_ l i < at_ l j.
Proof.
  induction l as [|a l IH]; intros R0 i j H; cbn [length] in H; [lia|]. pose proof (rising_tail a l R0) as R1. destruct i as [|i]; destruct j as [|j]; try lia.
  - change (at_ (a :: l) (S j)) with (at_ l j). change (at_ (a :: l) 0) with a. destruct l as [|b l]; cbn [length] in H; [lia|]. destruct R0 as [R0 _]. destruct j as [|j]; [exact R0|]. apply Rlt_trans with b; auto. apply (IH R1 0%nat (S j)). cbn [length]. lia.
  - apply (IH R1). lia.
Qed.
(** np.interp of a constant *)
Lemma interp_from_const v r l : (forall p, In p l -> snd p = r) -> forall x0, interp_from v x0 r l = r.
Proof.
  induction l as [|[x1 y1] l IH]; intros H x0; cbn; auto. pose proof (H (x1, y1) (or_introl eq_refl)) as Q. cbn in Q. subst y1. destruct (Rltb v x1); [unfold Rdiv; ring|]. apply IH. intros p Hp. apply H. right. exact Hp.
Qed.
Lemma np_interp_const v xs ys r : xs <> [] -> length xs = length ys -> (forall y, In y ys -> y = r) -> np_interp v xs ys = Ok r.
Proof.
  intros Hx Hl H. unfold np_interp. destruct xs as [|x xs]; [contradiction|]. destruct ys as [|y ys]; [discriminate|]. cbn [combine]. rewrite (H y (or_introl eq_refl)). f_equal. destruct (Rltb v x); auto. apply interp_from_const. intros p Hp. destruct p as [u w]. apply in_combine_r in Hp. apply H. right. exact Hp.
Qed.
Lemma mapM_const {A B} (f : A -> result B) l v : (forall x, f x = Ok v) -> mapM f l = Ok (repeat v (length l)).
Proof. intros H. induction l as [|a l IH]; cbn; auto. rewrite H. cbn [bind]. rewrite IH. reflexivity. Qed.
Lemma y_interp_const ts xs ys r : xs <> [] -> length xs = length ys -> (forall y, In y ys -> y = r) -> y_interp ts xs ys = Ok (repeat r (length ts)).
Proof. intros Hx Hl H. unfold y_interp. rewrite Hl, Nat.eqb_refl. cbn [negb]. apply mapM_const. intros t. apply np_interp_const; auto. Qed.
Lemma mapM_length_ok {A B} (f : A -> result B) l r : mapM f l = Ok r -> length r = length l.
Proof. revert r. induction l as [|a l IH]; intros r E; cbn in E; [injection E as <-; auto|]. destruct (f a); cbn [bind] in E; [|discriminate]. destruct (mapM f l) eqn:Q; cbn [bind] in E; [|discriminate]. injection E as <-. cbn. rewrite (IH _ eq_refl). reflexivity. Qed.
Lemma y_steps_length f l : forall o r o', y_steps f o l = Ok (r, o') -> length r = length l.
Proof.
  induction l as [|[v dt] l IH]; intros o r o' E; cbn in E; [injection E as <- _; auto|]. destruct (f o v dt) as [[x o1]|]; cbn [bind] in E; [|discriminate]. cbn [snd fst] in E. destruct (y_steps f o1 l) as [[q o2]|] eqn:Q; cbn [bind] in E; [|discriminate]. injection E as <- _. cbn [length fst]. rewrite (IH _ _ _ Q). reflexivity.
Qed.
Lemma cumsum_length a l : length (cumsum a l) = length l. Proof. revert a. induction l as [|x l IH]; intros a; cbn; auto. Qed.
Lemma y_path_length a rs ts : length rs = length ts -> length (y_path a rs (diff ts)) = (length ts - 1)%nat.
Proof. intros H. unfold y_path. rewrite cumsum_length, map_length, combine_length, diff_length. lia. Qed.
(** each value is the one before plus rate times time *)
Lemma y_path_at : forall ts rs a, length rs = length ts -> forall k, (S k < length ts)%nat -> at_ (a :: y_path a rs (diff ts)) (S k) = at_ (a :: y_path a rs (diff ts)) k + at_ rs k * (at_ ts (S k) - at_ ts k).
Proof.
  induction ts as [|t ts IH]; intros rs a Hl k Hk; cbn [length] in *; [lia|]. destruct rs as [|r rs]; cbn [length] in Hl; [lia|]. destruct ts as [|t' ts]; cbn [length] in Hk; [lia|].
  assert (Q : y_path a (r :: rs) (diff (t :: t' :: ts)) = (a + r * (t' - t)) :: y_path (a + r * (t' - t)) rs (diff (t' :: ts))) by reflexivity. rewrite Q. destruct k as [|k]; [unfold at_; cbn [nth]; ring|].
  specialize (IH rs (a + r * (t' - t)) ltac:(cbn [length] in *; lia) k ltac:(cbn [length]; lia)). exact IH.
Qed.

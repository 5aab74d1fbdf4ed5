From Coq Require Import Reals List ZArith Bool Arith Lia Lra.
From Verif Require Import Base MeshModel SpecPiecewise.
Import ListNotations.
Open Scope R_scope.

Lemma sumn_app (l m : list R) : sumn (l ++ m) = sumn l + sumn m.
Proof. induction l as [|a l IH]; cbn; [ring|]. rewrite IH; ring. Qed.
Lemma sumn_rev (l : list R) : sumn (rev l) = sumn l.
Proof. induction l as [|a l IH]; cbn; auto. rewrite sumn_app, IH. cbn. ring. Qed.
Lemma sumn_scal (c : R) (l : list nat) (f : nat -> R) :
  sumn (map (fun k => c * f k) l) = c * sumn (map f l).
Proof. induction l as [|a l IH]; cbn; [ring|]. rewrite IH. cbn. ring. Qed.

Lemma geo_sum p n a : p <> 1 -> sumn (map (pow p) (seq a n)) = p ^ a * (p ^ n - 1) / (p - 1).
Proof.
  intros Hp. revert a; induction n as [|n IH]; intros a; cbn [seq map sumn].
  - cbn. field. lra.
  - rewrite IH. cbn [nadd NumR]. cbn [pow]. field. lra.
Qed.

Lemma pow_gt1 p n : 0 < p -> p <> 1 -> (0 < n)%nat -> 0 < (p ^ n - 1) / (p - 1).
Proof.
  intros Hp Hp1 Hn.
  assert (H : 0 < sumn (map (pow p) (seq 0 n))).
  { destruct n as [|n]; [lia|]. cbn [seq map sumn]. cbn [pow nadd NumR].
    assert (0 <= sumn (map (pow p) (seq 1 n))); [|lra].
    generalize (seq 1 n) as l. induction l as [|a l IH]; cbn; [lra|].
    assert (0 < p ^ a) by (apply pow_lt; auto). lra. }
  rewrite geo_sum in H by auto. cbn [pow] in H. replace (1 * (p ^ n - 1)) with (p ^ n - 1) in H by ring. auto.
Qed.

Lemma firstn_seq k n a : (k <= n)%nat -> firstn k (seq a n) = seq a k.
Proof.
  revert a k; induction n as [|n IH]; intros a k H; destruct k as [|k]; cbn; auto; try lia.
  f_equal. apply IH. lia.
Qed.

Lemma half_even n : Nat.even n = true -> n = (2 * (n / 2))%nat.
Proof. intros H. apply Nat.even_spec in H. destruct H as [m ->].
  rewrite Nat.mul_comm, Nat.div_mul by lia. lia. Qed.
Lemma half_odd n : Nat.even n = false -> exists m, n = (2 * m + 1)%nat /\ ((n + 1) / 2 = m + 1)%nat /\ ((n - 1) / 2 = m)%nat.
Proof.
  intros H. assert (Ho : Nat.odd n = true) by (unfold Nat.odd; rewrite H; auto).
  apply Nat.odd_spec in Ho. destruct Ho as [m ->]. exists m. repeat split.
  - replace (2 * m + 1 + 1)%nat with ((m + 1) * 2)%nat by lia. rewrite Nat.div_mul; lia.
  - replace (2 * m + 1 - 1)%nat with (m * 2)%nat by lia. rewrite Nat.div_mul; lia.
Qed.

Lemma ppowers_length n s : (2 <= n)%nat -> length (ppowers n s) = n.
Proof.
  intros Hn. unfold ppowers, assign_from, arange. destruct s; [|apply seq_length].
  destruct (Nat.even n) eqn:E.
  - apply half_even in E. rewrite firstn_seq by lia. rewrite app_length, rev_length, !seq_length. lia.
  - destruct (half_odd n E) as (m & Hm & -> & ->). rewrite firstn_seq by lia.
    rewrite app_length, rev_length, !seq_length. lia.
Qed.

(** exponent of element i *)
Lemma ppowers_nth n s i : (2 <= n)%nat -> (i < n)%nat ->
  nth i (ppowers n s) 0%nat = if s then Nat.min i (n - 1 - i) else i.
Proof.
  intros Hn Hi. unfold ppowers, assign_from, arange. destruct s; [|rewrite seq_nth; lia].
  destruct (Nat.even n) eqn:E.
  - apply half_even in E. rewrite firstn_seq by lia. set (m := (n / 2)%nat) in *.
    destruct (lt_dec i m) as [L|L].
    + rewrite app_nth1 by (rewrite seq_length; auto). rewrite seq_nth by auto. lia.
    + rewrite app_nth2 by (rewrite seq_length; lia). rewrite seq_length, rev_nth by (rewrite seq_length; lia).
      rewrite seq_length, seq_nth by lia. lia.
  - destruct (half_odd n E) as (m & Hm & -> & ->). rewrite firstn_seq by lia.
    destruct (lt_dec i (m + 1)) as [L|L].
    + rewrite app_nth1 by (rewrite seq_length; auto). rewrite seq_nth by auto. lia.
    + rewrite app_nth2 by (rewrite seq_length; lia). rewrite seq_length, rev_nth by (rewrite seq_length; lia).
      rewrite seq_length, seq_nth by lia. lia.
Qed.

Definition psum (n : nat) (p : R) (s : bool) : R :=
  if s then if Nat.even n then 2 * (p ^ (n / 2) - 1) / (p - 1)
            else 2 * (p ^ ((n + 1) / 2) - 1) / (p - 1) - p ^ ((n - 1) / 2)
  else (p ^ n - 1) / (p - 1).

Lemma ppowers_sum n p s : (2 <= n)%nat -> p <> 1 -> sumn (map (pow p) (ppowers n s)) = psum n p s.
Proof.
  intros Hn Hp. unfold ppowers, psum, assign_from, arange.
  destruct s; [|rewrite geo_sum by auto; cbn [pow]; field; lra].
  destruct (Nat.even n) eqn:E.
  - apply half_even in E. rewrite firstn_seq by lia.
    rewrite map_app, sumn_app, map_rev, sumn_rev, geo_sum by auto. cbn [pow]. field; lra.
  - destruct (half_odd n E) as (m & Hm & -> & ->). rewrite firstn_seq by lia.
    rewrite map_app, sumn_app, map_rev, sumn_rev, !geo_sum by auto.
    rewrite pow_add. cbn [pow]. field; lra.
Qed.

Lemma sumn_pos (l : list R) : l <> [] -> (forall e, In e l -> 0 < e) -> 0 < sumn l.
Proof.
  induction l as [|a l IH]; intros H Hp; [congruence|]. cbn.
  assert (0 < a) by (apply Hp; left; auto). destruct l as [|b l]; [cbn; lra|].
  assert (0 < sumn (b :: l)); [|lra]. apply IH; [discriminate|]. intros; apply Hp; right; auto.
Qed.

Lemma psum_pos n p s : (2 <= n)%nat -> 0 < p -> p <> 1 -> 0 < psum n p s.
Proof.
  intros Hn Hp Hp1. rewrite <- ppowers_sum by auto. apply sumn_pos.
  - intros C. apply (f_equal (@length R)) in C. rewrite map_length, ppowers_length in C; cbn in C; lia.
  - intros e He. apply in_map_iff in He. destruct He as (k & <- & _). apply pow_lt; auto.
Qed.

Lemma at_map_nat (f : nat -> R) (l : list nat) i : (i < length l)%nat -> at_ (map f l) i = f (nth i l 0%nat).
Proof.
  intros H. unfold at_. rewrite (nth_indep _ 0 (f 0%nat)) by (rewrite map_length; auto). apply map_nth.
Qed.

Lemma diff_linspace c n a :
  diff (map (fun k => INR k * c) (seq a (S n))) = repeat c n.
Proof.
  revert a; induction n as [|n IH]; intros a; [reflexivity|].
  specialize (IH (S a)). unfold diff in *. cbn [seq map pairs repeat] in *.
  rewrite IH. f_equal. cbn [fst snd nsub NumR]. rewrite S_INR. ring.
Qed.
Lemma sumn_repeat c n : sumn (repeat c n) = INR n * c.
Proof. induction n as [|n IH]; cbn [repeat sumn]; [cbn; ring|]. rewrite IH, S_INR. cbn. ring. Qed.

Lemma subdivide_spec n h p s : (2 <= n)%nat -> 0 < p ->
  exists c l, subdivide_into_elements n h p s = Ok l /\ length l = n /\ sumn l = h /\
    c * (if Reqb p 1 then INR n else psum n p s) = h /\
    forall i, (i < n)%nat -> at_ l i = c * p ^ (if s then Nat.min i (n - 1 - i) else i).
Proof.
  intros Hn Hp. unfold subdivide_into_elements.
  assert (Rleb p 0 = false) as -> by (apply Rleb_false; lra).
  assert (Nat.leb n 1 = false) as -> by (apply Nat.leb_gt; lia).
  assert (HnR : 0 < INR n) by (apply lt_0_INR; lia).
  destruct (Reqb p 1) eqn:E.
  - apply Reqb_true in E; subst p. exists (h / INR n). eexists; split; [reflexivity|].
    replace (n + 1)%nat with (S n) by lia. rewrite diff_linspace.
    rewrite repeat_length, sumn_repeat. repeat split; try (field; lra).
    intros i Hi. rewrite pow1, Rmult_1_r. unfold at_. clear -Hi. revert i Hi. induction n; intros; [lia|].
    destruct i; [reflexivity|]. change (repeat (h / INR (S n)) (S n)) with (h / INR (S n) :: repeat (h / INR (S n)) n).
    assert (Hr : forall c m j, (j < m)%nat -> nth j (repeat c m) 0 = c).
    { intros c m; induction m; intros j Hj; [lia|]. destruct j; [reflexivity|]. cbn. apply IHm. lia. }
    cbn [nth]. apply Hr. lia.
  - apply Reqb_false in E. pose proof (psum_pos n p s Hn Hp E) as Hps.
    exists (h / psum n p s). eexists; split; [reflexivity|].
    match goal with |- length (map (fun k => ?x * _) _) = _ /\ _ => replace x with (h / psum n p s) end.
    2:{ unfold psum in *. destruct s; [destruct (Nat.even n); reflexivity|].
        assert (p ^ n - 1 <> 0). { intros C. rewrite C in Hps. unfold Rdiv in Hps. lra. }
        field. split; auto. lra. }
    rewrite map_length, ppowers_length by auto. repeat split; auto.
    + rewrite sumn_scal, ppowers_sum by auto. field. lra.
    + field; lra.
    + intros i Hi. rewrite at_map_nat by (rewrite ppowers_length; auto). rewrite ppowers_nth by auto. reflexivity.
Qed.

(** ** subdivision *)
Lemma nseg_ge dx m a b : (m <= nseg dx m a b)%nat.
Proof. unfold nseg. lia. Qed.

Lemma combine_concat {A B} (f : A -> list B) (g : A -> list B) (l : list A) :
  (forall a, In a l -> length (f a) = length (g a)) ->
  combine (concat (map f l)) (concat (map g l)) = concat (map (fun a => combine (f a) (g a)) l).
Proof.
  induction l as [|a l IH]; intros H; cbn; auto.
  rewrite <- IH by (intros; apply H; right; auto).
  assert (E : length (f a) = length (g a)) by (apply H; left; auto).
  revert E. generalize (f a) (g a). induction l0 as [|x l0 IH0]; intros [|y l1] E; cbn in *; try lia; auto.
  f_equal. apply IH0. lia.
Qed.

Lemma combine_app_eq {A B} (a c : list A) (b d : list B) : length a = length b ->
  combine (a ++ c) (b ++ d) = combine a b ++ combine c d.
Proof.
  revert b; induction a as [|x a IH]; intros [|y b] H; cbn in *; try lia; auto. f_equal. apply IH; lia.
Qed.

Lemma combine_map_same {A B C} (f : A -> B) (g : A -> C) l :
  combine (map f l) (map g l) = map (fun a => (f a, g a)) l.
Proof. induction l; cbn; auto. f_equal; auto. Qed.

Lemma map_fst_combine {A B} (l : list A) (m : list B) : length l = length m -> map fst (combine l m) = l.
Proof. revert m; induction l; intros [|b m] H; cbn in *; try lia; auto. f_equal; apply IHl; lia. Qed.

Lemma concat_length_eq {A B} (f g : A -> list B) l :
  (forall a, In a l -> length (f a) = length (g a)) -> length (concat (map f l)) = length (concat (map g l)).
Proof.
  induction l as [|a l IH]; intros H; cbn; auto. rewrite !app_length, (H a) by (left; auto).
  rewrite IH; auto. intros; apply H; right; auto.
Qed.

(** Everything at once, for the default (no just_before) mode. *)
Lemma subdivide_open_spec x y dx m : length x = length y -> x <> [] -> (1 <= m)%nat ->
  forall xn yn, subdivide_x_y_into_segments x y dx m None = Ok (xn, yn) ->
  length xn = length yn /\
  (forall i, (i < length x)%nat -> In (at_ x i, at_ y i) (combine xn yn)) /\
  (forall q, In q (combine xn yn) ->
     q = (at_ x (length x - 1), at_ y (length x - 1)) \/
     exists i s, (S i < length x)%nat /\ 0 <= s < 1 /\
       fst q = at_ x i + s * (at_ x (S i) - at_ x i) /\ snd q = at_ y i + s * (at_ y (S i) - at_ y i)).
Proof.
  intros Hl Hne Hm xn yn H. unfold subdivide_x_y_into_segments in H.
  rewrite Hl, Nat.eqb_refl in H. cbn [negb] in H.
  assert (Hpos : (0 < length x)%nat) by (destruct x; [congruence|cbn; lia]).
  rewrite (get_lt x 0 0) in H by auto. cbn [bind] in H.
  rewrite (get_last_nth x 0) in H by auto.
  rewrite (get_last_nth y 0) in H by (destruct y; [cbn in Hl; lia|discriminate]). cbn [bind] in H.
  match type of H with context [Reqb ?dd 0] => set (d := dd) in H end.
  destruct (Reqb d 0 && (1 <? length y)%nat)%bool; [discriminate|].
  injection H as Hxn Hyn.
  set (P := combine (pairs x) (pairs y)) in *.
  set (N := fun q : (R * R) * (R * R) => nseg d m (fst (fst q)) (snd (fst q))) in *.
  assert (Hpl : length (pairs x) = length (pairs y)) by (rewrite !pairs_length; lia).
  assert (Hx' : map (fun p : R * R => linspace_open (fst p) (snd p) (nseg d m (fst p) (snd p))) (pairs x) =
          map (fun q => linspace_open (fst (fst q)) (snd (fst q)) (N q)) P).
  { unfold P, N. rewrite <- (map_fst_combine (pairs x) (pairs y) Hpl) at 1. rewrite map_map. reflexivity. }
  rewrite Hx' in Hxn.
  assert (Hll : forall q : (R * R) * (R * R), In q P ->
     length (linspace_open (fst (fst q)) (snd (fst q)) (N q)) =
     length (linspace_open (fst (snd q)) (snd (snd q)) (N q))).
  { intros. unfold linspace_open. rewrite !map_length. auto. }
  assert (Hcc : length (concat (map (fun q => linspace_open (fst (fst q)) (snd (fst q)) (N q)) P)) =
     length (concat (map (fun q => linspace_open (fst (snd q)) (snd (snd q)) (N q)) P)))
    by (apply concat_length_eq; auto).
  assert (HC : combine xn yn = concat (map (fun q => map (fun k =>
       (fst (fst q) + INR k * ((snd (fst q) - fst (fst q)) / INR (N q)),
        fst (snd q) + INR k * ((snd (snd q) - fst (snd q)) / INR (N q)))) (seq 0 (N q))) P)
       ++ [(at_ x (length x - 1), at_ y (length x - 1))]).
  { rewrite <- Hxn, <- Hyn. rewrite combine_app_eq by auto. f_equal.
    - rewrite combine_concat by auto. f_equal. apply map_ext. intros q. unfold linspace_open.
      apply combine_map_same.
    - cbn. unfold at_. rewrite Hl. reflexivity. }
  assert (HP : forall i, (S i < length x)%nat -> nth i P ((0, 0), (0, 0)) = ((at_ x i, at_ x (S i)), (at_ y i, at_ y (S i)))).
  { intros i Hi. unfold P. rewrite combine_nth by auto. rewrite !pairs_nth by lia. reflexivity. }
  assert (HPl : length P = (length x - 1)%nat).
  { unfold P. rewrite combine_length, !pairs_length. lia. }
  split; [|split].
  - rewrite <- Hxn, <- Hyn, !app_length. cbn. rewrite Hcc. reflexivity.
  - intros i Hi. rewrite HC. apply in_or_app.
    destruct (Nat.eq_dec i (length x - 1)) as [->|Hni]; [right; left; auto|left].
    apply in_concat. eexists. split.
    + apply in_map_iff. exists (nth i P ((0, 0), (0, 0))). split; [reflexivity|]. apply nth_In. lia.
    + rewrite HP by lia. cbn [fst snd]. apply in_map_iff. exists 0%nat. split.
      * cbn [INR]. f_equal; ring.
      * apply in_seq. pose proof (nseg_ge d m (at_ x i) (at_ x (S i))).
        unfold N; cbn [fst snd]. lia.
  - intros q Hq. rewrite HC in Hq. apply in_app_or in Hq. destruct Hq as [Hq|[<-|[]]]; auto.
    right. apply in_concat in Hq. destruct Hq as (l & Hlin & Hq). apply in_map_iff in Hlin.
    destruct Hlin as (c & <- & Hc). apply (In_nth _ _ ((0, 0), (0, 0))) in Hc. destruct Hc as (i & Hi & Hc).
    rewrite HPl in Hi. rewrite HP in Hc by lia. subst c. cbn [fst snd] in Hq.
    apply in_map_iff in Hq. destruct Hq as (k & <- & Hk). apply in_seq in Hk.
    match type of Hk with (_ <= _ < 0 + ?nn)%nat => set (n := nn) in * end.
    exists i, (INR k / INR n).
    assert (0 < INR n) by (apply lt_0_INR; lia).
    split; [lia|]. split; [|split; cbn; field; lra].
    split.
    + apply Rmult_le_pos; [apply pos_INR|]. left. apply Rinv_0_lt_compat; auto.
    + apply (Rmult_lt_reg_r (INR n)); auto. unfold Rdiv. rewrite Rmult_assoc, Rinv_l by lra.
      rewrite Rmult_1_r, Rmult_1_l. apply lt_INR. lia.
Qed.

(** Ordered output. *)
Fixpoint ordered_list (l : list R) : Prop :=
  match l with a :: ((b :: _) as t) => a <= b /\ ordered_list t | _ => True end.
Lemma ordered_nondecr l : ordered_list l -> nondecr l.
Proof.
  induction l as [|a [|b t] IH]; intros H i Hi; cbn in Hi; try lia.
  destruct H as [H1 H2]. destruct i; [exact H1|]. apply (IH H2 i). cbn. lia.
Qed.
Lemma nondecr_ordered l : nondecr l -> ordered_list l.
Proof.
  induction l as [|a [|b t] IH]; intros H; cbn; auto. split.
  - apply (H 0%nat). cbn; lia.
  - apply IH. intros i Hi. apply (H (S i)). cbn in *; lia.
Qed.
Lemma ordered_app a l m : ordered_list l -> ordered_list m -> (forall e, In e l -> e <= a) ->
  (forall e, In e m -> a <= e) -> ordered_list (l ++ m).
Proof.
  induction l as [|h t IH]; intros H1 H2 Hl Hm; auto.
  destruct t as [|b t].
  - destruct m as [|c m]; cbn; auto. split; auto. apply Rle_trans with a; [apply Hl|apply Hm]; left; auto.
  - destruct H1 as [H1 H1']. split; auto. apply IH; auto. intros; apply Hl; right; auto.
Qed.
Lemma linspace_open_ordered a b n : a <= b -> ordered_list (linspace_open a b n) /\
  forall e, In e (linspace_open a b n) -> a <= e <= b.
Proof.
  intros Hab. unfold linspace_open. split.
  - destruct n as [|n]; [exact I|]. assert (0 <= (b - a) / INR (S n)).
    { apply Rmult_le_pos; [lra|]. left. apply Rinv_0_lt_compat, lt_0_INR; lia. }
    generalize (S n) at 2 as m. generalize 0%nat as s. intros s m; revert s; induction m as [|m IH]; intros s; cbn [seq map]; [exact I|].
    specialize (IH (S s)). destruct m as [|m]; cbn [seq map] in *; [exact I|].
    split; auto. rewrite (S_INR s). lra.
  - intros e He. apply in_map_iff in He. destruct He as (k & <- & Hk). apply in_seq in Hk.
    assert (0 < INR n) by (apply lt_0_INR; lia).
    assert (0 <= INR k) by apply pos_INR. assert (INR k <= INR n) by (apply le_INR; lia).
    assert (0 <= INR k / INR n <= 1).
    { split; [apply Rmult_le_pos; [auto|left; apply Rinv_0_lt_compat; auto]|].
      apply (Rmult_le_reg_r (INR n)); auto. unfold Rdiv. rewrite Rmult_assoc, Rinv_l by lra. lra. }
    replace (INR k * ((b - a) / INR n)) with ((INR k / INR n) * (b - a)) by (field; lra). split; nra.
Qed.

Lemma concat_open_ordered (N : R * R -> nat) x a : ordered_list (a :: x) ->
  ordered_list (concat (map (fun p => linspace_open (fst p) (snd p) (N p)) (pairs (a :: x))) ++ [last (a :: x) 0]) /\
  (forall e, In e (concat (map (fun p => linspace_open (fst p) (snd p) (N p)) (pairs (a :: x))) ++ [last (a :: x) 0]) -> a <= e).
Proof.
  revert a; induction x as [|b x IH]; intros a H.
  - cbn. split; auto. intros e [<-|[]]; lra.
  - destruct H as [H1 H2]. specialize (IH b H2). destruct IH as [IH1 IH2].
    change (pairs (a :: b :: x)) with ((a, b) :: pairs (b :: x)).
    change (last (a :: b :: x) 0) with (last (b :: x) 0).
    cbn [map concat fst snd]. rewrite <- app_assoc.
    destruct (linspace_open_ordered a b (N (a, b)) H1) as [L1 L2]. split.
    + apply (ordered_app b); auto. intros e He. apply L2; auto.
    + intros e He. apply in_app_or in He. destruct He as [He|He]; [apply L2; auto|].
      specialize (IH2 e He). lra.
Qed.

Lemma last_get_last (x : list R) d : x <> [] -> nth (length x - 1) x d = last x d.
Proof.
  intros H. destruct (exists_last H) as (l & a & ->). rewrite last_last, app_length. cbn.
  replace (length l + 1 - 1)%nat with (length l) by lia. apply nth_middle.
Qed.

Lemma subdivide_open_nondecr x y dx m xn yn : nondecr x ->
  subdivide_x_y_into_segments x y dx m None = Ok (xn, yn) -> nondecr xn.
Proof.
  intros Hn H. unfold subdivide_x_y_into_segments in H.
  destruct (negb _); [discriminate|].
  destruct x as [|a x]; [discriminate|]. cbn [get nth_error bind] in H.
  rewrite (get_last_nth (a :: x) 0), last_get_last in H by discriminate. cbn [bind] in H.
  destruct (get_last y) as [ye|]; [|discriminate]. cbn [bind] in H.
  match type of H with context [Reqb ?dd 0] => set (d := dd) in H end.
  destruct (_ && _)%bool; [discriminate|]. injection H as Hxn _. subst xn.
  apply ordered_nondecr. apply concat_open_ordered. apply nondecr_ordered; auto.
Qed.

(** ** layer_coords *)
Lemma cumsum_length a l : length (cumsum_from a l) = length l.
Proof. revert a; induction l; intros; cbn; auto. Qed.

Lemma layer_coords_boundaries h segs ms z : (1 <= ms)%nat -> layer_coords h segs ms = Ok z ->
  (forall k, (k < length h)%nat -> In (sumn (firstn k h)) z) /\ In (sumn h) z.
Proof.
  intros Hms H. unfold layer_coords in H.
  assert (Hnth : forall l a k d, (k < length l)%nat -> nth k (cumsum_from a l) d = a + sumn (firstn (S k) l)).
  { induction l as [|e l IH]; intros a k d Hk; cbn in Hk; [lia|]. destruct k; cbn [cumsum_from nth firstn sumn].
    - cbn. ring.
    - rewrite IH by lia. cbn. ring. }
  destruct h as [|h0 h']; [discriminate|]. set (h := h0 :: h') in *.
  rewrite (get_last_nth _ 0) in H by (unfold h; discriminate). cbn [bind] in H.
  match type of H with Ok ?t = Ok _ => assert (E0 : z = t) by congruence end. subst z; clear H. split.
  - intros k Hk. apply in_or_app. left. apply (proj2 (in_concat _ _)). eexists. split.
    + apply in_map_iff. exists (nth k (combine h (cumsum_from 0 h)) (0, 0)). split; [reflexivity|].
      apply nth_In. rewrite combine_length, cumsum_length. lia.
    + rewrite combine_nth by (rewrite cumsum_length; auto). cbn [fst snd].
      rewrite Hnth by auto. unfold linspace_open. apply in_map_iff. exists 0%nat. split.
      * cbn [INR]. assert (E : sumn (firstn (S k) h) = sumn (firstn k h) + nth k h 0).
        { clear -Hk. revert k Hk. generalize h as l. induction l as [|e l IH]; intros k Hk; cbn in Hk; [lia|].
          destruct k; [cbn; ring|].
          change (firstn (S (S k)) (e :: l)) with (e :: firstn (S k) l).
          change (firstn (S k) (e :: l)) with (e :: firstn k l).
          change (nth (S k) (e :: l) 0) with (nth k l 0).
          cbn [sumn]. rewrite IH by lia. cbn [nadd NumR]. ring. }
        rewrite E. ring.
      * apply in_seq. split; [lia|]. pose proof (nseg_ge (sumn h / INR segs) ms 0 (nth k h 0)). lia.
  - apply in_or_app. right. left. rewrite cumsum_length, Hnth by (unfold h; cbn; lia).
    replace (S (length h - 1)) with (length h) by (unfold h; cbn; lia). rewrite firstn_all. ring.
Qed.

(** * Moments of the tabulated quadrature rules, checked in fixed point arithmetic *)
From Coq Require Import Reals List Bool ZArith Lia Lra.
From Verif Require Import Base QuadratureGen QuadratureModel.
Import ListNotations.
Open Scope R_scope.

(** The tables are symmetric, so odd moments vanish and even ones need only the non-negative
    abscissae.  A row is ((abscissa, weight), square of the abscissa, its current power), the last
    two scaled by 2^96. *)
Definition D : Z := (10 ^ 25)%Z.
Definition sh : Z := 96%Z.
Definition Sc : Z := (2 ^ 96)%Z.
Definition entry : Type := Z * Z * Z * Z.
Definition sym (t : list (Z * Z)) : bool :=
  if list_eq_dec (fun a b : Z * Z => ltac:(decide equality; apply Z.eq_dec)) (rev (map (fun e => (- fst e, snd e)%Z) t)) t then true else false.
Definition half (t : list (Z * Z)) : list (Z * Z) :=
  map (fun e => (fst e, if (fst e =? 0)%Z then snd e else (2 * snd e)%Z)) (filter (fun e => (0 <=? fst e)%Z) t).
Definition start (e : Z * Z) : entry := (e, (fst e * fst e * Sc / (D * D))%Z, Sc).
Definition msum (l : list entry) : Z := fold_right (fun e s => (snd (fst (fst e)) * snd e + s)%Z) 0%Z l.
Definition mstep (l : list entry) : list entry := map (fun e => (fst e, Z.shiftr (snd e * snd (fst e)) sh)) l.
(** |(2k+1) sum W P - 2 D S| <= (2k+1) (D S / 10^24 - 6 k D) *)
Fixpoint check (m : nat) (k : Z) (l : list entry) : bool :=
  match m with
  | O => true
  | S m' => (Z.abs ((2 * k + 1) * msum l - 2 * (D * Sc)) <=? (2 * k + 1) * (D * (Sc / 10 ^ 24) - 6 * k * D))%Z && check m' (k + 1) (mstep l)
  end.
Definition table_ok (t : list (Z * Z)) (m : nat) : bool :=
  forallb (fun e => (Z.abs (fst e) <? D)%Z && (0 <? snd e)%Z) t
  && (sym t && (fold_right (fun e s => snd e + s) 0 (half t) <=? 3 * D)%Z)
  && check (Nat.div2 (m + 1)) 0 (map start (half t)).

Definition M (t : list (Z * Z)) (j : nat) : R := rsum (map (fun e => dec (snd e) * dec (fst e) ^ j) t).
Definition exact (j : nat) : R := (1 - (-1) ^ S j) / INR (S j).

Lemma D_pos : (0 < D)%Z. Proof. reflexivity. Qed.
Lemma dec_D z : dec z = IZR z / IZR D.
Proof. unfold dec, D. rewrite (pow_IZR 10 25). reflexivity. Qed.
Lemma IZRD : 0 < IZR D. Proof. apply (IZR_lt 0). reflexivity. Qed.
Lemma IZRS : 0 < IZR Sc. Proof. apply (IZR_lt 0). reflexivity. Qed.

(** ** symmetry *)
Lemma rsum_app u v : rsum (u ++ v) = rsum u + rsum v.
Proof. unfold rsum. induction u as [|x u IH]; cbn [app fold_right]; [ring|]. rewrite IH. ring. Qed.
Lemma rsum_rev l : rsum (rev l) = rsum l.
Proof. induction l as [|x l IH]; [reflexivity|]. cbn [rev]. rewrite rsum_app, IH. unfold rsum. cbn [fold_right]. ring. Qed.
Lemma sym_sum t (g : Z * Z -> R) : sym t = true -> rsum (map g t) = rsum (map (fun e => g (- fst e, snd e)%Z) t).
Proof.
  unfold sym. destruct list_eq_dec as [S|]; [|discriminate]. intros _. rewrite <- S at 1. rewrite map_rev, rsum_rev, map_map. reflexivity.
Qed.
Lemma dec_opp z : dec (- z) = - dec z.
Proof. unfold dec. rewrite opp_IZR. unfold Rdiv. ring. Qed.
Lemma rsum_scal0 {A} k (f : A -> R) l : rsum (map (fun e => k * f e) l) = k * rsum (map f l).
Proof. unfold rsum. induction l as [|a l IH]; cbn; [ring|]. rewrite IH. ring. Qed.
Lemma odd_moment t k : sym t = true -> M t (2 * k + 1) = 0.
Proof.
  intros S. unfold M. assert (H := sym_sum t (fun e => dec (snd e) * dec (fst e) ^ (2 * k + 1)) S). cbn [fst snd] in H.
  rewrite (map_ext (fun e : Z * Z => dec (snd e) * dec (- fst e) ^ (2 * k + 1)) (fun e => -1 * (dec (snd e) * dec (fst e) ^ (2 * k + 1)))) in H.
  - rewrite (rsum_scal0 (-1) (fun e : Z * Z => dec (snd e) * dec (fst e) ^ (2 * k + 1))) in H. lra.
  - intros e. rewrite dec_opp. rewrite !Nat.add_1_r. cbn [pow]. rewrite !pow_mult. replace ((- dec (fst e)) ^ 2) with (dec (fst e) ^ 2) by ring. ring.
Qed.
Lemma rsum_filter3 {A} (g : A -> R) (x : A -> Z) l :
  rsum (map g l) = rsum (map g (filter (fun e => (0 <? x e)%Z) l)) + rsum (map g (filter (fun e => (x e <? 0)%Z) l)) + rsum (map g (filter (fun e => (x e =? 0)%Z) l)).
Proof.
  unfold rsum. induction l as [|a l IH]; cbn [map filter fold_right]; [ring|]. rewrite IH.
  destruct (Z.ltb_spec 0 (x a)), (Z.ltb_spec (x a) 0), (Z.eqb_spec (x a) 0); try lia; cbn [map fold_right]; ring.
Qed.
Lemma filter_map_comm {A B} (p : B -> bool) (f : A -> B) l : filter p (map f l) = map f (filter (fun a => p (f a)) l).
Proof. induction l as [|a l IH]; [reflexivity|]. cbn. rewrite IH. destruct (p (f a)); reflexivity. Qed.
Lemma filter_rev {A} (p : A -> bool) l : filter p (rev l) = rev (filter p l).
Proof. induction l as [|a l IH]; [reflexivity|]. cbn. rewrite filter_app, IH. cbn. destruct (p a); cbn; [reflexivity|rewrite app_nil_r; reflexivity]. Qed.
Lemma even_moment t k : sym t = true -> M t (2 * k) = M (half t) (2 * k).
Proof.
  intros S0. assert (S := S0). unfold sym in S. destruct list_eq_dec as [E|]; [|discriminate]. clear S.
  unfold M. set (g := fun e : Z * Z => dec (snd e) * dec (fst e) ^ (2 * k)). rewrite (rsum_filter3 g fst).
  assert (N : rsum (map g (filter (fun e => (fst e <? 0)%Z) t)) = rsum (map g (filter (fun e => (0 <? fst e)%Z) t))).
  { rewrite <- E at 1. rewrite filter_rev, filter_map_comm, map_rev, rsum_rev, map_map. cbn [fst].
    rewrite (filter_ext (fun a : Z * Z => (- fst a <? 0)%Z) (fun a => (0 <? fst a)%Z)) by (intros a; destruct (Z.ltb_spec (- fst a) 0), (Z.ltb_spec 0 (fst a)); lia || reflexivity).
    f_equal. apply map_ext. intros e. unfold g. cbn [fst snd]. rewrite dec_opp, !pow_mult. replace ((- dec (fst e)) ^ 2) with (dec (fst e) ^ 2) by ring. reflexivity. }
  rewrite N. unfold half. rewrite map_map. cbn [fst snd]. clear. induction t as [|a t IH]; cbn [filter map]; [unfold rsum; cbn; ring|].
  destruct (Z.ltb_spec 0 (fst a)), (Z.leb_spec 0 (fst a)), (Z.eqb_spec (fst a) 0); try lia; unfold rsum in *; cbn [map fold_right]; try (rewrite <- IH; unfold g).
  - assert (E2 : dec (2 * snd a) = 2 * dec (snd a)) by (unfold dec; rewrite mult_IZR; unfold Rdiv; ring).
    destruct (Z.eqb_spec (fst a) 0); [lia|]. cbn [fst snd]. rewrite E2. ring.
  - destruct (Z.eqb_spec (fst a) 0); [|lia]. cbn [fst snd]. ring.
  - reflexivity.
Qed.

(** ** the powers *)
Definition approx (k : nat) (e : entry) : Prop :=
  let '(x, w, Y, P) := e in
  (0 <= Y <= Sc)%Z /\ (0 <= P <= Sc)%Z /\ Rabs (IZR Y - IZR Sc * dec x ^ 2) <= 1 /\ Rabs (IZR P - IZR Sc * (dec x ^ 2) ^ k) <= 2 * INR k.
Lemma floor_bound a b : (0 < b)%Z -> 0 <= IZR a / IZR b - IZR (a / b) < 1.
Proof.
  intros Hb. assert (B : 0 < IZR b) by (apply (IZR_lt 0); auto). assert (E := Z.div_mod a b ltac:(lia)). assert (Bm := Z.mod_pos_bound a b Hb).
  assert (E2 : IZR a = IZR b * IZR (a / b) + IZR (a mod b)) by (rewrite <- mult_IZR, <- plus_IZR; f_equal; exact E).
  assert (B1 : 0 <= IZR (a mod b)) by (apply IZR_le; lia). assert (B2 : IZR (a mod b) < IZR b) by (apply IZR_lt; lia).
  replace (IZR a / IZR b - IZR (a / b)) with (IZR (a mod b) / IZR b) by (rewrite E2 at 1; field; lra).
  split; [apply Rmult_le_pos; auto; left; apply Rinv_0_lt_compat; auto|]. apply Rmult_lt_reg_r with (IZR b); auto. unfold Rdiv. rewrite Rmult_assoc, Rinv_l by lra. lra.
Qed.
Lemma dec_small x : (Z.abs x < D)%Z -> 0 <= dec x ^ 2 <= 1.
Proof.
  intros H. apply IZR_lt in H. rewrite abs_IZR in H. apply Rabs_def2 in H. rewrite dec_D. assert (A := IZRD).
  assert (Ip := Rinv_0_lt_compat _ A). assert (E1 : IZR D * / IZR D = 1) by (apply Rinv_r; lra). unfold Rdiv. split; [apply pow2_ge_0|]. 
  assert (-1 <= IZR x * / IZR D <= 1) by nra. nra.
Qed.
Lemma start_approx e : (Z.abs (fst e) < D)%Z -> approx 0 (start e).
Proof.
  intros H. destruct e as [x w]. cbn [fst] in H. unfold start, approx. cbn [fst].
  assert (F := floor_bound (x * x * Sc) (D * D) ltac:(reflexivity)).
  assert (E : IZR (x * x * Sc) / IZR (D * D) = IZR Sc * dec x ^ 2). { rewrite dec_D, !mult_IZR. assert (A := IZRD). field. lra. }
  rewrite E in F. assert (S := dec_small x H). assert (Sp := IZRS).
  split; [|split; [|split]].
  - split; [apply Z.div_pos; [apply Z.mul_nonneg_nonneg; [apply Z.square_nonneg|discriminate]|reflexivity]|].
    apply le_IZR. nra.
  - split; [discriminate|lia].
  - rewrite Rabs_minus_sym, Rabs_pos_eq by lra. lra.
  - cbn [pow INR]. rewrite !Rmult_1_r, Rminus_diag_eq, Rabs_R0 by auto. lra.
Qed.
Lemma step_approx k e : (Z.abs (fst (fst (fst e))) < D)%Z -> approx k e -> approx (S k) (fst e, Z.shiftr (snd e * snd (fst e)) sh).
Proof.
  destruct e as [[[x w] Y] P]. cbn [fst snd]. intros H (HY & HP & AY & AP). unfold sh. rewrite Z.shiftr_div_pow2 by discriminate. fold Sc.
  assert (F := floor_bound (P * Y) Sc ltac:(reflexivity)). assert (Sp := IZRS). assert (SD := dec_small x H).
  assert (HPr : 0 <= IZR P <= IZR Sc) by (split; apply IZR_le; lia). assert (HYr : 0 <= IZR Y <= IZR Sc) by (split; apply IZR_le; lia).
  assert (Ip := Rinv_0_lt_compat _ Sp). assert (E1 : IZR Sc * / IZR Sc = 1) by (apply Rinv_r; lra).
  split; [exact HY|]. split; [|split; [exact AY|]].
  - split; [apply Z.div_pos; [apply Z.mul_nonneg_nonneg; lia|reflexivity]|]. apply Z.div_le_upper_bound; [reflexivity|]. apply Z.mul_le_mono_nonneg; lia.
  - set (q := (P * Y / Sc)%Z) in *. rewrite mult_IZR in F. set (y := dec x ^ 2) in *. rewrite S_INR.
    replace (IZR q - IZR Sc * y ^ S k) with (- (IZR P * IZR Y / IZR Sc - IZR q) + (IZR P / IZR Sc * (IZR Y - IZR Sc * y) + (IZR P - IZR Sc * y ^ k) * y)) by (cbn [pow]; field; lra).
    apply Rle_trans with (1 := Rabs_triang _ _). rewrite Rabs_Ropp, (Rabs_pos_eq (IZR P * IZR Y / IZR Sc - IZR q)) by lra.
    assert (T := Rabs_triang (IZR P / IZR Sc * (IZR Y - IZR Sc * y)) ((IZR P - IZR Sc * y ^ k) * y)). rewrite !Rabs_mult in T.
    assert (0 <= IZR P / IZR Sc <= 1) by (unfold Rdiv; split; nra). rewrite (Rabs_pos_eq (IZR P / IZR Sc)), (Rabs_pos_eq y) in T by lra.
    assert (IZR P / IZR Sc * Rabs (IZR Y - IZR Sc * y) <= 1 * 1) by (apply Rmult_le_compat; try lra; apply Rabs_pos).
    assert (Rabs (IZR P - IZR Sc * y ^ k) * y <= 2 * INR k * 1) by (apply Rmult_le_compat; try lra; apply Rabs_pos). lra.
Qed.
Definition close (k : nat) (h : list (Z * Z)) (l : list entry) : Prop := map (fun e => fst (fst e)) l = h /\ List.Forall (approx k) l.
Lemma mstep_close k h l : List.Forall (fun e => (Z.abs (fst e) < D)%Z) h -> close k h l -> close (S k) h (mstep l).
Proof.
  intros Hx [Hm Hc]. unfold mstep. split; [rewrite map_map; cbn [fst]; exact Hm|]. subst h. rewrite List.Forall_forall in *. intros e He.
  apply in_map_iff in He. destruct He as (e0 & <- & He). apply step_approx; [|apply Hc; auto]. apply Hx. apply in_map_iff. exists e0. auto.
Qed.
Lemma msum_close k h l : List.Forall (fun e => (0 < snd e)%Z) h -> close k h l ->
  Rabs (IZR (msum l) - IZR D * IZR Sc * M h (2 * k)) <= 2 * INR k * IZR (fold_right (fun e s => (snd e + s)%Z) 0%Z h).
Proof.
  intros Hw [Hm Hc]. subst h. unfold M. induction l as [|[[[x w] Y] P] l IH]; cbn [msum fold_right map rsum fst snd].
  - rewrite !Rmult_0_r, Rminus_0_r, Rabs_R0. lra.
  - inversion Hw as [|? ? Hw1 Hw2]; subst. inversion Hc as [|? ? Hc0 Hc2]; subst. unfold approx in Hc0. destruct Hc0 as (_ & _ & _ & Hc1). cbn [fst snd] in *. specialize (IH Hw2 Hc2).
    fold (msum l). rewrite !plus_IZR, mult_IZR. unfold rsum in *. rewrite (dec_D w). set (R0 := fold_right Rplus 0 _) in *. rewrite pow_mult.
    assert (A := IZRD). assert (W : 0 < IZR w) by (apply (IZR_lt 0); auto).
    replace (IZR w * IZR P + IZR (msum l) - IZR D * IZR Sc * (IZR w / IZR D * (dec x ^ 2) ^ k + R0))
      with (IZR w * (IZR P - IZR Sc * (dec x ^ 2) ^ k) + (IZR (msum l) - IZR D * IZR Sc * R0)) by (field; lra).
    apply Rle_trans with (1 := Rabs_triang _ _). rewrite Rmult_plus_distr_l. apply Rplus_le_compat; auto.
    rewrite Rabs_mult, (Rabs_pos_eq (IZR w)) by lra. rewrite Rmult_comm. apply Rmult_le_compat_r; lra.
Qed.
Lemma exact_even k : exact (2 * k) = 2 / INR (S (2 * k)).
Proof. unfold exact. cbn [pow]. rewrite pow_1_even. f_equal. ring. Qed.
Lemma exact_odd k : exact (2 * k + 1) = 0.
Proof. unfold exact. replace (S (2 * k + 1)) with (2 * (S k))%nat by lia. rewrite pow_1_even. unfold Rdiv. ring. Qed.

Lemma check_moment h m : forall k l i, List.Forall (fun e => (0 < snd e)%Z) h -> List.Forall (fun e => (Z.abs (fst e) < D)%Z) h ->
  (fold_right (fun e s => (snd e + s)%Z) 0%Z h <= 3 * D)%Z -> close k h l -> check m (Z.of_nat k) l = true -> (k <= i < k + m)%nat ->
  Rabs (M h (2 * i) - exact (2 * i)) <= / 10 ^ 24.
Proof.
  induction m as [|m IH]; intros k l i Hw Hx Hsum Hcl Hc Hi; [lia|]. cbn [check] in Hc. apply andb_true_iff in Hc. destruct Hc as [H1 H2].
  destruct (Nat.eq_dec i k) as [->|Hij].
  - apply Z.leb_le in H1. assert (B := msum_close k h l Hw Hcl). rewrite exact_even.
    assert (J : IZR (2 * Z.of_nat k + 1) = INR (S (2 * k))) by (rewrite INR_IZR_INZ; f_equal; lia).
    apply IZR_le in H1. rewrite abs_IZR, minus_IZR, !mult_IZR, J, minus_IZR, !mult_IZR, <- INR_IZR_INZ in H1.
    assert (PJ : 0 < INR (S (2 * k))) by (apply lt_0_INR; lia).
    replace (INR (S (2 * k)) * IZR (msum l) - 2 * (IZR D * IZR Sc)) with (INR (S (2 * k)) * (IZR (msum l) - 2 / INR (S (2 * k)) * (IZR D * IZR Sc))) in H1 by (field; lra).
    rewrite Rabs_mult, (Rabs_pos_eq (INR (S (2 * k)))) in H1 by lra. apply Rmult_le_reg_l in H1; auto.
    assert (S3 : IZR (fold_right (fun e s => (snd e + s)%Z) 0%Z h) <= 3 * IZR D) by (rewrite <- (mult_IZR 3); apply IZR_le; auto).
    set (ex := 2 / INR (S (2 * k))) in *.
    assert (T : Rabs (IZR D * IZR Sc * (M h (2 * k) - ex)) <= IZR D * IZR (Sc / 10 ^ 24)).
    { replace (IZR D * IZR Sc * (M h (2 * k) - ex)) with (- (IZR (msum l) - IZR D * IZR Sc * M h (2 * k)) + (IZR (msum l) - ex * (IZR D * IZR Sc))) by ring.
      apply Rle_trans with (1 := Rabs_triang _ _). rewrite Rabs_Ropp.
      assert (2 * INR k * IZR (fold_right (fun e s => (snd e + s)%Z) 0%Z h) <= 2 * INR k * (3 * IZR D)) by (apply Rmult_le_compat_l; [assert (P := pos_INR k); lra|auto]). lra. }
    assert (A := IZRD). rewrite Rabs_mult, Rabs_mult, (Rabs_pos_eq (IZR D)), (Rabs_pos_eq (IZR Sc)) in T by (try lra; apply IZR_le; discriminate).
    rewrite Rmult_assoc in T. apply Rmult_le_reg_l in T; auto.
    assert (P24 : 0 < 10 ^ 24) by (apply pow_lt; lra).
    assert (ES : IZR (Sc / 10 ^ 24) <= IZR Sc * / 10 ^ 24).
    { assert (F := floor_bound Sc (10 ^ 24) ltac:(reflexivity)). rewrite (pow_IZR 10 24). change (Z.of_nat 24) with 24%Z. unfold Rdiv in F. lra. }
    apply Rmult_le_reg_l with (IZR Sc); [apply IZRS|]. lra.
  - apply (IH (S k) (mstep l) i); auto; [apply mstep_close; auto| |lia]. rewrite Nat2Z.inj_succ. exact H2.
Qed.
Lemma table_moment t m j : table_ok t m = true -> (j < m)%nat -> Rabs (M t j - exact j) <= / 10 ^ 24.
Proof.
  unfold table_ok. rewrite !andb_true_iff, forallb_forall. intros [[H1 [HS H2]] H3] Hj. apply Z.leb_le in H2.
  assert (Hw : List.Forall (fun e => (0 < snd e)%Z) (half t)).
  { apply List.Forall_forall. intros e He. unfold half in He. apply in_map_iff in He. destruct He as (p & <- & Hp). apply filter_In in Hp. destruct Hp as [Hp _]. specialize (H1 p Hp). apply andb_true_iff in H1. cbn [snd]. destruct (fst p =? 0)%Z; lia. }
  assert (Hx : List.Forall (fun e => (Z.abs (fst e) < D)%Z) (half t)).
  { apply List.Forall_forall. intros e He. unfold half in He. apply in_map_iff in He. destruct He as (p & <- & Hp). apply filter_In in Hp. destruct Hp as [Hp _]. specialize (H1 p Hp). apply andb_true_iff in H1. cbn [fst]. lia. }
  destruct (Nat.Even_or_Odd j) as [[i Ei]|[i Ei]]; subst j.
  - rewrite even_moment by auto. assert (Hd := Nat.div2_odd (m + 1)).
    apply (check_moment (half t) (Nat.div2 (m + 1)) 0 (map start (half t)) i); auto.
    + split; [rewrite map_map; cbn; apply map_id|]. apply List.Forall_forall. intros e He. apply in_map_iff in He. destruct He as (p & <- & Hp). apply start_approx. rewrite List.Forall_forall in Hx. auto.
    + split; [lia|]. destruct (Nat.odd (m + 1)); cbn [Nat.b2n] in Hd; lia.
  - rewrite odd_moment, exact_odd by auto. rewrite Rminus_0_r, Rabs_R0. left. apply Rinv_0_lt_compat, pow_lt. lra.
Qed.

(** ** The tables *)
Definition gl_ok (n : Z) : bool := match gl_table n with Some t => (Z.of_nat (length t) =? n)%Z && table_ok t (2 * Z.to_nat n) | None => false end.
Lemma gl_all : forallb gl_ok gl_allowed = true.
Proof. vm_compute. reflexivity. Qed.
Definition masked (g k : list (Z * Z)) (dup : list bool) : bool :=
  if list_eq_dec Z.eq_dec (map fst g) (map (fun e => fst (fst e)) (filter snd (combine k dup))) then true else false.
Definition gk_ok (n : Z) : bool :=
  match gk_table n with
  | Some (g, k, dup) => (Z.of_nat (length g) =? n)%Z && (Z.of_nat (length k) =? 2 * n + 1)%Z && (length dup =? length k)%nat && masked g k dup &&
      table_ok g (2 * Z.to_nat n) && table_ok k (3 * Z.to_nat n + 2)
  | None => false
  end.
Lemma gk_all : forallb gk_ok gk_allowed = true.
Proof. vm_compute. reflexivity. Qed.

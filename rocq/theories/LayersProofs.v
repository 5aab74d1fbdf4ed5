From Coq Require Import Reals List Arith Lia Lra.
From Coquelicot Require Import Coquelicot.
From Verif Require Import Base PiecewiseModel LayersModel SpecPiecewise SpecPiecewiseApi
  PiecewiseProofs PiecewiseProofs2.
Import ListNotations.
Open Scope R_scope.

Definition lxs (l : list (layer R)) : list R :=
  map lx1 l ++ [match get_last l with Ok a => lx2 a | Err _ => 0 end].

Lemma lxs_length l : length (lxs l) = S (length l).
Proof. unfold lxs. rewrite app_length, map_length; cbn; lia. Qed.

Lemma lxs_at1 l k d : (k < length l)%nat -> at_ (lxs l) k = lx1 (nth k l d).
Proof.
  intros H. unfold at_, lxs. rewrite app_nth1 by (rewrite map_length; auto).
  rewrite (nth_indep _ 0 (lx1 d)) by (rewrite map_length; auto). apply map_nth.
Qed.

Lemma lxs_at2 l k d : contiguous l -> (k < length l)%nat -> at_ (lxs l) (S k) = lx2 (nth k l d).
Proof.
  intros Hc H. destruct (Nat.eq_dec (S k) (length l)) as [E|E].
  - unfold at_, lxs. rewrite app_nth2 by (rewrite map_length; lia).
    rewrite map_length, <- E, Nat.sub_diag. cbn.
    rewrite (get_last_nth l d) by (destruct l; [cbn in H; lia|discriminate]).
    rewrite <- E. replace (S k - 1)%nat with k by lia. reflexivity.
  - rewrite (lxs_at1 l (S k) d) by lia. symmetry. apply Hc; lia.
Qed.

Lemma lxs_nondecr l : contiguous l -> downward l -> nondecr (lxs l).
Proof.
  intros Hc Hd i Hi. rewrite lxs_length in Hi.
  assert (exists d : layer R, True) as [d _] by (exists (mkLayer 0 0 0 0); auto).
  rewrite (lxs_at1 l i d), (lxs_at2 l i d) by (auto; lia).
  left. apply Hd. apply nth_In. lia.
Qed.

Lemma covers_at l a b : covers l a b -> contiguous l ->
  (0 < length l)%nat /\ at_ (lxs l) 0 <= a /\ b <= at_ (lxs l) (length (lxs l) - 1).
Proof.
  intros (f & s & Hf & Hs & Ha & Hb) Hc.
  destruct l as [|f' t]; [discriminate|]. cbn in Hf; inversion Hf; subst f'.
  split; [cbn; lia|]. split.
  - rewrite (lxs_at1 _ 0 f) by (cbn; lia). exact Ha.
  - rewrite lxs_length. replace (S (length (f :: t)) - 1)%nat with (S (length t)) by (cbn; lia).
    rewrite (lxs_at2 _ (length t) f) by (auto; cbn; lia).
    assert (E : get_last (f :: t) = Ok s).
    { unfold get_last. destruct (rev (f :: t)); [discriminate|]. cbn in Hs; inversion Hs; auto. }
    rewrite (get_last_nth (f :: t) f) in E by discriminate.
    replace (length (f :: t) - 1)%nat with (length t) in E by (cbn; lia). assert (E' : nth (length t) (f :: t) f = s) by congruence. rewrite E'. auto.
Qed.

Definition d0 : layer R := mkLayer 0 0 0 0.

(** Generic Chasles over the four index lists. *)
Lemma layers_between_RInt l (f : R -> R) (G : nat -> R -> R -> R) vi vj :
  contiguous l -> downward l -> covers l vi vj -> vi < vj ->
  (forall k a b, (k < length l)%nat -> lx1 (nth k l d0) <= a -> a <= b -> b <= lx2 (nth k l d0) ->
     is_RInt f a b (G k a b)) ->
  exists i1 i2, (i1 <= i2 < length l)%nat /\
    lx1 (nth i1 l d0) <= vi < lx2 (nth i1 l d0) /\ lx1 (nth i2 l d0) < vj <= lx2 (nth i2 l d0) /\
    segment_containing1 (lxs l) (all_segs (lxs l)) true vi = Ok [i1] /\
    segment_containing1 (lxs l) (all_segs (lxs l)) false vj = Ok [i2] /\
    segments_between1 (lxs l) vi vj =
      Ok (if Nat.eqb i1 i2 then ([i1], [], [], []) else ([], [i1], [i2], seq (S i1) (i2 - S i1))) /\
    is_RInt f vi vj
     (if Nat.eqb i1 i2 then G i1 vi vj else
       G i1 vi (lx2 (nth i1 l d0)) +
       (sumn (map (fun k => G k (lx1 (nth k l d0)) (lx2 (nth k l d0))) (seq (S i1) (i2 - S i1))) +
        G i2 (lx1 (nth i2 l d0)) vj)).
Proof.
  intros Hc Hd Hcov Hlt HG.
  destruct (covers_at l vi vj Hcov Hc) as (Hpos & H0 & H1).
  pose proof (lxs_nondecr l Hc Hd) as Hn.
  destruct (segments_between1_lt (lxs l) vi vj) as (i1 & i2 & Hle & Hb & Hi & Hj & Hs1 & Hs2 & Heq); auto.
  { rewrite lxs_length; lia. }
  rewrite lxs_length in Hb.
  assert (L1 : forall k, (k < length l)%nat -> at_ (lxs l) k = lx1 (nth k l d0)) by (intros; apply lxs_at1; auto).
  assert (L2 : forall k, (k < length l)%nat -> at_ (lxs l) (S k) = lx2 (nth k l d0)) by (intros; apply lxs_at2; auto).
  rewrite (L1 i1), (L2 i1) in Hi by lia. rewrite (L1 i2), (L2 i2) in Hj by lia.
  exists i1, i2. repeat split; auto; try lia; try lra.
  destruct (Nat.eqb_spec i1 i2) as [->|Hne].
  - apply HG; try lra; lia.
  - assert (Hmono : forall n k, (S k + n < S (length l))%nat ->
        is_RInt f (at_ (lxs l) (S k)) (at_ (lxs l) (S k + n))
          (sumn (map (fun k => G k (lx1 (nth k l d0)) (lx2 (nth k l d0))) (seq (S k) n)))).
    { induction n as [|n IH]; intros k Hk.
      - rewrite Nat.add_0_r. apply (is_RInt_point f).
      - cbn [seq map sumn]. apply (is_RInt_Chasles f _ (at_ (lxs l) (S (S k)))).
        + rewrite (L1 (S k)), (L2 (S k)) by lia. apply HG; try lia; try lra.
          left. apply Hd, nth_In. lia.
        + replace (S k + S n)%nat with (S (S k) + n)%nat by lia. apply IH. lia. }
    assert (Hm := Hmono (i2 - S i1)%nat i1 ltac:(lia)).
    replace (S i1 + (i2 - S i1))%nat with i2 in Hm by lia.
    rewrite (L2 i1), (L1 i2) in Hm by lia.
    apply (is_RInt_Chasles f vi (lx2 (nth i1 l d0)) vj).
    + apply HG; try lia; lra.
    + apply (is_RInt_Chasles f _ (lx1 (nth i2 l d0)) vj); auto.
      apply HG; try lia; lra.
Qed.

Lemma layer_line_alt a t : layer_line a t =
  ly1 a + (ly2 a - ly1 a) / (lx2 a - lx1 a) * (t - lx1 a).
Proof. unfold layer_line, Rdiv. ring. Qed.

Lemma is_RInt_layer_line l f k a b : downward l -> described_by l f -> (k < length l)%nat ->
  lx1 (nth k l d0) <= a -> a <= b -> b <= lx2 (nth k l d0) ->
  is_RInt f a b ((layer_line (nth k l d0) a + layer_line (nth k l d0) b) * /2 * (b - a)).
Proof.
  intros Hd Hf Hk Ha Hab Hb.
  assert (Hin : In (nth k l d0) l) by (apply nth_In; auto).
  pose proof (Hd _ Hin) as Hlt. set (A := nth k l d0) in *.
  set (q := (ly2 A - ly1 A) / (lx2 A - lx1 A)). set (p := ly1 A - lx1 A * q).
  assert (Hl : forall t, layer_line A t = p + q * t) by (intros t; unfold layer_line, p, q; field; lra).
  apply is_RInt_ext with (f := fun t => p + q * t).
  - intros t. rewrite Rmin_left, Rmax_right by lra. intros Ht. rewrite (Hf A) by (auto; lra). auto.
  - rewrite !Hl. apply is_RInt_linear.
Qed.

Lemma layer_line_top a : layer_line a (lx1 a) = ly1 a.
Proof. unfold layer_line, Rdiv. ring. Qed.
Lemma layer_line_bot a : lx1 a < lx2 a -> layer_line a (lx2 a) = ly2 a.
Proof. intros H. unfold layer_line. field. lra. Qed.

Lemma interp_layers1_in l cm v k : contiguous l -> (k < length l)%nat ->
  segment_containing1 (lxs l) (all_segs (lxs l)) cm v = Ok [k] ->
  interp_layers1 l cm v = Ok (layer_line (nth k l d0) v).
Proof.
  intros Hc Hk Hs. unfold interp_layers1. rewrite allclose_contig by auto. cbn [negb].
  unfold lxs in Hs.
  assert (Hne : l <> []) by (destruct l; [cbn in Hk; lia|discriminate]).
  rewrite (get_last_nth l d0 Hne) in *. cbn [bind]. rewrite Hs. cbn [bind].
  rewrite (get_lt l k d0) by auto. cbn [bind]. rewrite layer_line_alt. reflexivity.
Qed.

Lemma covers_nonempty l a b : covers l a b -> l <> [].
Proof. intros (f & _ & Hf & _). destruct l; [discriminate|discriminate]. Qed.

Lemma lxs_alt l : l <> [] -> exists s, get_last l = Ok s /\ lxs l = map lx1 l ++ [lx2 s].
Proof. intros H. unfold lxs. rewrite (get_last_nth l d0 H). eauto. Qed.

Lemma integrate_layers1_RInt l f vi vj :
  contiguous l -> downward l -> described_by l f -> covers l vi vj -> vi < vj ->
  exists I, integrate_layers1 l vi vj = Ok I /\ is_RInt f vi vj I.
Proof.
  intros Hc Hd Hf Hcov Hlt.
  destruct (layers_between_RInt l f
     (fun k a b => (layer_line (nth k l d0) a + layer_line (nth k l d0) b) * /2 * (b - a)) vi vj)
    as (i1 & i2 & Hii & Hi & Hj & Hs1 & Hs2 & Heq & HI); auto.
  { intros; apply is_RInt_layer_line; auto. }
  eexists; split; [|exact HI].
  unfold integrate_layers1.
  pose proof (interp_layers1_in l true vi i1 Hc ltac:(lia) Hs1) as E1.
  pose proof (interp_layers1_in l false vj i2 Hc ltac:(lia) Hs2) as E2.
  destruct (lxs_alt l (covers_nonempty _ _ _ Hcov)) as (s & Hs & Hx).
  rewrite Hs. cbn [bind]. rewrite <- Hx, Heq. cbn [bind].
  destruct (Nat.eqb_spec i1 i2) as [->|Hne].
  - rewrite E1, E2. cbn [bind mapM app sumn nadd nmul nsub NumR n0]. rewrite nhalf_R, Rplus_0_r. reflexivity.
  - rewrite E1, E2.
    assert (M1 : forall g : nat -> result R, mapM g [] = Ok []) by reflexivity.
    cbn [bind]. rewrite !M1. cbn [bind mapM].
    rewrite (get_lt l i1 d0), (get_lt l i2 d0) by lia. cbn [bind].
    rewrite mapM_map with (g := fun k => (layer_line (nth k l d0) (lx1 (nth k l d0)) + layer_line (nth k l d0) (lx2 (nth k l d0))) * / 2 *
      (lx2 (nth k l d0) - lx1 (nth k l d0))).
    2:{ intros k Hk. apply in_seq in Hk. rewrite (get_lt l k d0) by lia. cbn [bind].
        rewrite layer_line_top, layer_line_bot by (apply Hd, nth_In; lia). rewrite nhalf_R. reflexivity. }
    cbn [bind app sumn]. rewrite sumn_app. cbn [sumn nadd nmul nsub NumR n0].
    rewrite nhalf_R, Rplus_0_r. rewrite layer_line_top, layer_line_bot by (apply Hd, nth_In; lia).
    reflexivity.
Qed.

(** ** Products *)
Lemma is_RInt_product p q r s a b :
  is_RInt (fun t => (p + q * t) * (r + s * t)) a b
    (p * r * (b - a) + (p * s + q * r) * (b ^ 2 - a ^ 2) / 2 + q * s * (b ^ 3 - a ^ 3) / 3).
Proof.
  set (F := fun t => p * r * t + (p * s + q * r) * t ^ 2 / 2 + q * s * t ^ 3 / 3).
  replace (p * r * (b - a) + _ + _) with (minus (F b) (F a))
    by (unfold F, minus, plus, opp; cbn; field).
  apply (is_RInt_derive F).
  - intros t _. unfold F. auto_derive; auto. field.
  - intros t _. apply (ex_derive_continuous (V := R_NormedModule)). auto_derive; auto.
Qed.

Definition prodG (A B : layer R) (a b : R) : R := prod_both A B a b.

Lemma is_RInt_prod_layers la lb f g k a b :
  downward la -> same_x la lb -> described_by la f -> described_by lb g -> (k < length la)%nat ->
  lx1 (nth k la d0) <= a -> a <= b -> b <= lx2 (nth k la d0) ->
  is_RInt (fun t => f t * g t) a b (prodG (nth k la d0) (nth k lb d0) a b).
Proof.
  intros Hd [Hx1 Hx2] Hf Hg Hk Ha Hab Hb.
  assert (Hlen : length la = length lb) by (rewrite <- (map_length lx1 la), Hx1, map_length; auto).
  assert (Hin : In (nth k la d0) la) by (apply nth_In; auto).
  assert (Hinb : In (nth k lb d0) lb) by (apply nth_In; lia).
  assert (E1 : lx1 (nth k la d0) = lx1 (nth k lb d0)) by (rewrite <- !(map_nth lx1), Hx1; auto).
  assert (E2 : lx2 (nth k la d0) = lx2 (nth k lb d0)) by (rewrite <- !(map_nth lx2), Hx2; auto).
  pose proof (Hd _ Hin) as Hlt.
  set (A := nth k la d0) in *. set (B := nth k lb d0) in *.
  set (q := (ly2 A - ly1 A) / (lx2 A - lx1 A)). set (p := ly1 A - lx1 A * q).
  set (s := (ly2 B - ly1 B) / (lx2 B - lx1 B)). set (r := ly1 B - lx1 B * s).
  apply is_RInt_ext with (f := fun t => (p + q * t) * (r + s * t)).
  - intros t. rewrite Rmin_left, Rmax_right by lra. intros Ht.
    rewrite (Hf A), (Hg B) by (auto; rewrite <- ?E1, <- ?E2; lra).
    unfold layer_line, p, q, r, s. rewrite <- E1, <- E2. match goal with |- ?a = ?b => change (@eq R a b) end. field. lra.
  - assert (E : prodG A B a b =
      p * r * (b - a) + (p * s + q * r) * (b ^ 2 - a ^ 2) / 2 + q * s * (b ^ 3 - a ^ 3) / 3).
    { unfold prodG, prod_both, slope, cube, sq. cbn [nadd nmul nsub ndiv nopp nofZ NumR].
      fold q s. unfold p, r. rewrite <- E1. field. }
    rewrite E. apply is_RInt_product.
Qed.

Lemma allclose_refl (x : list R) : allclose rtol_default atol_default x x = true.
Proof.
  unfold allclose. apply forallb_forall. intros [a b] Hin.
  assert (a = b) as ->.
  { revert Hin. induction x as [|h t IH]; cbn; [tauto|]. intros [H|H]; [congruence|auto]. }
  apply isclose_refl.
Qed.

Lemma integrate_product1_RInt la lb f g vi vj :
  contiguous la -> downward la -> same_x la lb -> described_by la f -> described_by lb g ->
  covers la vi vj -> vi < vj ->
  exists I, integrate_product1 la lb vi vj = Ok I /\ is_RInt (fun t => f t * g t) vi vj I.
Proof.
  intros Hc Hd Hsx Hf Hg Hcov Hlt.
  destruct (layers_between_RInt la (fun t => f t * g t)
     (fun k => prodG (nth k la d0) (nth k lb d0)) vi vj)
    as (i1 & i2 & Hii & Hi & Hj & Hs1 & Hs2 & Heq & HI); auto.
  { intros; apply is_RInt_prod_layers; auto. }
  eexists; split; [|exact HI].
  assert (Hlen : length la = length lb) by (rewrite <- (map_length lx1 la), (proj1 Hsx), map_length; auto).
  unfold integrate_product1. rewrite Hlen, Nat.eqb_refl. cbn [negb].
  destruct Hsx as [Hx1 Hx2]. rewrite <- Hx1, <- Hx2, !allclose_refl. cbn [negb orb].
  destruct (lxs_alt la (covers_nonempty _ _ _ Hcov)) as (s & Hs & Hx).
  rewrite Hs. cbn [bind]. rewrite <- Hx, Heq. cbn [bind].
  destruct (Nat.eqb_spec i1 i2) as [->|Hne].
  - cbn [bind mapM]. rewrite (get_lt la i2 d0), (get_lt lb i2 d0) by lia.
    cbn [bind app sumn nadd NumR n0]. rewrite Rplus_0_r. reflexivity.
  - assert (M1 : forall g : nat -> result R, mapM g [] = Ok []) by reflexivity.
    rewrite !M1. cbn [bind mapM].
    rewrite (get_lt la i1 d0), (get_lt la i2 d0), (get_lt lb i1 d0), (get_lt lb i2 d0) by lia. cbn [bind].
    rewrite mapM_map with (g := fun k => prodG (nth k la d0) (nth k lb d0) (lx1 (nth k la d0)) (lx2 (nth k la d0))).
    2:{ intros k Hk. apply in_seq in Hk. rewrite (get_lt la k d0), (get_lt lb k d0) by lia. cbn [bind].
        f_equal. unfold prodG, prod_both, prod_between, cube, sq.
        cbn [nadd nmul nsub ndiv nopp nofZ NumR]. match goal with |- ?a = ?b => change (@eq R a b) end. field. }
    cbn [bind app sumn]. rewrite sumn_app. cbn [sumn nadd NumR n0].
    rewrite Rplus_0_r. f_equal. f_equal; [|f_equal].
    + unfold prodG, prod_both, prod_xi_only, cube, sq.
        cbn [nadd nmul nsub ndiv nopp nofZ NumR]. match goal with |- ?a = ?b => change (@eq R a b) end. field.
    + unfold prodG, prod_both, prod_xj_only, cube, sq.
        cbn [nadd nmul nsub ndiv nopp nofZ NumR]. match goal with |- ?a = ?b => change (@eq R a b) end. field.
Qed.

Lemma described_exists l : contiguous l -> downward l -> exists f, described_by l f.
Proof.
  intros Hc Hd. 
  exists (fun t => match filter (fun a => andb (Rltb (lx1 a) t) (Rltb t (lx2 a))) l with
                   | a :: _ => layer_line a t | [] => 0 end).
  intros a t Hin Ht.
  destruct (filter _ l) as [|b q] eqn:E.
  - exfalso. assert (In a []) by (rewrite <- E; apply filter_In; split; auto;
      apply andb_true_intro; split; apply Rltb_true; lra). auto.
  - assert (Hb : In b l /\ lx1 b < t < lx2 b).
    { assert (In b (b :: q)) by (left; auto). rewrite <- E in H. apply filter_In in H.
      destruct H as [H1 H2]. apply andb_prop in H2. destruct H2 as [H2 H3].
      apply Rltb_true in H2. apply Rltb_true in H3. auto. }
    destruct Hb as [Hb Hbt].
    (* the same layer *)
    apply (In_nth _ _ d0) in Hin. destruct Hin as (i & Hi & <-).
    apply (In_nth _ _ d0) in Hb. destruct Hb as (j & Hj & <-).
    destruct (Nat.eq_dec i j) as [->|Hne]; auto. exfalso.
    pose proof (lxs_nondecr l Hc Hd) as Hn.
    assert (L1 : forall k, (k < length l)%nat -> at_ (lxs l) k = lx1 (nth k l d0)) by (intros; apply lxs_at1; auto).
    assert (L2 : forall k, (k < length l)%nat -> at_ (lxs l) (S k) = lx2 (nth k l d0)) by (intros; apply lxs_at2; auto).
    assert (Hij : (S i <= j)%nat \/ (S j <= i)%nat) by lia.
    destruct Hij as [Hij|Hij].
    + assert (H := nondecr_le (lxs l) Hn (S i) j Hij ltac:(rewrite lxs_length; lia)).
      rewrite L2, L1 in H by auto. lra.
    + assert (H := nondecr_le (lxs l) Hn (S j) i Hij ltac:(rewrite lxs_length; lia)).
      rewrite L2, L1 in H by auto. lra.
Qed.

Lemma interp_layers1_inside l cm v a : contiguous l -> downward l -> In a l ->
  lx1 a < v < lx2 a -> interp_layers1 l cm v = Ok (layer_line a v).
Proof.
  intros Hc Hd Hin Hv. apply (In_nth _ _ d0) in Hin. destruct Hin as (k & Hk & <-).
  apply interp_layers1_in; auto.
  pose proof (lxs_nondecr l Hc Hd) as Hn.
  assert (Hs : in_segment (lxs l) v k).
  { apply in_segment_nondecr; auto. rewrite lxs_length. rewrite (lxs_at1 l k d0), (lxs_at2 l k d0) by auto.
    repeat split; try lia; lra. }
  destruct (segment_containing1_spec (lxs l) cm v) as [[H H']|(i & H & Hi & _)].
  - exfalso. apply (H' k); auto.
  - rewrite H. f_equal. f_equal.
    apply in_segment_nondecr in Hi; auto. apply in_segment_nondecr in Hs; auto.
    destruct Hi as (Hi1 & Hi2 & Hi3). rewrite lxs_length in Hi1.
    destruct (Nat.lt_trichotomy i k) as [E|[E|E]]; auto; exfalso.
    + assert (G := nondecr_le (lxs l) Hn (S i) k E ltac:(rewrite lxs_length; lia)).
      rewrite (lxs_at1 l k d0) in G by auto. lra.
    + assert (G := nondecr_le (lxs l) Hn (S k) i E ltac:(rewrite lxs_length; lia)).
      rewrite (lxs_at2 l k d0) in G by auto. lra.
Qed.

Lemma avg_layers1_spec l f vi vj :
  contiguous l -> downward l -> described_by l f -> covers l vi vj -> vi < vj ->
  exists r, avg_layers1 l vi vj = Ok r /\ is_RInt f vi vj (r * (vj - vi)).
Proof.
  intros Hc Hd Hf Hcov Hlt.
  destruct (integrate_layers1_RInt l f vi vj) as (I & E & HI); auto.
  exists (I / (vj - vi)). unfold avg_layers1. rewrite E. cbn [bind].
  assert (neqb (nsub vj vi) n0 = false) as -> by (apply Reqb_false; cbn; lra).
  split; auto. replace (I / (vj - vi) * (vj - vi)) with I by (field; lra). auto.
Qed.

(** Outside the layers: the value at the nearest end. *)
Lemma interp_layers1_outside l cm v : contiguous l -> downward l -> l <> [] ->
  (v < lx1 (nth 0 l d0) -> interp_layers1 l cm v = Ok (ly1 (nth 0 l d0))) /\
  (lx2 (nth (length l - 1) l d0) < v -> interp_layers1 l cm v = Ok (ly2 (nth (length l - 1) l d0))).
Proof.
  intros Hc Hd Hne. pose proof (lxs_nondecr l Hc Hd) as Hn.
  assert (Hlen : (0 < length l)%nat) by (destruct l; [congruence|cbn; lia]).
  assert (Hord : lx1 (nth 0 l d0) < lx2 (nth (length l - 1) l d0)).
  { assert (lx1 (nth 0 l d0) <= lx1 (nth (length l - 1) l d0)).
    { rewrite <- !lxs_at1 by lia. apply nondecr_le; auto; [lia|]. rewrite lxs_length. lia. }
    assert (Hl := Hd (nth (length l - 1) l d0) ltac:(apply nth_In; lia)). lra. }
  assert (Hout : v < lx1 (nth 0 l d0) \/ lx2 (nth (length l - 1) l d0) < v ->
    segment_containing1 (lxs l) (all_segs (lxs l)) cm v = Ok []).
  { intros Hv. destruct (segment_containing1_spec (lxs l) cm v) as [[H _]|(i & _ & Hi & _)]; auto. exfalso.
    apply in_segment_nondecr in Hi; auto. destruct Hi as (Hi1 & _ & Hi2). rewrite lxs_length in Hi1.
    destruct Hv as [Hv|Hv].
    - assert (G := nondecr_le (lxs l) Hn 0 i ltac:(lia) ltac:(rewrite lxs_length; lia)). rewrite (lxs_at1 l 0 d0) in G by lia. lra.
    - assert (G := nondecr_le (lxs l) Hn (S i) (S (length l - 1)) ltac:(lia) ltac:(rewrite lxs_length; lia)).
      rewrite (lxs_at2 l (length l - 1) d0) in G by (auto; lia). lra. }
  assert (Hgo : v < lx1 (nth 0 l d0) \/ lx2 (nth (length l - 1) l d0) < v ->
    interp_layers1 l cm v = if Rltb (Rabs (v - lx1 (nth 0 l d0))) (Rabs (v - lx2 (nth (length l - 1) l d0)))
                            then Ok (ly1 (nth 0 l d0)) else Ok (ly2 (nth (length l - 1) l d0))).
  { intros Hv. specialize (Hout Hv). unfold interp_layers1. rewrite allclose_contig by auto. cbn [negb].
    unfold lxs in Hout. rewrite (get_last_nth l d0 Hne) in *. cbn [bind]. rewrite Hout. cbn [bind].
    rewrite (get_lt l 0 d0) by auto. cbn [bind]. rewrite !nabs_R. reflexivity. }
  split; intros Hv.
  - rewrite Hgo by auto. rewrite (proj2 (Rltb_true _ _)); auto. rewrite !Rabs_left by lra. lra.
  - rewrite Hgo by auto. rewrite (proj2 (Rltb_false _ _)); auto. rewrite !Rabs_pos_eq by lra. lra.
Qed.
(** On a boundary between two layers: choose_max picks the lower layer's top value, otherwise the upper's bottom. *)
Lemma interp_layers1_boundary l cm k : contiguous l -> downward l -> (S k < length l)%nat ->
  interp_layers1 l cm (lx2 (nth k l d0)) = Ok (if cm then ly1 (nth (S k) l d0) else ly2 (nth k l d0)).
Proof.
  intros Hc Hd Hk. pose proof (lxs_nondecr l Hc Hd) as Hn.
  assert (D := fun i Hi => Hd (nth i l d0) (nth_In l d0 Hi)).
  assert (B : lx2 (nth k l d0) = lx1 (nth (S k) l d0)) by (apply Hc; auto).
  assert (Hin : forall i, in_segment (lxs l) (lx2 (nth k l d0)) i <-> i = k \/ i = S k).
  { intros i. rewrite in_segment_nondecr by auto. rewrite lxs_length. split.
    - intros (H1 & H2 & H3). assert ((i < k)%nat \/ i = k \/ i = S k \/ (S k < i)%nat) as [?|[?|[?|?]]] by lia; auto; exfalso.
      + assert (G := nondecr_le (lxs l) Hn (S i) k ltac:(lia) ltac:(rewrite lxs_length; lia)).
        rewrite (lxs_at1 l k d0) in G by lia. assert (Dk := D k ltac:(lia)). lra.
      + assert (G := nondecr_le (lxs l) Hn (S (S k)) i ltac:(lia) ltac:(rewrite lxs_length; lia)).
        rewrite (lxs_at2 l (S k) d0) in G by (auto; lia). assert (Dk := D (S k) ltac:(lia)). lra.
    - intros [->| ->].
      + rewrite (lxs_at1 l k d0), (lxs_at2 l k d0) by (auto; lia). assert (Dk := D k ltac:(lia)). repeat split; try lia; lra.
      + rewrite (lxs_at1 l (S k) d0), (lxs_at2 l (S k) d0) by (auto; lia). assert (Dk := D (S k) ltac:(lia)). repeat split; try lia; lra. }
  destruct (segment_containing1_spec (lxs l) cm (lx2 (nth k l d0))) as [[_ H]|(i & H & Hi & Hm)].
  - exfalso. apply (H k). apply Hin. auto.
  - apply Hin in Hi. assert (E : i = if cm then S k else k).
    { destruct cm.
      - assert (S k <= i)%nat by (apply Hm; apply Hin; auto). lia.
      - assert (i <= k)%nat by (apply Hm; apply Hin; auto). lia. }
    rewrite (interp_layers1_in l cm _ i) by (auto; destruct cm; lia). f_equal. rewrite E. destruct cm.
    + rewrite B. apply layer_line_top.
    + apply layer_line_bot. apply D. lia.
Qed.

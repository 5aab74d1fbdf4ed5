(** * Proofs about the layered soil: roots, matrix rows, modes *)
From Coq Require Import Reals List Arith ZArith Bool Lia Lra.
From Coquelicot Require Import Coquelicot.
From Verif Require Import Base PiecewiseModel LoadModel RootModel ConstitutiveModel SteinModel SpecPiecewise SpecLoad SpecStein.
Import ListNotations.
Open Scope R_scope.

(** ** Sums *)
Lemma total_S n f : total (S n) f = total n f + f n.
Proof.
  unfold total. rewrite seq_S, map_app. cbn [map plus Nat.add].
  induction (map f (seq 0 n)) as [|a l IH]; cbn [app fold_right]; [ring|]. rewrite IH. ring.
Qed.
Lemma total_0 f : total 0 f = 0. Proof. reflexivity. Qed.
Lemma total_sumn n f : sumn (map f (seq 0 n)) = total n f.
Proof. unfold total. induction (map f (seq 0 n)) as [|a l IH]; [reflexivity|]. cbn [sumn fold_right]. rewrite IH. reflexivity. Qed.
Lemma total_ext n f g : (forall i, (i < n)%nat -> f i = g i) -> total n f = total n g.
Proof. induction n as [|n IH]; intros E; [reflexivity|]. rewrite !total_S, IH by (intros; apply E; lia). rewrite E by lia. reflexivity. Qed.
Lemma total_zero n f : (forall i, (i < n)%nat -> f i = 0) -> total n f = 0.
Proof. induction n as [|n IH]; intros E; [reflexivity|]. rewrite total_S, IH by (intros; apply E; lia). rewrite E by lia. ring. Qed.
Lemma total_split a b f : total (a + b) f = total a f + total b (fun i => f (a + i)%nat).
Proof. induction b as [|b IH]; [rewrite Nat.add_0_r, total_0; ring|]. rewrite Nat.add_succ_r, !total_S, IH. ring. Qed.
Lemma total_plus n f g : total n (fun i => f i + g i) = total n f + total n g.
Proof. induction n as [|n IH]; [rewrite !total_0; ring|]. rewrite !total_S, IH. ring. Qed.
Lemma total_scal n c f : total n (fun i => c * f i) = c * total n f.
Proof. induction n as [|n IH]; [rewrite !total_0; ring|]. rewrite !total_S, IH. ring. Qed.
Lemma total_nonneg n f : (forall i, (i < n)%nat -> 0 <= f i) -> 0 <= total n f.
Proof. induction n as [|n IH]; intros E; [rewrite total_0; lra|]. rewrite total_S. assert (0 <= total n f) by (apply IH; intros; apply E; lia). assert (0 <= f n) by (apply E; lia). lra. Qed.
Lemma total_support4 n k f : (k + 4 <= n)%nat -> (forall c, (c < n)%nat -> (c < k \/ k + 4 <= c)%nat -> f c = 0) ->
  total n f = f k + f (k + 1)%nat + f (k + 2)%nat + f (k + 3)%nat.
Proof.
  intros Hn E. replace n with (k + (4 + (n - k - 4)))%nat by lia. rewrite (total_split k), (total_split 4).
  rewrite (total_zero k) by (intros; apply E; lia). rewrite (total_zero (n - k - 4)) by (intros; apply E; lia).
  rewrite !total_S, total_0. rewrite Nat.add_0_r. ring.
Qed.
Lemma total_support2 n f : (2 <= n)%nat -> (forall c, (c < n)%nat -> (2 <= c)%nat -> f c = 0) -> total n f = f 0%nat + f 1%nat.
Proof.
  intros Hn E. replace n with (2 + (n - 2))%nat by lia. rewrite (total_split 2).
  rewrite (total_zero (n - 2)) by (intros; apply E; lia). rewrite !total_S, total_0. ring.
Qed.
Lemma total_support_last n f : (2 <= n)%nat -> (forall c, (c < n - 2)%nat -> f c = 0) -> total n f = f (n - 2)%nat + f (n - 1)%nat.
Proof.
  intros Hn E. replace n with ((n - 2) + 2)%nat at 1 by lia. rewrite (total_split (n - 2)).
  rewrite (total_zero (n - 2)) by auto. rewrite !total_S, total_0. rewrite Nat.add_0_r. replace (n - 2 + 1)%nat with (n - 1)%nat by lia. ring.
Qed.

Lemma nth_cumsum l : forall acc i, (i < length l)%nat -> nth i (cumsum acc l) 0 = acc + total (S i) (at_ l).
Proof.
  induction l as [|a l IH]; intros acc i Hi; [cbn in Hi; lia|]. cbn [cumsum]. destruct i as [|i].
  - cbn. unfold at_. cbn. ring.
  - cbn [nth]. cbn [length] in Hi. rewrite IH by lia. change (S (S i)) with (1 + S i)%nat. rewrite (total_split 1 (S i)). unfold at_. cbn [nth Nat.add]. rewrite (total_S 0), total_0. ring.
Qed.
Lemma cumsum_length l : forall acc, length (cumsum acc l) = length l.
Proof. induction l as [|a l IH]; intros acc; cbn; auto. Qed.
Lemma nth_grid rows cols f r c : (r < rows)%nat -> (c < cols)%nat -> nth c (nth r (grid rows cols f) []) 0 = f r c.
Proof.
  intros Hr Hc. unfold grid. rewrite nth_indep with (d' := map (f 0%nat) (seq 0 cols)) by (rewrite map_length, seq_length; auto).
  rewrite (map_nth (fun r => map (f r) (seq 0 cols))). rewrite seq_nth by auto. cbn [Nat.add].
  rewrite nth_indep with (d' := f r 0%nat) by (rewrite map_length, seq_length; auto). rewrite map_nth, seq_nth by auto. reflexivity.
Qed.

Section S.
Variable P : stein.
Definition soil_of : soil := mkSoil (s_h P) (s_kv P) (s_mv P).
Hypothesis Hs : is_soil soil_of.
Notation s := soil_of.
Notation N := (nlayers P).

Lemma N_layers : N = layers s. Proof. destruct Hs as (_ & E & _). exact E. Qed.
Lemma N_pos : (1 <= N)%nat. Proof. rewrite N_layers. apply Hs. Qed.
Lemma zlayer_depth i : (i < N)%nat -> zlayer P i = depth s (S i).
Proof. intros Hi. unfold zlayer, zlayers. rewrite nth_cumsum; [unfold depth; cbn [thick soil_of]; ring|]. rewrite N_layers in Hi. exact Hi. Qed.
Lemma zlayer_top i : (i < N)%nat -> zlayer P i - hh P i = depth s i.
Proof. intros Hi. rewrite zlayer_depth by auto. unfold depth. rewrite total_S. unfold hh, at_. cbn [thick soil_of]. ring. Qed.
Lemma hpos i : (i < N)%nat -> 0 < hh P i. Proof. rewrite N_layers. intros Hi. apply Hs. auto. Qed.
Lemma kvpos i : (i < N)%nat -> 0 < kv P i. Proof. rewrite N_layers. intros Hi. apply Hs. auto. Qed.
Lemma mvpos i : (i < N)%nat -> 0 < mv P i. Proof. rewrite N_layers. intros Hi. apply Hs. auto. Qed.
Lemma cvpos i : (i < N)%nat -> 0 < cv P i. Proof. intros Hi. unfold cv. apply Rdiv_lt_0_compat; [apply kvpos|apply mvpos]; auto. Qed.
Lemma depth_mono i j : (i <= j)%nat -> (j <= N)%nat -> depth s i <= depth s j.
Proof.
  intros Hij. induction Hij as [|j Hij IH]; intros Hj; [lra|]. apply Rle_trans with (depth s j); [apply IH; lia|].
  unfold depth. rewrite total_S. pose proof (hpos j ltac:(lia)) as Q. unfold hh in Q. unfold at_. cbn [thick soil_of]. lra.
Qed.
Lemma depth_nonneg i : (i <= N)%nat -> 0 <= depth s i.
Proof. intros Hi. apply Rle_trans with (depth s 0); [unfold depth; rewrite total_0; lra|]. apply depth_mono; lia. Qed.
Lemma depth_step i : (i < N)%nat -> depth s (S i) = depth s i + hh P i.
Proof. intros _. unfold depth. rewrite total_S. unfold hh, at_. reflexivity. Qed.
Lemma depth_pos i : (i < N)%nat -> 0 < depth s (S i).
Proof. intros Hi. rewrite depth_step by auto. pose proof (hpos i Hi). pose proof (depth_nonneg i ltac:(lia)). lra. Qed.

(** ** The roots in each layer *)
Section Root.
Variable b : R.
Hypothesis Hb : 0 < b.
Definition rate : R := cv P 0 * b^2.
Lemma rate_pos : 0 < rate.
Proof. unfold rate. pose proof (cvpos 0 ltac:(pose proof N_pos; lia)). assert (0 < b^2) by (apply pow_lt; auto). apply Rmult_lt_0_compat; auto. Qed.
Lemma beta_sq i : (i < N)%nat -> 0 < beta P b i /\ (beta P b i)^2 = rate * mv P i / kv P i.
Proof.
  assert (F : forall i, (i < N)%nat -> rate * mv P i / kv P i = rate / cv P i).
  { intros j Hj. unfold cv. pose proof (kvpos j Hj). pose proof (mvpos j Hj). field. lra. }
  induction i as [|i IH]; intros Hi.
  - cbn [beta]. split; auto. rewrite F by auto. unfold rate. field. pose proof (cvpos 0 Hi). lra.
  - cbn [beta]. destruct (IH ltac:(lia)) as [B1 B2]. rewrite F in B2 by lia. rewrite B2.
    pose proof (cvpos i ltac:(lia)). pose proof (cvpos (S i) Hi). pose proof rate_pos.
    replace (cv P i / cv P (S i) * (rate / cv P i)) with (rate / cv P (S i)) by (field; lra).
    assert (Q : 0 < rate / cv P (S i)) by (apply Rdiv_lt_0_compat; auto). split; [apply sqrt_lt_R0; auto|].
    rewrite F by auto. apply pow2_sqrt. lra.
Qed.
Lemma beta_pos i : (i < N)%nat -> 0 < beta P b i. Proof. intros Hi. apply beta_sq. auto. Qed.
Lemma beta_wave i : (i < N)%nat -> beta P b i = wave s rate i.
Proof.
  intros Hi. destruct (beta_sq i Hi) as [B1 B2]. unfold wave. cbn [comp perm soil_of]. change (at_ (s_mv P) i) with (mv P i). change (at_ (s_kv P) i) with (kv P i).
  rewrite <- B2. symmetry. apply sqrt_pow2. lra.
Qed.
(** cv beta^2 is the same in every layer *)
Lemma rate_all i : (i < N)%nat -> cv P i * (beta P b i)^2 = rate.
Proof. intros Hi. destruct (beta_sq i Hi) as [_ B]. rewrite B. unfold cv. pose proof (kvpos i Hi). pose proof (mvpos i Hi). field. lra. Qed.

(** ** Rows of the matrix *)
Variable tb : (R * R) * (R * R).
Lemma row_top c : bc_entry P tb b 0 c = if Nat.eqb c 0 then snd (fst tb) * -1 else if Nat.eqb c 1 then fst (fst tb) * b else 0.
Proof. destruct tb as [[a1 b1] [a2 b2]]. reflexivity. Qed.
Lemma row_join i c : (S i < N)%nat -> let z := depth s (S i) in let bt := beta P b in bc_entry P tb b (2 * i + 1) c =
  if Nat.eqb c (2 * i) then cos (bt i * z) else if Nat.eqb c (2 * i + 1) then sin (bt i * z)
  else if Nat.eqb c (2 * i + 2) then - cos (bt (S i) * z) else if Nat.eqb c (2 * i + 3) then - sin (bt (S i) * z) else 0.
Proof.
  intros Hi z bt. unfold bc_entry. destruct tb as [[a1 b1] [a2 b2]]. cbv zeta.
  replace (Nat.eqb (2 * i + 1) 0) with false by (symmetry; apply Nat.eqb_neq; lia).
  replace (Nat.eqb (2 * i + 1) (2 * N - 1)) with false by (symmetry; apply Nat.eqb_neq; lia).
  replace ((2 * i + 1 - 1) / 2)%nat with i by (rewrite Nat.add_sub, Nat.mul_comm, Nat.div_mul; lia).
  replace (Nat.odd (2 * i + 1)) with true by (symmetry; rewrite Nat.odd_spec; exists i; lia).
  rewrite zlayer_depth by lia. replace (i + 1)%nat with (S i) by lia. reflexivity.
Qed.
Lemma row_flow i c : (S i < N)%nat -> let z := depth s (S i) in let bt := beta P b in bc_entry P tb b (2 * i + 2) c =
  if Nat.eqb c (2 * i) then - alpha P i * bt i * sin (bt i * z) else if Nat.eqb c (2 * i + 1) then alpha P i * bt i * cos (bt i * z)
  else if Nat.eqb c (2 * i + 2) then bt (S i) * sin (bt (S i) * z) else if Nat.eqb c (2 * i + 3) then - bt (S i) * cos (bt (S i) * z) else 0.
Proof.
  intros Hi z bt. unfold bc_entry. destruct tb as [[a1 b1] [a2 b2]]. cbv zeta.
  replace (Nat.eqb (2 * i + 2) 0) with false by (symmetry; apply Nat.eqb_neq; lia).
  replace (Nat.eqb (2 * i + 2) (2 * N - 1)) with false by (symmetry; apply Nat.eqb_neq; lia).
  replace ((2 * i + 2 - 1) / 2)%nat with i by (replace (2 * i + 2 - 1)%nat with (1 + i * 2)%nat by lia; rewrite Nat.div_add by lia; reflexivity).
  replace (Nat.odd (2 * i + 2)) with false by (symmetry; rewrite <- Nat.negb_even; apply Bool.negb_false_iff; rewrite Nat.even_spec; exists (S i); lia).
  rewrite zlayer_depth by lia. replace (i + 1)%nat with (S i) by lia. reflexivity.
Qed.
Lemma row_bottom c : let z := depth s N in let bt := beta P b (N - 1) in bc_entry P tb b (2 * N - 1) c =
  if Nat.eqb c (2 * N - 2) then snd (snd tb) * cos (bt * z) - fst (snd tb) * bt * sin (bt * z)
  else if Nat.eqb c (2 * N - 1) then snd (snd tb) * sin (bt * z) + fst (snd tb) * bt * cos (bt * z) else 0.
Proof.
  intros z bt. pose proof N_pos. unfold bc_entry. destruct tb as [[a1 b1] [a2 b2]]. cbv zeta.
  replace (Nat.eqb (2 * N - 1) 0) with false by (symmetry; apply Nat.eqb_neq; lia). rewrite Nat.eqb_refl.
  rewrite zlayer_depth by lia. replace (S (N - 1)) with N by lia. reflexivity.
Qed.
End Root.
End S.

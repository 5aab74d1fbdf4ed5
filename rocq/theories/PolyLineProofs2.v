(** * polyline_make_x_common and PolyLine + PolyLine: the merge *)
From Coq Require Import Reals List Arith Lia Lra Bool Sorted.
From Verif Require Import Base PiecewiseModel LayersModel SpecPiecewise SpecPiecewiseApi
  PiecewiseProofs PiecewiseProofs2 PiecewiseProofs3 LayersProofs PolyLineModel SpecPolyLine.
Import ListNotations.
Open Scope R_scope.

(** ** Sorting *)
Lemma insert_In r l s : In s (insert_row r l) <-> s = r \/ In s l.
Proof.
  induction l as [|h t IH]; cbn; [intuition|]. destruct (Rleb (rx r) (rx h)); cbn; [intuition|]. rewrite IH. intuition.
Qed.
Lemma sort_In l s : In s (sort_rows l) <-> In s l.
Proof. induction l as [|h t IH]; cbn; [tauto|]. rewrite insert_In, IH. intuition. Qed.
Lemma insert_length r l : length (insert_row r l) = S (length l).
Proof. induction l as [|h t IH]; cbn; auto. destruct (Rleb (rx r) (rx h)); cbn; auto. Qed.
Lemma sort_length l : length (sort_rows l) = length l.
Proof. induction l as [|h t IH]; cbn; auto. rewrite insert_length. auto. Qed.
Definition rle (a b : row) : Prop := rx a <= rx b.
Lemma insert_sorted r l : StronglySorted rle l -> StronglySorted rle (insert_row r l).
Proof.
  induction l as [|h t IH]; intros S; cbn; [constructor; constructor|].
  inversion S; subst. destruct (Rleb (rx r) (rx h)) eqn:E.
  - apply Rleb_true in E. constructor; auto. constructor; auto. rewrite Forall_forall in *. intros s Hs. specialize (H2 s Hs). unfold rle in *. lra.
  - apply Rleb_false in E. constructor; auto. rewrite Forall_forall in *. intros s Hs. apply (proj1 (insert_In _ _ _)) in Hs. destruct Hs as [->|Hs]; auto. unfold rle. lra.
Qed.
Lemma sort_sorted l : StronglySorted rle (sort_rows l).
Proof. induction l as [|h t IH]; cbn; [constructor|apply insert_sorted; auto]. Qed.
Lemma filter_insert P x r l : (forall s, P s = true -> rx s = x) ->
  filter P (insert_row r l) = if P r then r :: filter P l else filter P l.
Proof.
  intros H. induction l as [|h t IH]; cbn; [destruct (P r); auto|].
  destruct (Rleb (rx r) (rx h)) eqn:E; cbn; [destruct (P r); auto|].
  rewrite IH. destruct (P r) eqn:Er, (P h) eqn:Eh; auto. exfalso.
  apply Rleb_false in E. rewrite (H _ Er), (H _ Eh) in E. lra.
Qed.
Lemma filter_sort P x l : (forall s, P s = true -> rx s = x) -> filter P (sort_rows l) = filter P l.
Proof.
  intros H. induction l as [|h t IH]; auto. change (sort_rows (h :: t)) with (insert_row h (sort_rows t)). rewrite (filter_insert P x) by auto. rewrite IH. reflexivity.
Qed.

(** ** Rows *)
Lemma rows_xs k ls : map rx (all_rows k ls) = concat (map px ls).
Proof.
  revert k; induction ls as [|p t IH]; intros k; cbn; auto. rewrite map_app, IH. unfold rows_of. rewrite map_map. reflexivity.
Qed.
Lemma filter_rows_of (Q : R * R -> bool) j k p :
  filter (fun r => Q (rx r, ry r) && Nat.eqb (rline r) j) (rows_of k p) = if Nat.eqb k j then rows_of k (filter Q p) else [].
Proof.
  induction p as [|[a b] t IH]; [cbn; destruct (Nat.eqb k j); auto|].
  change (rows_of k ((a, b) :: t)) with (mkRow a b k :: rows_of k t). cbn [filter rx ry rline]. rewrite IH. destruct (Nat.eqb k j) eqn:E.
  - rewrite andb_true_r. destruct (Q (a, b)); reflexivity.
  - rewrite andb_false_r. auto.
Qed.
Lemma filter_all_rows (Q : R * R -> bool) k j ls : (j < length ls)%nat ->
  filter (fun r => Q (rx r, ry r) && Nat.eqb (rline r) (k + j)) (all_rows k ls) = rows_of (k + j) (filter Q (nth j ls [])).
Proof.
  revert k j; induction ls as [|p t IH]; intros k j Hj; cbn in Hj; [lia|]. cbn [all_rows]. rewrite filter_app, filter_rows_of.
  destruct j as [|j].
  - rewrite Nat.add_0_r, Nat.eqb_refl. cbn. replace (filter _ (all_rows (S k) t)) with (@nil row); [rewrite app_nil_r; auto|].
    symmetry. assert (G : forall m, (k < m)%nat -> filter (fun r => Q (rx r, ry r) && Nat.eqb (rline r) k) (all_rows m t) = []).
    { clear. induction t as [|p t IH]; intros m Hm; cbn; auto. rewrite filter_app, filter_rows_of.
      replace (Nat.eqb m k) with false by (symmetry; apply Nat.eqb_neq; lia). cbn. apply IH; lia. }
    apply G; lia.
  - replace (Nat.eqb k (k + S j)) with false by (symmetry; apply Nat.eqb_neq; lia). cbn.
    replace (k + S j)%nat with (S k + j)%nat by lia. apply IH. lia.
Qed.

(** ** Distinct abscissas *)
Fixpoint uniq (l : list R) : list R :=
  match l with
  | a :: ((b :: _) as t) => if Reqb a b then uniq t else a :: uniq t
  | _ => l
  end.
Lemma uniq_In l x : In x (uniq l) <-> In x l.
Proof.
  induction l as [|a [|b t] IH]; try tauto. change (uniq (a :: b :: t)) with (if Reqb a b then uniq (b :: t) else a :: uniq (b :: t)).
  destruct (Reqb a b) eqn:E.
  - apply Reqb_true in E; subst. rewrite IH. cbn. tauto.
  - cbn [In]. rewrite IH. cbn. tauto.
Qed.
Lemma uniq_sorted l : StronglySorted Rle l -> StronglySorted Rlt (uniq l).
Proof.
  induction l as [|a [|b t] IH]; intros S; [constructor|constructor; constructor|].
  change (uniq (a :: b :: t)) with (if Reqb a b then uniq (b :: t) else a :: uniq (b :: t)).
  inversion S as [|? ? S1 F]; subst. destruct (Reqb a b) eqn:E; auto. apply Reqb_false in E.
  constructor; auto. apply Forall_forall. intros x Hx. apply (proj1 (uniq_In _ _)) in Hx. inversion S1 as [|? ? S2 F2]; subst. rewrite Forall_forall in F, F2.
  assert (Hab : a <= b) by (apply F; left; auto). destruct Hx as [Hx|Hx]; [subst; lra|]. specialize (F2 x Hx). lra.
Qed.
Lemma uniq_group x (eqs rest : list R) : (forall e, In e eqs -> e = x) -> eqs <> [] -> (forall e, In e rest -> e <> x) ->
  uniq (eqs ++ rest) = x :: uniq rest.
Proof.
  intros H1 H2 H3. induction eqs as [|a t IH]; [congruence|].
  assert (a = x) by (apply H1; left; auto). subst a. destruct t as [|b t].
  - destruct rest as [|c rest]; auto. cbn [app]. change (uniq (x :: c :: rest)) with (if Reqb x c then uniq (c :: rest) else x :: uniq (c :: rest)).
    rewrite (proj2 (Reqb_false x c)); auto. intros Hc. apply (H3 c); [left; auto|auto].
  - cbn [app]. change (uniq (x :: b :: t ++ rest)) with (if Reqb x b then uniq ((b :: t) ++ rest) else x :: uniq ((b :: t) ++ rest)).
    rewrite (proj2 (Reqb_true x b)). apply IH; [intros; apply H1; right; auto|discriminate]. symmetry; apply H1; right; left; auto.
Qed.

(** ** The loop *)
Definition sep (D : list row) : Prop := forall r s, In r D -> In s D -> distinct_enough (rx r) (rx s).
Lemma tol_pos v : 0 < tol v.
Proof. unfold tol, pl_atol, pl_rtol. pose proof (Rabs_pos v). nra. Qed.
Lemma near_eq D r s : sep D -> In r D -> In s D -> near (rx s) r = Reqb (rx r) (rx s).
Proof.
  intros H Hr Hs. unfold near. destruct (Reqb (rx r) (rx s)) eqn:E.
  - apply Reqb_true in E. apply Rltb_true. rewrite E. replace (rx s - rx s) with 0 by ring. rewrite Rabs_R0. apply tol_pos.
  - apply Reqb_false in E. apply Rltb_false. destruct (H s r Hs Hr) as [Q|G]; [congruence|]. unfold tol, pl_atol, pl_rtol. auto.
Qed.

Lemma where_from_app k (a b : list bool) : where_from k (a ++ b) = where_from k a ++ where_from (k + length a) b.
Proof.
  revert k; induction a as [|[] t IH]; intros k; cbn; [rewrite Nat.add_0_r; auto| |];
   rewrite IH; replace (S k + length t)%nat with (k + S (length t))%nat by lia; auto.
Qed.
Lemma where_from_false k (a : list bool) : (forall b, In b a -> b = false) -> where_from k a = [].
Proof.
  revert k; induction a as [|b t IH]; intros k H; cbn; auto. rewrite (H b) by (left; auto). apply IH. intros; apply H; right; auto.
Qed.
Lemma where_from_true k (a : list bool) : (forall b, In b a -> b = true) -> where_from k a = seq k (length a).
Proof.
  revert k; induction a as [|b t IH]; intros k H; cbn; auto. rewrite (H b) by (left; auto). f_equal. apply IH. intros; apply H; right; auto.
Qed.
Lemma get_last_seq k n : (0 < n)%nat -> get_last (seq k n) = Ok (k + n - 1)%nat.
Proof.
  intros H. destruct n; [lia|]. rewrite seq_S. unfold get_last. rewrite rev_app_distr. cbn. f_equal. lia.
Qed.

(** Cutting the leading equal abscissas off a sorted list. *)
Lemma span_eq (x : R) (l : list row) : StronglySorted rle l -> (forall r, In r l -> x <= rx r) ->
  exists e t, l = e ++ t /\ (forall r, In r e -> rx r = x) /\ (forall r, In r t -> x < rx r).
Proof.
  induction l as [|h l IH]; intros S H.
  - exists [], []. repeat split; auto; intros r [].
  - inversion S; subst. destruct (Req_EM_T (rx h) x) as [E|E].
    + destruct IH as (e & t & -> & He & Ht); auto; [intros; apply H; right; auto|].
      exists (h :: e), t. repeat split; auto. intros r [<-|Hr]; auto.
    + exists [], (h :: l). repeat split; auto; [intros r []|]. intros r [<-|Hr].
      * specialize (H h (or_introl eq_refl)). lra.
      * rewrite Forall_forall in H3. specialize (H3 r Hr). specialize (H h (or_introl eq_refl)). unfold rle in H3. lra.
Qed.

Lemma visit_loop_eq D lines fuel : StronglySorted rle D -> sep D ->
  forall pre suf, D = pre ++ suf -> (forall a b, In a pre -> In b suf -> rx a < rx b) -> (length suf <= fuel)%nat ->
  visit_loop fuel D lines (length pre) = mapM (fun x => vs <- mapM (visit_line D x) lines ;; Ok (x, vs)) (uniq (map rx suf)).
Proof.
  intros SS HS. induction fuel as [|fuel IH]; intros pre suf E Hlt Hf.
  - destruct suf; [|cbn in Hf; lia]. rewrite app_nil_r in E. subst pre. cbn. rewrite Nat.leb_refl. reflexivity.
  - destruct suf as [|r suf].
    { rewrite app_nil_r in E. subst pre. cbn. rewrite Nat.leb_refl. reflexivity. }
    assert (Hlen : Nat.leb (length D) (length pre) = false) by (apply Nat.leb_gt; rewrite E, app_length; cbn; lia).
    cbn [visit_loop]. rewrite Hlen.
    assert (Hg : get D (length pre) = Ok r) by (rewrite E; unfold get; rewrite nth_error_app2, Nat.sub_diag by auto; reflexivity).
    rewrite Hg. cbn [bind].
    assert (Ssuf : StronglySorted rle (r :: suf)).
    { clear - SS E. subst D. induction pre; auto. inversion SS; auto. }
    destruct (span_eq (rx r) (r :: suf) Ssuf) as (e & t & Eet & He & Ht).
    { intros s [<-|Hs]; [lra|]. inversion Ssuf; subst. rewrite Forall_forall in H2. apply (H2 s Hs). }
    assert (Hne : e <> []). { destruct e; [|discriminate]. cbn in Eet. subst t. specialize (Ht r (or_introl eq_refl)). lra. }
    assert (Hin : In r D) by (rewrite E; apply in_or_app; right; left; auto).
    assert (Hlast : last_near D (rx r) = Ok (length pre + length e - 1)%nat).
    { unfold last_near, where_. rewrite E, Eet, !map_app, !where_from_app.
      rewrite where_from_false, where_from_true, where_from_false.
      - rewrite app_nil_r. cbn [app]. rewrite !map_length. rewrite get_last_seq; auto. destruct e; [congruence|cbn; lia].
      - intros b Hb. apply in_map_iff in Hb. destruct Hb as (s & <- & Hs). rewrite (near_eq D s r); auto.
        + apply Reqb_false. specialize (Ht s Hs). lra.
        + rewrite E, Eet. apply in_or_app; right. apply in_or_app; auto.
      - intros b Hb. apply in_map_iff in Hb. destruct Hb as (s & <- & Hs). rewrite (near_eq D s r); auto.
        + apply Reqb_true. auto.
        + rewrite E, Eet. apply in_or_app; right. apply in_or_app; auto.
      - intros b Hb. apply in_map_iff in Hb. destruct Hb as (s & <- & Hs). rewrite (near_eq D s r); auto.
        + apply Reqb_false. specialize (Hlt s r Hs (or_introl eq_refl)). lra.
        + rewrite E. apply in_or_app; auto. }
    rewrite Hlast. rewrite Eet. rewrite map_app, (uniq_group (rx r)); [| | |].
    2:{ intros v Hv. apply in_map_iff in Hv. destruct Hv as (s & <- & Hs). auto. }
    2:{ destruct e; [congruence|discriminate]. }
    2:{ intros v Hv. apply in_map_iff in Hv. destruct Hv as (s & <- & Hs). specialize (Ht s Hs). lra. }
    cbn [mapM]. destruct (mapM (visit_line D (rx r)) lines) as [vs|ex]; auto. cbn [bind].
    assert (He1 : (0 < length e)%nat) by (destruct e; [congruence|cbn; lia]).
    replace (S (length pre + length e - 1)) with (length (pre ++ e)) by (rewrite app_length; lia).
    rewrite (IH (pre ++ e) t).
    + reflexivity.
    + rewrite <- app_assoc, <- Eet. auto.
    + intros a b Ha Hb. specialize (Ht b Hb). apply in_app_or in Ha. destruct Ha as [Ha|Ha].
      * assert (Hrb : rx r < rx b) by auto. specialize (Hlt a r Ha (or_introl eq_refl)). lra.
      * rewrite (He a Ha). auto.
    + assert (length (r :: suf) = (length e + length t)%nat) by (rewrite Eet, app_length; auto). lia.
Qed.

(** ** First and last value at an abscissa (vleft and vright of SpecPolyLine) *)
Lemma last_rows_of k q t : ry (last (rows_of k t) (mkRow (fst q) (snd q) k)) = snd (last t q).
Proof.
  revert q; induction t as [|a t IH]; intros q; auto. destruct t as [|b t]; auto.
  change (last (a :: b :: t) q) with (last (b :: t) q). change (rows_of k (a :: b :: t)) with (mkRow (fst a) (snd a) k :: rows_of k (b :: t)).
  change (rows_of k (b :: t)) with (mkRow (fst b) (snd b) k :: rows_of k t) at 1. 
  change (last (mkRow (fst a) (snd a) k :: mkRow (fst b) (snd b) k :: rows_of k t) (mkRow (fst q) (snd q) k))
    with (last (rows_of k (b :: t)) (mkRow (fst q) (snd q) k)). apply IH.
Qed.

Lemma visit_line_eq ls x k :
  (k < length ls)%nat -> sep (sort_rows (all_rows 0 ls)) -> In x (concat (map px ls)) -> nth k ls [] <> [] ->
  visit_line (sort_rows (all_rows 0 ls)) x (k, nth k ls []) = Ok (vleft (nth k ls []) x, vright (nth k ls []) x).
Proof.
  intros Hk HS Hx Hne. unfold visit_line.
  rewrite <- (rows_xs 0) in Hx. apply in_map_iff in Hx. destruct Hx as (s & Es & Hs).
  assert (Hf : filter (fun r => near x r && Nat.eqb (rline r) k) (sort_rows (all_rows 0 ls)) = rows_of k (at_x x (nth k ls []))).
  { rewrite (filter_ext_in _ (fun r => Reqb (rx r) x && Nat.eqb (rline r) k)).
    - rewrite (filter_sort _ x). apply (filter_all_rows (fun q => Reqb (fst q) x) 0 k ls Hk).
      intros r Hr. apply andb_true_iff in Hr. destruct Hr as [Hr _]. apply Reqb_true in Hr. auto.
    - intros r Hr. f_equal. subst x. apply (near_eq (sort_rows (all_rows 0 ls))); auto. apply sort_In; auto. }
  rewrite Hf. unfold vleft, vright. destruct (at_x x (nth k ls [])) as [|q t] eqn:E; cbn [rows_of map].
  - destruct (interp1_ok (px (nth k ls [])) (py (nth k ls [])) false x) as (v & Ev).
    + unfold px, py. rewrite !map_length. auto.
    + intros C. apply Hne. unfold px in C. apply map_eq_nil in C. auto.
    + rewrite Ev. reflexivity.
  - f_equal. f_equal. apply last_rows_of.
Qed.

(** All visits. *)
Lemma visits_eq ls : ls <> [] -> (forall p, In p ls -> p <> []) -> well_separated ls ->
  exists G, grid_of ls G /\ visits ls = Ok (map (fun x => (x, map (fun p => (vleft p x, vright p x)) ls)) G).
Proof.
  intros Hls Hne W. set (D := sort_rows (all_rows 0 ls)).
  assert (SD : sep D).
  { intros r s Hr Hs. apply W; rewrite <- (rows_xs 0); apply in_map; apply sort_In; auto. }
  exists (uniq (map rx D)). split.
  - split.
    + apply uniq_sorted. pose proof (sort_sorted (all_rows 0 ls)) as S. fold D in S. clear - S. induction S; cbn; constructor; auto.
      rewrite Forall_forall in *. intros y Hy. apply in_map_iff in Hy. destruct Hy as (s & <- & Hs). apply (H s Hs).
    + intros x. rewrite uniq_In. rewrite <- (rows_xs 0). rewrite !in_map_iff. split; intros (r & E & Hr); exists r; split; auto; (apply (proj1 (sort_In _ _)) in Hr; exact Hr) || (apply sort_In; exact Hr).
  - unfold visits. fold D. etransitivity; [apply (visit_loop_eq D (combine (seq 0 (length ls)) ls) (length D) (sort_sorted _) SD [] D); auto; intros a b []|].
    apply mapM_map. intros x Hx. apply (proj1 (uniq_In _ _)) in Hx.
    assert (Hx' : In x (concat (map px ls))).
    { rewrite <- (rows_xs 0). apply in_map_iff in Hx. destruct Hx as (r & <- & Hr). apply in_map. apply (proj1 (sort_In _ _)) in Hr. auto. }
    assert (Hm : mapM (visit_line D x) (combine (seq 0 (length ls)) ls) = Ok (map (fun kp => (vleft (snd kp) x, vright (snd kp) x)) (combine (seq 0 (length ls)) ls))).
    { apply mapM_map. intros [k p] Hin. cbn [snd].
      assert (Hkp : (k < length ls)%nat /\ p = nth k ls []).
      { clear - Hin. assert (G : forall (l : list points) n, In (k, p) (combine (seq n (length l)) l) -> (n <= k < n + length l)%nat /\ p = nth (k - n) l []).
        { induction l as [|q l IH]; intros n Hi; cbn in Hi; [contradiction|]. destruct Hi as [Hi|Hi].
          - inversion Hi; subst. cbn. split; [lia|]. rewrite Nat.sub_diag. auto.
          - apply IH in Hi. destruct Hi as [A B]. cbn. split; [lia|]. replace (k - n)%nat with (S (k - S n)) by lia. auto. }
        apply G in Hin. rewrite Nat.sub_0_r in Hin. cbn in Hin. intuition. }
      destruct Hkp as [Hk ->]. apply visit_line_eq; auto. apply Hne. apply nth_In. auto. }
    rewrite Hm. cbn [bind]. do 2 f_equal. 
    clear. assert (G : forall (l : list points) n, map (fun kp : nat * points => (vleft (snd kp) x, vright (snd kp) x)) (combine (seq n (length l)) l) = map (fun p => (vleft p x, vright p x)) l).
    { induction l; intros n; cbn; auto. f_equal. apply IHl. }
    apply G.
Qed.

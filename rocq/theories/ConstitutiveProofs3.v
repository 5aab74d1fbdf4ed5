(** * PwiseLinearSoilModel and PwiseLinearPermeabilityModel in terms of the curve *)
From Coq Require Import Reals List ZArith Lia Lra Bool.
From Coquelicot Require Import Coquelicot.
From Verif Require Import Base ConstitutiveModel SpecConstitutive ConstitutiveProofs ConstitutiveProofs2.
Import ListNotations.
Open Scope R_scope.

Lemma up_tail a l : strictly_up (a :: l) -> strictly_up l.
Proof. intros D l1 b c l2 E. apply (D (a :: l1) b c l2). rewrite E. auto. Qed.
Lemma any_up l : strictly_up l -> any_diff_le l = false.
Proof.
  induction l as [|a l IH]; intros U; auto. destruct l as [|b l]; auto.
  assert (H := U [] a b l eq_refl). specialize (IH (up_tail _ _ U)).
  cbn [any_diff_le] in *. rewrite Rleb_false by lra. exact IH.
Qed.
Lemma slice_up (keys l : list R) : strictly_up keys -> slice_of keys l = l.
Proof. intros U. unfold slice_of. rewrite any_up by auto. auto. Qed.
Lemma slice_down (keys l : list R) : strictly_down keys -> length keys = length l -> slice_of keys l = rev l.
Proof.
  intros D L. unfold slice_of. destruct keys as [|a [|b k]].
  - destruct l; [auto|discriminate].
  - destruct l as [|? [|? ?]]; [auto|auto|discriminate].
  - assert (H := D [] a b k eq_refl). cbn [any_diff_le]. rewrite Rleb_true by lra. auto.
Qed.
Lemma combine_rev {A B} (xs : list A) (ys : list B) : length xs = length ys -> combine (rev xs) (rev ys) = rev (combine xs ys).
Proof.
  revert ys. induction xs as [|x xs IH]; intros [|y ys] L; try discriminate; auto.
  cbn [rev combine]. rewrite <- IH by (injection L; auto).
  assert (E : forall (a : list A) (b : list B), length a = length b -> combine (a ++ [x]) (b ++ [y]) = combine a b ++ [(x, y)]).
  { induction a as [|u a IHa]; intros [|v b] Lab; try discriminate; auto. cbn. rewrite IHa by (injection Lab; auto). auto. }
  apply E. rewrite !rev_length. injection L; auto.
Qed.
Lemma combine_swap (xs ys : list R) : combine ys xs = map swap (combine xs ys).
Proof. revert ys. induction xs as [|x xs IH]; intros [|y ys]; auto. cbn. rewrite IH. auto. Qed.
Lemma combine_split_at (xs ys : list R) l1 a b l2 : combine xs ys = l1 ++ a :: b :: l2 ->
  exists x1 x2 y1 y2, xs = x1 ++ fst a :: fst b :: x2 /\ ys = y1 ++ snd a :: snd b :: y2.
Proof.
  revert ys l1. induction xs as [|x xs IH]; intros [|y ys] [|c l1] E; try discriminate.
  - cbn in E. destruct xs as [|x' xs]; [discriminate|]. destruct ys as [|y' ys]; [discriminate|].
    cbn in E. injection E as <- <- E. exists [], xs, [], ys. auto.
  - cbn in E. injection E as Ec E. destruct (IH ys l1 E) as (x1 & x2 & y1 & y2 & -> & ->).
    exists (x :: x1), x2, (y :: y1), y2. auto.
Qed.
Lemma upx_combine xs ys : strictly_up xs -> upx (combine xs ys).
Proof. intros U. apply upx_iff. intros l1 a b l2 E. destruct (combine_split_at _ _ _ _ _ _ E) as (x1 & x2 & y1 & y2 & Ex & Ey). apply (U _ _ _ _ Ex). Qed.
Lemma down_combine xs ys : strictly_down ys -> down (combine xs ys).
Proof. intros U l1 a b l2 E. destruct (combine_split_at _ _ _ _ _ _ E) as (x1 & x2 & y1 & y2 & Ex & Ey). apply (U _ _ _ _ Ey). Qed.
Lemma up_rev l : strictly_down l -> strictly_up (rev l).
Proof. intros D l1 a b l2 E. apply rev_split in E. rewrite rev_involutive in E. apply (D _ _ _ _ E). Qed.
Lemma down_rev l : strictly_up l -> strictly_down (rev l).
Proof. intros D l1 a b l2 E. apply rev_split in E. rewrite rev_involutive in E. apply (D _ _ _ _ E). Qed.
Lemma map_split {A B} (f : A -> B) l l1 a b l2 : map f l = l1 ++ a :: b :: l2 ->
  exists k1 c d k2, l = k1 ++ c :: d :: k2 /\ a = f c /\ b = f d.
Proof.
  revert l1. induction l as [|x l IH]; intros [|y l1] E; try discriminate; cbn in E.
  - destruct l as [|x' l]; [discriminate|]. cbn in E. injection E as <- <- _. exists [], x, x', l. auto.
  - injection E as _ E. destruct (IH l1 E) as (k1 & c & d & k2 & -> & -> & ->). exists (x :: k1), c, d, k2. auto.
Qed.
(** plotting coordinates *)

Lemma lg_lt b x y : (b = true -> 0 < x) -> x < y -> lg b x < lg b y.
Proof. destruct b; cbn; intros; auto. apply log10_lt; auto. Qed.
Lemma lg_le b x y : (b = true -> 0 < x) -> x <= y -> lg b x <= lg b y.
Proof. destruct b; cbn; intros; auto. apply log10_le; auto. Qed.
Lemma unlg_lg b x : (b = true -> 0 < x) -> unlg b (lg b x) = x.
Proof. destruct b; cbn; intros; auto. apply pow10_log10; auto. Qed.
Lemma lg_unlg b x : lg b (unlg b x) = x.
Proof. destruct b; cbn; auto. apply log10_pow10. Qed.
Lemma up_lg b l : loggable b l -> strictly_up l -> strictly_up (map (lg b) l).
Proof.
  intros Hb U l1 x y l2 E. destruct (map_split _ _ _ _ _ _ E) as (k1 & c & d & k2 & -> & -> & ->).
  apply lg_lt; [|apply (U _ _ _ _ eq_refl)]. intros Hb'. apply Hb; auto. apply in_or_app. right; left; auto.
Qed.
Lemma down_lg b l : loggable b l -> strictly_down l -> strictly_down (map (lg b) l).
Proof.
  intros Hb U l1 x y l2 E. destruct (map_split _ _ _ _ _ _ E) as (k1 & c & d & k2 & -> & -> & ->).
  apply lg_lt; [|apply (U _ _ _ _ eq_refl)]. intros Hb'. apply Hb; auto. apply in_or_app. right; right; left; auto.
Qed.
Lemma steep_of c l : upx l -> down l -> steeper_than c l -> steep c l.
Proof.
  intros U D S0 l1 a b l2 E. specialize (S0 _ _ _ _ E). specialize (D _ _ _ _ E).
  rewrite upx_iff in U. specialize (U _ _ _ _ E).
  rewrite Rabs_pos_eq in S0 by lra. rewrite Rabs_left in S0 by lra. lra.
Qed.
Lemma steeper_rev c l : steeper_than c l -> steeper_than c (rev l).
Proof.
  intros D l1 a b l2 E. apply rev_split in E. rewrite rev_involutive in E. specialize (D _ _ _ _ E).
  rewrite (Rabs_minus_sym (fst b)), (Rabs_minus_sym (snd b)). exact D.
Qed.

(** The data of a falling curve, given in either order. *)

Lemma in_combine_x (xs ys : list R) x : length xs = length ys -> In x xs -> exists y, In (x, y) (combine xs ys).
Proof.
  revert ys. induction xs as [|a xs IH]; intros [|b ys] L H; try discriminate; [destruct H|].
  destruct H as [->|H]; [exists b; left; auto|]. destruct (IH ys ltac:(injection L; auto) H) as (y & Hy). exists y. right; auto.
Qed.
Lemma in_combine_y (xs ys : list R) y : length xs = length ys -> In y ys -> exists x, In (x, y) (combine xs ys).
Proof.
  revert ys. induction xs as [|a xs IH]; intros [|b ys] L H; try discriminate; [destruct H|].
  destruct H as [->|H]; [exists a; left; auto|]. destruct (IH ys ltac:(injection L; auto) H) as (y' & Hy). exists y'. right; auto.
Qed.
Lemma inx_combine xs ys x : length xs = length ys -> within xs x -> inx (combine xs ys) x.
Proof.
  intros L (a & b & Ha & Hb & H). destruct (in_combine_x xs ys a L Ha) as (y & Hy). destruct (in_combine_x xs ys b L Hb) as (z & Hz).
  exists (a, y), (b, z). auto.
Qed.
Lemma iny_combine xs ys x : length xs = length ys -> within ys x -> iny (combine xs ys) x.
Proof.
  intros L (a & b & Ha & Hb & H). destruct (in_combine_y xs ys a L Ha) as (y & Hy). destruct (in_combine_y xs ys b L Hb) as (z & Hz).
  exists (y, a), (z, b). auto.
Qed.
Lemma inx_rev l x : inx l x -> inx (rev l) x.
Proof. intros (a & b & Ha & Hb & H). exists a, b. repeat split; try apply -> in_rev; auto; lra. Qed.
Lemma iny_rev l x : iny l x -> iny (rev l) x.
Proof. intros (a & b & Ha & Hb & H). exists a, b. repeat split; try apply -> in_rev; auto; lra. Qed.
Lemma within_lg b l x : loggable b l -> (b = true -> 0 < x) -> within l x -> within (map (lg b) l) (lg b x).
Proof.
  intros Hl Hx (u & v & Hu & Hv & H). exists (lg b u), (lg b v). repeat split; try (apply in_map; auto); apply lg_le; auto; try lra; intros; apply Hl; auto.
Qed.

(** the curve sorted by increasing abscissa, and what the model's interpolations are *)
Lemma falling_curve (xs ys kx ky : list R) : length xs = length ys -> xs <> [] ->
  length kx = length xs -> length ky = length ys ->
  (strictly_up kx /\ strictly_down ky /\ strictly_up xs /\ strictly_down ys \/
   strictly_down kx /\ strictly_up ky /\ strictly_down xs /\ strictly_up ys) ->
  exists l, upx l /\ down l /\ (l = combine xs ys \/ l = rev (combine xs ys)) /\
    (forall v, np_interp v (slice_of kx xs) (slice_of kx ys) = Ok (interp1 v l)) /\
    (forall v, np_interp v (slice_of ky ys) (slice_of ky xs) = Ok (interp1 v (flip l))).
Proof.
  intros L Hne Lx Ly [(K1 & K2 & U & D)|(K1 & K2 & D & U)].
  - exists (combine xs ys). split; [apply upx_combine; auto|]. split; [apply down_combine; auto|]. split; [auto|]. split.
    + intros v. rewrite !slice_up by auto. apply np_interp_ok. destruct xs, ys; try discriminate; contradiction.
    + intros v. rewrite !slice_down by (auto; lia). rewrite np_interp_ok.
      * rewrite combine_rev by auto. rewrite combine_swap. reflexivity.
      * rewrite combine_rev by auto. destruct xs as [|x xs]; [contradiction|]. destruct ys as [|y ys]; [discriminate|].
        cbn. destruct (rev (combine ys xs)); discriminate.
  - exists (rev (combine xs ys)). rewrite <- combine_rev by auto.
    split; [apply upx_combine; apply up_rev; auto|]. split; [apply down_combine; apply down_rev; auto|].
    split; [right; rewrite combine_rev by auto; auto|].
    assert (Hne' : combine (rev xs) (rev ys) <> []).
    { rewrite combine_rev by auto. destruct xs as [|x xs]; [contradiction|]. destruct ys as [|y ys]; [discriminate|].
      cbn. destruct (rev (combine xs ys)); discriminate. }
    split.
    + intros v. rewrite !slice_down by (auto; lia). apply np_interp_ok. auto.
    + intros v. rewrite !slice_up by auto. rewrite np_interp_ok.
      * unfold flip. rewrite <- combine_swap. rewrite combine_rev, rev_involutive by auto. reflexivity.
      * destruct xs, ys; try discriminate; contradiction.
Qed.
Lemma rising_curve (xs ys kx ky : list R) : length xs = length ys -> xs <> [] ->
  length kx = length xs -> length ky = length ys ->
  (strictly_up kx /\ strictly_up ky /\ strictly_up xs /\ strictly_up ys \/
   strictly_down kx /\ strictly_down ky /\ strictly_down xs /\ strictly_down ys) ->
  exists l, upx l /\ upx (map swap l) /\ (l = combine xs ys \/ l = rev (combine xs ys)) /\
    (forall v, np_interp v (slice_of kx xs) (slice_of kx ys) = Ok (interp1 v l)) /\
    (forall v, np_interp v (slice_of ky ys) (slice_of ky xs) = Ok (interp1 v (map swap l))).
Proof.
  intros L Hne Lx Ly [(K1 & K2 & U & D)|(K1 & K2 & U & D)].
  - exists (combine xs ys). rewrite <- combine_swap. split; [apply upx_combine; auto|]. split; [apply upx_combine; auto|]. split; [auto|].
    split; intros v; rewrite !slice_up by auto; apply np_interp_ok; destruct xs, ys; try discriminate; contradiction.
  - exists (rev (combine xs ys)). rewrite <- combine_rev by auto. rewrite <- combine_swap.
    split; [apply upx_combine; apply up_rev; auto|]. split; [apply upx_combine; apply up_rev; auto|].
    split; [right; rewrite combine_rev by auto; auto|].
    split; intros v; rewrite !slice_down by (auto; lia); apply np_interp_ok; rewrite combine_rev by auto;
      (destruct xs as [|x xs]; [contradiction|]); (destruct ys as [|y ys]; [discriminate|]); cbn.
    + destruct (rev (combine xs ys)); discriminate.
    + destruct (rev (combine ys xs)); discriminate.
Qed.

(** ** The soil model *)

Lemma pwise_curve m : pwise_ok m ->
  exists l, upx l /\ down l /\ (l = combine (pw_xs m) (pw_ys m) \/ l = rev (combine (pw_xs m) (pw_ys m))) /\
    (forall v, np_interp v (slice_of (pw_siga m) (pw_xs m)) (slice_of (pw_siga m) (pw_ys m)) = Ok (interp1 v l)) /\
    (forall v, np_interp v (slice_of (pw_ea m) (pw_ys m)) (slice_of (pw_ea m) (pw_xs m)) = Ok (interp1 v (flip l))).
Proof.
  intros [L Hne F X Y]. unfold pw_xs, pw_ys. apply falling_curve; try (rewrite !map_length; auto).
  - destruct (pw_siga m); [contradiction|discriminate].
  - destruct F as [(U & D)|(D & U)]; [left|right].
    + split; [auto|]. split; [auto|]. split; [apply up_lg; auto|apply down_lg; auto].
    + split; [auto|]. split; [auto|]. split; [apply down_lg; auto|apply up_lg; auto].
Qed.
Lemma pw_inx m l s : pwise_ok m -> (l = combine (pw_xs m) (pw_ys m) \/ l = rev (combine (pw_xs m) (pw_ys m))) ->
  (pw_xlog m = true -> 0 < s) -> within (pw_siga m) s -> inx l (lg (pw_xlog m) s).
Proof.
  intros Hm Hl Hs Hw. assert (inx (combine (pw_xs m) (pw_ys m)) (lg (pw_xlog m) s)).
  { apply inx_combine; [unfold pw_xs, pw_ys; rewrite !map_length; apply (pwo_len m Hm)|].
    apply within_lg; auto. apply (pwo_x m Hm). }
  destruct Hl as [->| ->]; auto. apply inx_rev; auto.
Qed.
Lemma pw_iny m l s : pwise_ok m -> (l = combine (pw_xs m) (pw_ys m) \/ l = rev (combine (pw_xs m) (pw_ys m))) ->
  (pw_ylog m = true -> 0 < s) -> within (pw_ea m) s -> iny l (lg (pw_ylog m) s).
Proof.
  intros Hm Hl Hs Hw. assert (iny (combine (pw_xs m) (pw_ys m)) (lg (pw_ylog m) s)).
  { apply iny_combine; [unfold pw_xs, pw_ys; rewrite !map_length; apply (pwo_len m Hm)|].
    apply within_lg; auto. apply (pwo_y m Hm). }
  destruct Hl as [->| ->]; auto. apply iny_rev; auto.
Qed.
Lemma within_pos b l x : loggable b l -> within l x -> b = true -> 0 < x.
Proof. intros H (u & v & Hu & _ & Hx) Hb. specialize (H Hb u Hu). lra. Qed.
Lemma lg_Rmax b x y : (b = true -> 0 < x) -> (b = true -> 0 < y) -> lg b (Rmax x y) = Rmax (lg b x) (lg b y).
Proof.
  intros Hx Hy. unfold Rmax at 1. destruct (Rle_dec x y).
  - rewrite Rmax_right; auto. apply lg_le; auto.
  - rewrite Rmax_left; auto. apply lg_le; auto. lra.
Qed.
Lemma pw_roundtrip_nc m s : pwise_ok m -> within (pw_siga m) s ->
  exists e, pw_e_from_stress m s None = Ok e /\ pw_stress_from_e m e None = Ok s.
Proof.
  intros Hm Hs. destruct (pwise_curve m Hm) as (l & U & D & Hl & I1 & I2).
  assert (Ps := within_pos _ _ _ (pwo_x m Hm) Hs).
  unfold pw_e_from_stress, pw_stress_from_e, get_pstress. cbv zeta. rewrite Rmax_left by lra. rewrite I1. cbn [bind].
  eexists. split; [reflexivity|]. rewrite I2. cbn [bind]. rewrite Rminus_eq_0, Rmult_0_r, Rplus_0_r, lg_unlg.
  rewrite interp_inverse; auto; [|apply (pw_inx m); auto]. rewrite unlg_lg by auto. reflexivity.
Qed.
Lemma pw_roundtrip_nc' m e : pwise_ok m -> within (pw_ea m) e ->
  exists s, pw_stress_from_e m e None = Ok s /\ pw_e_from_stress m s None = Ok e.
Proof.
  intros Hm Hs. destruct (pwise_curve m Hm) as (l & U & D & Hl & I1 & I2).
  assert (Ps := within_pos _ _ _ (pwo_y m Hm) Hs).
  unfold pw_e_from_stress, pw_stress_from_e, get_pstress. cbv zeta. rewrite I2. cbn [bind].
  eexists. split; [reflexivity|]. rewrite Rmax_left by lra. rewrite I1. cbn [bind]. rewrite Rminus_eq_0, Rmult_0_r, Rplus_0_r, lg_unlg.
  rewrite interp_inverse'; auto; [|apply (pw_iny m); auto]. rewrite unlg_lg by auto. reflexivity.
Qed.
Lemma pw_steep m l : upx l -> down l -> (l = combine (pw_xs m) (pw_ys m) \/ l = rev (combine (pw_xs m) (pw_ys m))) ->
  steeper_than (pw_Cr m) (combine (pw_xs m) (pw_ys m)) -> steep (pw_Cr m) l.
Proof. intros U D Hl H. apply steep_of; auto. destruct Hl as [->| ->]; auto. apply steeper_rev; auto. Qed.
Lemma pw_roundtrip_oc m p s : pwise_ok m -> 0 < pw_Cr m -> steeper_than (pw_Cr m) (combine (pw_xs m) (pw_ys m)) ->
  within (pw_siga m) p -> (pw_xlog m = true -> 0 < s) -> (p <= s -> within (pw_siga m) s) ->
  exists e, pw_e_from_stress m s (Some p) = Ok e /\ pw_stress_from_e m e (Some p) = Ok s.
Proof.
  intros Hm Hc Hst Hp Hs0 Hs. destruct (pwise_curve m Hm) as (l & U & D & Hl & I1 & I2).
  assert (Pp := within_pos _ _ _ (pwo_x m Hm) Hp). assert (St := pw_steep m l U D Hl Hst).
  unfold pw_e_from_stress, pw_stress_from_e, get_pstress. cbv zeta. rewrite lg_Rmax by auto. rewrite !I1. cbn [bind].
  eexists. split; [reflexivity|]. rewrite I2. cbn [bind]. unfold fdiv. rewrite Reqb_false by lra. cbn [bind]. rewrite lg_unlg.
  f_equal. set (P := lg (pw_xlog m) p). set (X := lg (pw_xlog m) s).
  change (unlg (pw_xlog m) (SS (pw_Cr m) l P (EE (pw_Cr m) l P X)) = s).
  rewrite SS_EE; auto.
  - apply unlg_lg; auto.
  - apply (pw_inx m); auto.
  - intros H. apply (pw_inx m); auto. apply Hs. apply Rnot_lt_le. intros F.
    apply (lg_lt (pw_xlog m)) in F; [|auto]. fold P X in F. lra.
Qed.
Lemma pw_roundtrip_oc' m p e : pwise_ok m -> 0 < pw_Cr m -> steeper_than (pw_Cr m) (combine (pw_xs m) (pw_ys m)) ->
  within (pw_siga m) p -> (pw_ylog m = true -> 0 < e) ->
  (forall ep, pw_e_from_stress m p None = Ok ep -> e <= ep -> within (pw_ea m) e) ->
  exists s, pw_stress_from_e m e (Some p) = Ok s /\ pw_e_from_stress m s (Some p) = Ok e.
Proof.
  intros Hm Hc Hst Hp He0 He. destruct (pwise_curve m Hm) as (l & U & D & Hl & I1 & I2).
  assert (Pp := within_pos _ _ _ (pwo_x m Hm) Hp). assert (St := pw_steep m l U D Hl Hst).
  specialize (He (unlg (pw_ylog m) (interp1 (lg (pw_xlog m) p) l))).
  unfold pw_e_from_stress, pw_stress_from_e, get_pstress in *. cbv zeta in *. rewrite Rmax_left in He by lra. rewrite I1 in He. cbn [bind] in He.
  rewrite Rminus_eq_0, Rmult_0_r, Rplus_0_r in He. specialize (He eq_refl).
  rewrite I2. cbn [bind]. rewrite I1. cbn [bind]. unfold fdiv. rewrite Reqb_false by lra. cbn [bind].
  set (P := lg (pw_xlog m) p) in *. set (Y := lg (pw_ylog m) e).
  exists (unlg (pw_xlog m) (SS (pw_Cr m) l P Y)). split; [reflexivity|].
  set (s := unlg (pw_xlog m) (SS (pw_Cr m) l P Y)).
  assert (Ps : pw_xlog m = true -> 0 < s) by (intros Hx; unfold s; rewrite Hx; cbn; apply pow10_pos).
  rewrite lg_Rmax by auto. rewrite I1. cbn [bind].
  assert (Es : lg (pw_xlog m) s = SS (pw_Cr m) l P Y) by (unfold s; apply lg_unlg). rewrite Es. fold P.
  change (Ok (unlg (pw_ylog m) (EE (pw_Cr m) l P (SS (pw_Cr m) l P Y))) = Ok e).
  rewrite EE_SS; auto.
  - unfold Y. rewrite unlg_lg by auto. auto.
  - apply (pw_inx m); auto.
  - intros H. apply (pw_iny m); auto. apply He. destruct (pw_ylog m) eqn:Hy; cbn in *; auto.
    rewrite <- (pow10_log10 e) by auto. fold Y. unfold pow10.
    assert (ln 10 * Y <= ln 10 * interp1 P l) by (apply Rmult_le_compat_l; auto; pose proof ln10_pos; lra).
    destruct H0 as [H0|H0]; [left; apply exp_increasing; auto|rewrite H0; lra].
Qed.

(** ** The permeability model: rising or falling curves *)

Lemma pk_curve m : pwisek_ok m -> exists l l', upx l /\ upx l' /\
  (forall x y, on_polyline l x y <-> on_polyline l' y x) /\
  (l = combine (pk_xs m) (pk_ys m) \/ l = rev (combine (pk_xs m) (pk_ys m))) /\
  (forall v, iny l v -> inx l' v) /\
  (forall v, np_interp v (slice_of (pk_ka m) (pk_xs m)) (slice_of (pk_ka m) (pk_ys m)) = Ok (interp1 v l)) /\
  (forall v, np_interp v (slice_of (pk_ea m) (pk_ys m)) (slice_of (pk_ea m) (pk_xs m)) = Ok (interp1 v l')).
Proof.
  intros [L Hne F X Y]. destruct F as [F|F].
  - destruct (falling_curve (pk_xs m) (pk_ys m) (pk_ka m) (pk_ea m)) as (l & U & D & Hl & I1 & I2); unfold pk_xs, pk_ys in *; try (rewrite !map_length; auto).
    + destruct (pk_ka m); [contradiction|discriminate].
    + destruct F as [(U & D)|(D & U)]; [left|right].
      * split; [auto|]. split; [auto|]. split; [apply up_lg; auto|apply down_lg; auto].
      * split; [auto|]. split; [auto|]. split; [apply down_lg; auto|apply up_lg; auto].
    + exists l, (flip l). split; auto. split; [apply upx_flip; auto|]. split; [intros; split; [apply on_flip|apply on_flip']|].
      split; [auto|]. split; [intros; apply inx_flip; auto|]. auto.
  - destruct (rising_curve (pk_xs m) (pk_ys m) (pk_ka m) (pk_ea m)) as (l & U & D & Hl & I1 & I2); unfold pk_xs, pk_ys in *; try (rewrite !map_length; auto).
    + destruct (pk_ka m); [contradiction|discriminate].
    + destruct F as [(U & D)|(U & D)]; [left|right].
      * split; [auto|]. split; [auto|]. split; [apply up_lg; auto|apply up_lg; auto].
      * split; [auto|]. split; [auto|]. split; [apply down_lg; auto|apply down_lg; auto].
    + exists l, (map swap l). split; auto. split; auto. split.
      { intros; split; [apply on_swap|]. intros H. rewrite <- (swap_swap l). apply on_swap; auto. }
      split; [auto|]. split; [|auto].
      intros v (a & b & Ha & Hb & H). exists (swap a), (swap b). repeat split; try (apply in_map; auto); cbn; lra.
Qed.
Lemma pk_roundtrip m k : pwisek_ok m -> within (pk_ka m) k ->
  exists e, pk_e_from_k m k = Ok e /\ pk_k_from_e m e = Ok k.
Proof.
  intros Hm Hs. destruct (pk_curve m Hm) as (l & l' & U & U' & Ho & Hl & Hi & I1 & I2).
  assert (Ps := within_pos _ _ _ (pko_x m Hm) Hs).
  unfold pk_e_from_k, pk_k_from_e. rewrite I1. cbn [bind]. eexists. split; [reflexivity|]. rewrite I2. cbn [bind]. rewrite lg_unlg.
  assert (inx l (lg (pk_xlog m) k)).
  { assert (inx (combine (pk_xs m) (pk_ys m)) (lg (pk_xlog m) k)).
    { apply inx_combine; [unfold pk_xs, pk_ys; rewrite !map_length; apply (pko_len m Hm)|]. apply within_lg; auto. apply (pko_x m Hm). }
    destruct Hl as [->| ->]; auto. apply inx_rev; auto. }
  rewrite (interp1_on l' _ (lg (pk_xlog m) k)); auto.
  - rewrite unlg_lg by auto. reflexivity.
  - apply Ho. apply on_interp1; auto.
Qed.
Lemma pk_roundtrip' m e : pwisek_ok m -> within (pk_ea m) e ->
  exists k, pk_k_from_e m e = Ok k /\ pk_e_from_k m k = Ok e.
Proof.
  intros Hm Hs. destruct (pk_curve m Hm) as (l & l' & U & U' & Ho & Hl & Hi & I1 & I2).
  assert (Ps := within_pos _ _ _ (pko_y m Hm) Hs).
  unfold pk_e_from_k, pk_k_from_e. rewrite I2. cbn [bind]. eexists. split; [reflexivity|]. rewrite I1. cbn [bind]. rewrite lg_unlg.
  assert (iny l (lg (pk_ylog m) e)).
  { assert (iny (combine (pk_xs m) (pk_ys m)) (lg (pk_ylog m) e)).
    { apply iny_combine; [unfold pk_xs, pk_ys; rewrite !map_length; apply (pko_len m Hm)|]. apply within_lg; auto. apply (pko_y m Hm). }
    destruct Hl as [->| ->]; auto. apply iny_rev; auto. }
  rewrite (interp1_on l _ (lg (pk_ylog m) e)); auto.
  - rewrite unlg_lg by auto. reflexivity.
  - apply Ho. apply on_interp1; auto. apply (Hi _ H).
Qed.

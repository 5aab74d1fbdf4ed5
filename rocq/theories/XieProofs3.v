From Coq Require Import Reals List Arith Lia Lra.
From Coquelicot Require Import Coquelicot.
From Verif Require Import Base TerzaghiModel SpecTerzaghi TerzaghiProofs TerzaghiProofs2 PropsTerzaghi ConstitutiveModel LnBounds XieModel SpecXie XieProofs XieProofs2.
Import ListNotations.
Local Open Scope R_scope.

Lemma cos2_Mk j : 1 + cos (2 * Mk j) = 0.
Proof. rewrite cos_2a_cos, cos_Mk. ring. Qed.
Lemma grid_ext f g a t : (forall x y, f x y = g x y) -> grid f a t = grid g a t.
Proof. intros E. unfold grid. apply map_ext. intros x. apply map_ext. intros y. apply E. Qed.
Lemma combine_map2 {A B C D} (f : A -> B) (g : A -> C) (h : B * C -> D) l : map h (combine (map f l) (map g l)) = map (fun x => h (f x, g x)) l.
Proof. induction l as [|x l IH]; cbn; [auto|rewrite IH; auto]. Qed.
Lemma combine_self {A C D} (g : A -> C) (h : A * C -> D) l : map h (combine l (map g l)) = map (fun x => h (x, g x)) l.
Proof. induction l as [|x l IH]; cbn; [auto|rewrite IH; auto]. Qed.

Section Cells.
Variable X : xie.
Hypothesis HH : 0 < x_H X.
Hypothesis Hm : 0 < x_mvl X.
Hypothesis Hg : 0 < x_gamw X.
Let H := x_H X. Let kv0 := x_kv0 X. Let mvl := x_mvl X. Let gamw := x_gamw X. Let qu := x_qu X. Let n := x_nterms X.
Let E := exp (- mvl * qu).
Definition WI := wW H kv0 mvl gamw n.
Definition WD := wW (H / 2) kv0 mvl gamw n.
Definition SI := wS H H kv0 mvl gamw qu 0 n.
Definition SD := wS H (H / 2) kv0 mvl gamw qu 1 n.
Lemma end_I j : 0 + cos (Mk j * (H / H)) = 0.
Proof using HH. replace (H / H) with 1 by (field; unfold H; lra). rewrite Rmult_1_r, cos_Mk. ring. Qed.
Lemma end_D j : 1 + cos (Mk j * (H / (H / 2))) = 0.
Proof using HH. replace (Mk j * (H / (H / 2))) with (2 * Mk j) by (field; unfold H; lra). apply cos2_Mk. Qed.
Lemma Tv_I t : x_Tv X t = tz_dTv H kv0 mvl gamw * t.
Proof using HH Hm Hg. unfold x_Tv, x_dTv, x_cv0, tz_dTv, H, kv0, mvl, gamw. field. repeat split; lra. Qed.
Lemma Tv_D t : 4 * x_Tv X t = tz_dTv (H / 2) kv0 mvl gamw * t.
Proof using HH Hm Hg. unfold x_Tv, x_dTv, x_cv0, tz_dTv, H, kv0, mvl, gamw. field. repeat split; lra. Qed.
Lemma e4 M t : -4 * M ^ 2 * x_Tv X t = - M ^ 2 * (tz_dTv (H / 2) kv0 mvl gamw * t).
Proof using HH Hm Hg. rewrite <- Tv_D. ring. Qed.
Lemma half x M : 2 * M * (x / H) = M * (x / (H / 2)).
Proof using HH. field. unfold H; lra. Qed.
Lemma sum_I x t : np_sum (map (fun M => 2 / M * sin (M * (x / H)) * exp (- M ^ 2 * x_Tv X t)) (x_M X)) = WI x t.
Proof using HH Hm Hg. rewrite sum_xM. unfold WI, wW, tz_u. rewrite Rmult_1_l. apply ssum_ext. intros k _. rewrite Tv_I. auto. Qed.
Lemma sum_D x t : np_sum (map (fun M => 2 / M * sin (2 * M * (x / H)) * exp (-4 * M ^ 2 * x_Tv X t)) (x_M X)) = WD x t.
Proof using HH Hm Hg. rewrite sum_xM. unfold WD, wW, tz_u. rewrite Rmult_1_l. apply ssum_ext. intros k _. rewrite e4, half. auto. Qed.
Lemma u_I a t : x_u_PTIB X a t = grid (gu mvl qu WI) a t.
Proof using HH Hm Hg. apply grid_ext. intros x y. cbv zeta. fold H. rewrite sum_I. reflexivity. Qed.
Lemma u_D a t : x_u_PTPB X a t = grid (gu mvl qu WD) a t.
Proof using HH Hm Hg. apply grid_ext. intros x y. cbv zeta. fold H. rewrite sum_D. reflexivity. Qed.
Lemma e_I a t : x_e_PTIB X a t = grid (ge mvl qu (x_e0 X) WI) a t.
Proof using HH Hm Hg. apply grid_ext. intros x y. cbv zeta. fold H. rewrite sum_I. reflexivity. Qed.
Lemma e_D a t : x_e_PTPB X a t = grid (ge mvl qu (x_e0 X) WD) a t.
Proof using HH Hm Hg. apply grid_ext. intros x y. cbv zeta. fold H. rewrite sum_D. reflexivity. Qed.
Lemma s_I a t : x_settlement_PTIB X a t = grid SI a t.
Proof using HH Hm Hg.
  apply grid_ext. intros x y. cbv zeta. unfold SI, wS. rewrite sum_xM. fold H mvl qu n E.
  rewrite (ssum_ext _ (fun j => 2 / Mk j ^ 2 * (0 + cos (Mk j * (x / H))) * exp (- Mk j ^ 2 * (tz_dTv H kv0 mvl gamw * y)))).
  - field. unfold H; lra.
  - intros k _. rewrite Tv_I. ring.
Qed.
Lemma s_D a t : x_settlement_PTPB X a t = grid SD a t.
Proof using HH Hm Hg.
  apply grid_ext. intros x y. cbv zeta. unfold SD, wS. rewrite sum_xM. fold H mvl qu n E.
  rewrite (ssum_ext _ (fun j => / 2 * (2 / Mk j ^ 2 * (1 + cos (Mk j * (x / (H / 2)))) * exp (- Mk j ^ 2 * (tz_dTv (H / 2) kv0 mvl gamw * y))))).
  - rewrite ssum_scal. field. unfold H; lra.
  - intros k _. rewrite e4, half. pose proof (Mk_pos k). field. lra.
Qed.
Lemma us_I t : x_Us_PTIB X t = map (tz_doc H kv0 mvl gamw n) t.
Proof using HH Hm Hg. apply map_ext. intros y. rewrite sum_xM. unfold tz_doc. fold n. rewrite (ssum_ext _ (fun k => 2 / Mk k ^ 2 * exp (- Mk k ^ 2 * (tz_dTv H kv0 mvl gamw * y)))); [ring|]. intros k _. rewrite Tv_I. auto. Qed.
Lemma us_D t : x_Us_PTPB X t = map (tz_doc (H / 2) kv0 mvl gamw n) t.
Proof using HH Hm Hg. apply map_ext. intros y. rewrite sum_xM. unfold tz_doc. fold n. rewrite (ssum_ext _ (fun k => 2 / Mk k ^ 2 * exp (- Mk k ^ 2 * (tz_dTv (H / 2) kv0 mvl gamw * y)))); [ring|]. intros k _. rewrite e4. auto. Qed.
Definition vI (x t : R) : R := x_cv0 X * (1 - E) * (wWa H kv0 mvl gamw n x t - wWa H kv0 mvl gamw n H t).
Definition vD (x t : R) : R := x_cv0 X * (1 - E) * (wWa (H / 2) kv0 mvl gamw n x t - wWa (H / 2) kv0 mvl gamw n H t).
Lemma v_I a t : x_vs_PTIB X a t = grid vI a t.
Proof using HH Hm Hg.
  apply grid_ext. intros x y. cbv zeta. rewrite sum_xM. unfold vI, wWa, tz_uz. fold H mvl qu n E.
  rewrite !Rmult_1_l, <- ssum_minus.
  rewrite (ssum_ext (fun k => cos (Mk k * (x / H)) * exp (- Mk k ^ 2 * x_Tv X y)) (fun k => H / 2 * (2 / H * cos (Mk k * (x / H)) * exp (- Mk k ^ 2 * (tz_dTv H kv0 mvl gamw * y)) -
     2 / H * cos (Mk k * (H / H)) * exp (- Mk k ^ 2 * (tz_dTv H kv0 mvl gamw * y))))).
  - rewrite ssum_scal. field. unfold H; lra.
  - intros k _. replace (cos (Mk k * (H / H))) with 0 by (pose proof (end_I k); lra). rewrite Tv_I. field. unfold H; lra.
Qed.
Lemma v_D a t : x_vs_PTPB X a t = grid vD a t.
Proof using HH Hm Hg.
  apply grid_ext. intros x y. cbv zeta. rewrite sum_xM. unfold vD, wWa, tz_uz. fold H mvl qu n E.
  rewrite !Rmult_1_l, <- ssum_minus.
  rewrite (ssum_ext (fun k => (1 + cos (2 * Mk k * (x / H))) * exp (-4 * Mk k ^ 2 * x_Tv X y)) (fun k => H / 4 * (2 / (H / 2) * cos (Mk k * (x / (H / 2))) * exp (- Mk k ^ 2 * (tz_dTv (H / 2) kv0 mvl gamw * y)) -
     2 / (H / 2) * cos (Mk k * (H / (H / 2))) * exp (- Mk k ^ 2 * (tz_dTv (H / 2) kv0 mvl gamw * y))))).
  - rewrite ssum_scal. field. unfold H; lra.
  - intros k _. replace (cos (Mk k * (H / (H / 2)))) with (-1) by (pose proof (end_D k); lra). rewrite e4, half. field. unfold H; lra.
Qed.
Lemma over_grid f g a t : over (grid f a t) (grid g a t) = grid (fun x y => f x y / g x y) a t.
Proof using. unfold over, grid. rewrite combine_map2. apply map_ext. intros x. cbn [fst snd]. rewrite combine_map2. auto. Qed.
Lemma vw_I a t : x_vw_PTIB X a t = grid (fun x y => vI x y / ge mvl qu (x_e0 X) WI x y) a t.
Proof using HH Hm Hg. unfold x_vw_PTIB. rewrite e_I. pose proof (v_I a t) as V. unfold x_vs_PTIB in V. rewrite V. apply over_grid. Qed.
(** The velocity of the water in terms of the total flow Q through the layer. *)
Definition QD (t : R) : R := - (x_cv0 X * (1 - E) * wWa (H / 2) kv0 mvl gamw n H t).
Lemma vw_D a t : x_vw_PTPB X a t = grid (fun x y => let e := ge mvl qu (x_e0 X) WD x y in ((1 + e) * QD y - vD x y / 2) / e) a t.
Proof using HH Hm Hg.
  unfold x_vw_PTPB. rewrite e_D. unfold grid. rewrite combine_self. apply map_ext. intros x. cbn [fst snd]. rewrite combine_self. apply map_ext. intros y. cbn [fst snd]. cbv zeta.
  set (e := ge mvl qu (x_e0 X) WD x y).
  pose proof (v_D [x] [y]) as V. unfold x_vs_PTPB, grid in V. cbn [map] in V. cbv zeta in V.
  assert (V2 := f_equal (fun l => hd 0 (hd [] l)) V). cbn [hd] in V2. rewrite <- V2. clear V V2.
  assert (Q : np_sum (map (fun M => exp (-4 * M ^ 2 * x_Tv X y)) (x_M X)) * (1 - exp (- x_mvl X * x_qu X)) * (4 * x_cv0 X / x_H X) = QD y).
  { rewrite sum_xM. unfold QD, wWa, tz_uz. fold H mvl qu n E. rewrite Rmult_1_l.
    rewrite (ssum_ext (fun k => exp (-4 * Mk k ^ 2 * x_Tv X y)) (fun k => - (H / 4) * (2 / (H / 2) * cos (Mk k * (H / (H / 2))) * exp (- Mk k ^ 2 * (tz_dTv (H / 2) kv0 mvl gamw * y))))).
    - rewrite ssum_scal. field. unfold H; lra.
    - intros k _. replace (cos (Mk k * (H / (H / 2)))) with (-1) by (pose proof (end_D k); lra). rewrite e4. field. unfold H; lra. }
  rewrite Q. replace (2 * x_cv0 X / x_H X) with (4 * x_cv0 X / x_H X / 2) by (field; lra). unfold Rdiv. ring.
Qed.
Lemma plus_depth_grid f a t : plus_depth a (grid f a t) = grid (fun x y => x + f x y) a t.
Proof using. unfold plus_depth, grid. rewrite combine_self. apply map_ext. intros x. cbn [fst snd]. apply map_map. Qed.
Lemma plus_static_grid f g a t : plus_static X a (grid f a t) (grid g a t) = grid (fun x y => f x y + x_gamw X * (x_Hw X + x + g x y)) a t.
Proof using.
  unfold plus_static, grid. replace (combine (map (fun ai => map (f ai) t) a) (map (fun ai => map (g ai) t) a)) with (map (fun ai => (map (f ai) t, map (g ai) t)) a).
  - rewrite combine_self. apply map_ext. intros x. cbn [fst snd]. rewrite combine_map2. auto.
  - induction a as [|x l IH]; cbn; [auto|rewrite IH; auto].
Qed.
End Cells.

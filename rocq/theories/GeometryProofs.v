(** * Geometry: sums over the edges, the area vector, the plane of a polygon *)
From Coq Require Import Reals List Bool Lia Lra Permutation.
From Coquelicot Require Import Coquelicot.
From Verif Require Import Base GeometryModel SpecGeometry.
Import ListNotations.
Local Open Scope R_scope.

Lemma V3_eq a b : vx a = vx b -> vy a = vy b -> vz a = vz b -> a = b.
Proof. destruct a, b; cbn; intros; subst; auto. Qed.

(** ** Sums over edges *)
Lemma pairs_chain r : forall p z, pairs (p :: r ++ [z]) = chain p r z.
Proof. induction r as [|q r IH]; intros p z; [reflexivity|]. cbn [app chain]. rewrite <- IH. reflexivity. Qed.
Lemma closed_ok pts : pts <> [] -> exists cl, closed pts = Ok cl /\ pairs cl = edges pts.
Proof. destruct pts as [|p r]; intros H; [contradiction|]. eexists. split; [reflexivity|]. apply (pairs_chain r p p). Qed.
Lemma esum_edges f cl pts : pairs cl = edges pts -> esum f cl = rsum (fun e => f (fst e) (snd e)) (edges pts).
Proof. intros H. unfold esum, rsum. rewrite H. auto. Qed.
Lemma rsum_ext {A} (f g : A -> R) l : (forall e, In e l -> f e = g e) -> rsum f l = rsum g l.
Proof. induction l as [|a l IH]; intros H; [auto|]. unfold rsum in *. cbn. rewrite H by (left; auto). rewrite IH; auto. intros; apply H; right; auto. Qed.
Lemma rsum_plus {A} (f g : A -> R) l : rsum (fun e => f e + g e) l = rsum f l + rsum g l.
Proof. induction l as [|a l IH]; unfold rsum in *; cbn; [ring|]. rewrite IH. ring. Qed.
Lemma rsum_minus {A} (f g : A -> R) l : rsum (fun e => f e - g e) l = rsum f l - rsum g l.
Proof. induction l as [|a l IH]; unfold rsum in *; cbn; [ring|]. rewrite IH. ring. Qed.
Lemma rsum_scal {A} k (f : A -> R) l : rsum (fun e => k * f e) l = k * rsum f l.
Proof. induction l as [|a l IH]; unfold rsum in *; cbn; [ring|]. rewrite IH. ring. Qed.
Lemma rsum_app {A} (f : A -> R) l1 l2 : rsum f (l1 ++ l2) = rsum f l1 + rsum f l2.
Proof. induction l1 as [|a l IH]; unfold rsum in *; cbn; [ring|]. rewrite IH. ring. Qed.
Lemma rsum_map {A B} (f : B -> R) (g : A -> B) l : rsum f (map g l) = rsum (fun a => f (g a)) l.
Proof. unfold rsum. rewrite map_map. auto. Qed.
Lemma rsum_perm {A} (f : A -> R) l1 l2 : Permutation l1 l2 -> rsum f l1 = rsum f l2.
Proof. induction 1; unfold rsum in *; cbn; try lra. Qed.
Lemma rsum_zero {A} (f : A -> R) l : (forall e, In e l -> f e = 0) -> rsum f l = 0.
Proof. intros H. rewrite (rsum_ext f (fun _ => 0 * 0)) by (intros; rewrite H by auto; ring). rewrite rsum_scal. ring. Qed.

Lemma tele_chain (g : V3 -> R) r : forall p z, rsum (fun e => g (snd e) - g (fst e)) (chain p r z) = g z - g p.
Proof. induction r as [|q r IH]; intros p z; unfold rsum in *; cbn; [ring|]. rewrite IH. ring. Qed.
Lemma tele (g : V3 -> R) pts : rsum (fun e => g (snd e) - g (fst e)) (edges pts) = 0.
Proof. destruct pts as [|p r]; [reflexivity|]. cbn [edges]. rewrite tele_chain. ring. Qed.
Lemma edges_in pts e : In e (edges pts) -> In (fst e) pts /\ In (snd e) pts.
Proof.
  destruct pts as [|p r]; [intros []|]. cbn [edges].
  assert (G : forall r q z, In e (chain q r z) -> In (fst e) (q :: r) /\ (In (snd e) (q :: r) \/ snd e = z)).
  { clear. induction r as [|a r IH]; intros q z; cbn [chain].
    - intros [<-|[]]. cbn. auto.
    - intros [<-|H]; [cbn; auto|]. destruct (IH a z H) as (H1 & [H2|H2]); cbn in *; intuition. }
  intros H. destruct (G r p p H) as (H1 & [H2|H2]); split; auto. rewrite H2. left. auto.
Qed.
(** A sum over the edges only depends on the terms up to a telescoping difference. *)
Lemma rsum_tele (f h : V3 * V3 -> R) (g : V3 -> R) pts :
  (forall e, In e (edges pts) -> f e = h e + (g (fst e) - g (snd e))) -> rsum f (edges pts) = rsum h (edges pts).
Proof.
  intros H. rewrite (rsum_ext f (fun e => h e - (g (snd e) - g (fst e)))) by (intros e He; rewrite (H e He); ring).
  rewrite rsum_minus, tele. ring.
Qed.

(** ** The vector computed by eqn_of_plane is twice the area vector *)
Lemma newell_x pts : rsum (fun e => (vy (fst e) - vy (snd e)) * (vz (fst e) + vz (snd e))) (edges pts) = 2 * vx (area_vector pts).
Proof.
  unfold area_vector. cbn [vx]. rewrite <- rsum_scal. apply (rsum_tele _ _ (fun p => vy p * vz p)). intros [p q] _. cbn. field.
Qed.
Lemma newell_y pts : rsum (fun e => (vz (fst e) - vz (snd e)) * (vx (fst e) + vx (snd e))) (edges pts) = 2 * vy (area_vector pts).
Proof.
  unfold area_vector. cbn [vy]. rewrite <- rsum_scal. apply (rsum_tele _ _ (fun p => vz p * vx p)). intros [p q] _. cbn. field.
Qed.
Lemma newell_z pts : rsum (fun e => (vx (fst e) - vx (snd e)) * (vy (fst e) + vy (snd e))) (edges pts) = 2 * vz (area_vector pts).
Proof.
  unfold area_vector. cbn [vz]. rewrite <- rsum_scal. apply (rsum_tele _ _ (fun p => vx p * vy p)). intros [p q] _. cbn. field.
Qed.

(** ** Norms *)
Lemma dot_self_ge0 a : 0 <= dot a a.
Proof. unfold dot. nra. Qed.
Lemma norm_0 a : norm a = 0 <-> a = vzero.
Proof.
  unfold norm. split.
  - intros H. apply sqrt_eq_0 in H; [|apply dot_self_ge0]. unfold dot in H.
    assert (vx a * vx a = 0 /\ vy a * vy a = 0 /\ vz a * vz a = 0) as (H1 & H2 & H3).
    { pose proof (Rle_0_sqr (vx a)). pose proof (Rle_0_sqr (vy a)). pose proof (Rle_0_sqr (vz a)). unfold Rsqr in *. repeat split; lra. }
    apply V3_eq; cbn; apply Rsqr_0_uniq; auto.
  - intros ->. unfold dot. cbn. rewrite Rmult_0_l, !Rplus_0_l. apply sqrt_0.
Qed.
Lemma norm_pos a : a <> vzero -> 0 < norm a.
Proof. intros H. assert (0 <= norm a) by apply sqrt_pos. destruct H0; auto. exfalso. apply H. apply norm_0. auto. Qed.
Lemma norm_sq a : norm a * norm a = dot a a.
Proof. unfold norm. apply sqrt_sqrt. apply dot_self_ge0. Qed.
Lemma norm_scal k a : norm (vscal k a) = Rabs k * norm a.
Proof.
  unfold norm. replace (dot (vscal k a) (vscal k a)) with (Rsqr k * dot a a) by (unfold dot, vscal, Rsqr; cbn; ring).
  rewrite sqrt_mult_alt by apply Rle_0_sqr. rewrite sqrt_Rsqr_abs. auto.
Qed.
Lemma norm_unit n : norm n = 1 -> dot n n = 1.
Proof. intros H. rewrite <- norm_sq, H. ring. Qed.

(** ** Vectors in a plane *)
Lemma planar_cross n u v : dot n n = 1 -> dot n u = 0 -> dot n v = 0 -> cross u v = vscal (dot n (cross u v)) n.
Proof.
  intros Hn Hu Hv. set (w := cross u v).
  assert (C : cross n w = vzero).
  { apply V3_eq; unfold w, cross, vzero; cbn.
    - transitivity (vx u * dot n v - vx v * dot n u); [unfold dot; ring|rewrite Hu, Hv; ring].
    - transitivity (vy u * dot n v - vy v * dot n u); [unfold dot; ring|rewrite Hu, Hv; ring].
    - transitivity (vz u * dot n v - vz v * dot n u); [unfold dot; ring|rewrite Hu, Hv; ring]. }
  assert (Cx : vx (cross n w) = 0 /\ vy (cross n w) = 0 /\ vz (cross n w) = 0) by (rewrite C; auto).
  destruct Cx as (C1 & C2 & C3).
  apply V3_eq; cbn [vscal vx vy vz].
  - transitivity (dot n n * vx w); [rewrite Hn; ring|]. transitivity (dot n w * vx n - (vy n * vz (cross n w) - vz n * vy (cross n w))); [unfold dot, cross; cbn; ring|rewrite C2, C3; ring].
  - transitivity (dot n n * vy w); [rewrite Hn; ring|]. transitivity (dot n w * vy n - (vz n * vx (cross n w) - vx n * vz (cross n w))); [unfold dot, cross; cbn; ring|rewrite C1, C3; ring].
  - transitivity (dot n n * vz w); [rewrite Hn; ring|]. transitivity (dot n w * vz n - (vx n * vy (cross n w) - vy n * vx (cross n w))); [unfold dot, cross; cbn; ring|rewrite C1, C2; ring].
Qed.
Lemma cross_shift a p q : vsub (cross (vsub p a) (vsub q a)) (cross p q) = vsub (cross q a) (cross p a).
Proof. apply V3_eq; cbn; ring. Qed.

(** The area vector does not depend on the origin. *)
Lemma area_from pts a :
  area_vector pts = mkV (rsum (fun e => vx (cross (vsub (fst e) a) (vsub (snd e) a)) / 2) (edges pts))
                        (rsum (fun e => vy (cross (vsub (fst e) a) (vsub (snd e) a)) / 2) (edges pts))
                        (rsum (fun e => vz (cross (vsub (fst e) a) (vsub (snd e) a)) / 2) (edges pts)).
Proof.
  unfold area_vector. apply V3_eq; cbn [vx vy vz].
  - apply (rsum_tele _ _ (fun p => vx (cross p (vscal (1/2) a)))). intros [p q] _. cbn. field.
  - apply (rsum_tele _ _ (fun p => vy (cross p (vscal (1/2) a)))). intros [p q] _. cbn. field.
  - apply (rsum_tele _ _ (fun p => vz (cross p (vscal (1/2) a)))). intros [p q] _. cbn. field.
Qed.
(** For a plane polygon it is a multiple of the normal. *)
Lemma area_planar n a pts : in_plane n a pts ->
  area_vector pts = vscal (rsum (fun e => dot n (cross (vsub (fst e) a) (vsub (snd e) a)) / 2) (edges pts)) n.
Proof.
  intros [Hn Hp]. apply norm_unit in Hn. rewrite (area_from pts a). apply V3_eq; cbn [vx vy vz vscal]; rewrite Rmult_comm, <- rsum_scal.
  - apply rsum_ext. intros e He. apply edges_in in He. destruct He as [H1 H2].
    rewrite (planar_cross n (vsub (fst e) a) (vsub (snd e) a)) at 1 by auto. cbn [vscal vx]. field.
  - apply rsum_ext. intros e He. apply edges_in in He. destruct He as [H1 H2].
    rewrite (planar_cross n (vsub (fst e) a) (vsub (snd e) a)) at 1 by auto. cbn [vscal vy]. field.
  - apply rsum_ext. intros e He. apply edges_in in He. destruct He as [H1 H2].
    rewrite (planar_cross n (vsub (fst e) a) (vsub (snd e) a)) at 1 by auto. cbn [vscal vz]. field.
Qed.

(** ** eqn_of_plane *)
Definition unit_normal (pts : list V3) : V3 := vscal (/ norm (area_vector pts)) (area_vector pts).
Definition mean (pts : list V3) : V3 :=
  mkV (vsum vx pts / INR (length pts)) (vsum vy pts / INR (length pts)) (vsum vz pts / INR (length pts)).
Lemma area_nonempty pts : area_vector pts <> vzero -> pts <> [].
Proof. intros H ->. apply H. reflexivity. Qed.
Lemma eqn_ok pts : area_vector pts <> vzero ->
  eqn_of_plane pts = Ok (unit_normal pts, - dot (mean pts) (unit_normal pts)).
Proof.
  intros H. destruct (closed_ok pts (area_nonempty pts H)) as (cl & Ec & Ep). unfold eqn_of_plane. rewrite Ec. cbn [bind]. cbv zeta.
  rewrite !(esum_edges _ cl pts Ep), newell_x, newell_y, newell_z. set (A := area_vector pts) in *.
  assert (N : sqrt (2 * vx A * (2 * vx A) + 2 * vy A * (2 * vy A) + 2 * vz A * (2 * vz A)) = 2 * norm A).
  { transitivity (norm (vscal 2 A)); [|rewrite norm_scal, Rabs_pos_eq by lra; auto]. unfold norm, dot. cbn. f_equal. }
  rewrite N. assert (P := norm_pos A H). unfold fdiv, Reqb. destruct (Req_EM_T (2 * norm A) 0); [lra|]. cbn [bind].
  assert (U : mkV (2 * vx A / (2 * norm A)) (2 * vy A / (2 * norm A)) (2 * vz A / (2 * norm A)) = unit_normal pts).
  { unfold unit_normal. fold A. apply V3_eq; cbn; field; lra. }
  f_equal. rewrite <- U. reflexivity.
Qed.
Lemma unit_normal_1 pts : area_vector pts <> vzero -> norm (unit_normal pts) = 1.
Proof.
  intros H. assert (P := norm_pos _ H). unfold unit_normal. rewrite norm_scal, Rabs_pos_eq by (left; apply Rinv_0_lt_compat; auto). field. lra.
Qed.
Lemma unit_normal_area pts : area_vector pts <> vzero -> area_vector pts = vscal (norm (area_vector pts)) (unit_normal pts).
Proof. intros H. assert (P := norm_pos _ H). unfold unit_normal. apply V3_eq; cbn; field; lra. Qed.
Lemma in_plane_unit pts : proper_face pts -> forall p q, In p pts -> In q pts -> dot (unit_normal pts) (vsub p q) = 0.
Proof.
  intros [(n & a & Hn) HA] p q Hp Hq. assert (E := area_planar n a pts Hn). destruct Hn as [_ Hn].
  unfold unit_normal. rewrite E at 2. transitivity (/ norm (area_vector pts) *
    rsum (fun e => dot n (cross (vsub (fst e) a) (vsub (snd e) a)) / 2) (edges pts) * (dot n (vsub p a) - dot n (vsub q a))).
  - unfold dot, vscal, vsub. cbn. ring.
  - rewrite Hn, Hn by auto. ring.
Qed.
Lemma mean_dot n pts c : pts <> [] -> (forall p, In p pts -> dot n p = c) -> dot (mean pts) n = c.
Proof.
  intros Hne H. assert (L : INR (length pts) <> 0) by (apply not_0_INR; destruct pts; [contradiction|discriminate]).
  transitivity ((vx n * vsum vx pts + vy n * vsum vy pts + vz n * vsum vz pts) / INR (length pts)); [unfold dot, mean; cbn; field; auto|].
  replace (vx n * vsum vx pts + vy n * vsum vy pts + vz n * vsum vz pts) with (INR (length pts) * c); [field; auto|].
  clear Hne L. induction pts as [|p l IH]; [cbn; ring|]. change (length (p :: l)) with (S (length l)). rewrite S_INR.
  rewrite Rmult_plus_distr_r, IH by (intros; apply H; right; auto). rewrite <- (H p) by (left; auto). unfold vsum, dot. cbn. ring.
Qed.
Lemma plane_through pts p : proper_face pts -> In p pts -> dot (unit_normal pts) p + - dot (mean pts) (unit_normal pts) = 0.
Proof.
  intros H Hp. rewrite (mean_dot (unit_normal pts) pts (dot (unit_normal pts) p)).
  - ring.
  - apply area_nonempty. apply H.
  - intros q Hq. assert (E := in_plane_unit pts H q p Hq Hp). unfold dot, vsub in *. cbn [vx vy vz] in E. lra.
Qed.
Lemma in_plane_self pts a : proper_face pts -> dot (unit_normal pts) (vsub a (nth 0 pts vzero)) = 0 -> in_plane (unit_normal pts) a pts.
Proof.
  intros H Ha. split; [apply unit_normal_1; apply H|]. intros p Hp.
  assert (H0 : In (nth 0 pts vzero) pts) by (assert (N := area_nonempty pts (proj2 H)); destruct pts; [contradiction|left; auto]).
  assert (E := in_plane_unit pts H p _ Hp H0). unfold dot, vsub in *. cbn [vx vy vz] in *. lra.
Qed.

(** ** polygon_area *)
Lemma argmax_largest n : largest n (argmax3 n).
Proof.
  unfold largest, argmax3, Rltb. repeat destruct Rlt_dec; (split; [lia|split; intros j Hj]);
    destruct j as [|[|[|j]]]; cbn; try lia; try lra.
Qed.
Lemma largest_unique n i j : largest n i -> largest n j -> i = j.
Proof.
  intros (Hi & Hi1 & Hi2) (Hj & Hj1 & Hj2). destruct (Nat.lt_trichotomy i j) as [L|[L|L]]; auto; exfalso.
  - specialize (Hj2 i L). specialize (Hi1 j Hj). lra.
  - specialize (Hi2 j L). specialize (Hj1 i Hi). lra.
Qed.
Lemma largest_scal k n i : 0 < k -> largest n i -> largest (vscal k n) i.
Proof.
  intros Hk (H & H1 & H2). split; auto.
  assert (C : forall j, comp j (vscal k n) = k * comp j n) by (intros [|[|j]]; reflexivity).
  split; intros j Hj; rewrite !C; [specialize (H1 j Hj)|specialize (H2 j Hj)]; nra.
Qed.
Lemma argmax_area pts i : area_vector pts <> vzero -> largest (area_vector pts) i -> argmax3 (unit_normal pts) = i.
Proof.
  intros H Hi. eapply largest_unique; [apply argmax_largest|]. apply largest_scal; auto. apply Rinv_0_lt_compat. apply norm_pos. auto.
Qed.
Lemma if1_yz pts cl : pairs cl = edges pts -> if1dxdy vy vz cl = vx (area_vector pts).
Proof.
  intros E. unfold if1dxdy. rewrite (esum_edges _ cl pts E). unfold area_vector. cbn [vx].
  apply (rsum_tele _ _ (fun p => - (vy p * vz p / 2))). intros [p q] _. cbn. field.
Qed.
Lemma if1_xz pts cl : pairs cl = edges pts -> if1dxdy vx vz cl = - vy (area_vector pts).
Proof.
  intros E. unfold if1dxdy. rewrite (esum_edges _ cl pts E). unfold area_vector. cbn [vy].
  match goal with |- _ = - ?r => replace (- r) with (-1 * r) by ring end.
  rewrite <- rsum_scal. apply (rsum_tele _ _ (fun p => - (vx p * vz p / 2))). intros [p q] _. cbn. field.
Qed.
Lemma if1_xy pts cl : pairs cl = edges pts -> if1dxdy vx vy cl = vz (area_vector pts).
Proof.
  intros E. unfold if1dxdy. rewrite (esum_edges _ cl pts E). unfold area_vector. cbn [vz].
  apply (rsum_tele _ _ (fun p => - (vx p * vy p / 2))). intros [p q] _. cbn. field.
Qed.
Lemma polygon_area_is pts i : area_vector pts <> vzero -> largest (area_vector pts) i ->
  polygon_area pts = if Req_EM_T (comp i (area_vector pts)) 0 then Err ZeroDivisionError
                     else Ok (match i with 1%nat => - norm (area_vector pts) | _ => norm (area_vector pts) end).
Proof.
  intros H Hi. destruct (closed_ok pts (area_nonempty pts H)) as (cl & Ec & Ep). unfold polygon_area. rewrite Ec. cbn [bind].
  rewrite eqn_ok by auto. cbn [bind fst]. cbv zeta. rewrite (argmax_area pts i) by auto. assert (P := norm_pos _ H).
  assert (D : forall x s, (let A := area_vector pts in fdiv (s * x) (/ norm A * x)) = if Req_EM_T x 0 then Err ZeroDivisionError else Ok (s * norm (area_vector pts))).
  { intros x s. cbv zeta. unfold fdiv, Reqb. destruct (Req_EM_T x 0) as [->|Hx].
    - rewrite Rmult_0_r. destruct (Req_EM_T 0 0); [auto|contradiction].
    - destruct (Req_EM_T (/ norm (area_vector pts) * x) 0) as [E|E].
      + exfalso. apply Rmult_integral in E. assert (Q := Rinv_0_lt_compat _ P). destruct E as [E|E]; [lra|contradiction].
      + f_equal. field. split; auto. lra. }
  cbv zeta in D. destruct Hi as (Hi & _).
  destruct i as [|[|[|i]]]; [| | |lia]; cbn [comp].
  - rewrite (if1_yz pts cl Ep). unfold unit_normal. cbn [vscal vx]. rewrite <- (Rmult_1_l (vx (area_vector pts))) at 1. rewrite D.
    destruct Req_EM_T; auto. f_equal. ring.
  - rewrite (if1_xz pts cl Ep). unfold unit_normal. cbn [vscal vy]. replace (- vy (area_vector pts)) with (-1 * vy (area_vector pts)) by ring. rewrite D.
    destruct Req_EM_T; auto. f_equal. ring.
  - rewrite (if1_xy pts cl Ep). unfold unit_normal. cbn [vscal vz]. rewrite <- (Rmult_1_l (vz (area_vector pts))) at 1. rewrite D.
    destruct Req_EM_T; auto. f_equal. ring.
Qed.

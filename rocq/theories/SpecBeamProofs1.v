(** * Interpolation does not depend on the units *)
From Coq Require Import Reals List Arith ZArith Bool Lia Lra.
From Verif Require Import Base PiecewiseModel PolyLineModel.
Import ListNotations.
Local Open Scope R_scope.

Definition rmap {A B} (f : A -> B) (r : result A) : result B := match r with Ok x => Ok (f x) | Err e => Err e end.
Lemma get_map {A B} (f : A -> B) l i : get (map f l) i = rmap f (get l i).
Proof. unfold get. rewrite nth_error_map. destruct (nth_error l i); reflexivity. Qed.
Lemma get_last_map {A B} (f : A -> B) l : get_last (map f l) = rmap f (get_last l).
Proof. unfold get_last. rewrite <- map_rev. destruct (rev l); reflexivity. Qed.
Lemma filterM_ext {A} (f g : A -> result bool) l : (forall a, f a = g a) -> filterM f l = filterM g l.
Proof. intros H. induction l as [|a l IH]; [reflexivity|]. cbn. rewrite H, IH. reflexivity. Qed.
Lemma mapM_rmap {A B} (f g : A -> result B) (k : B -> B) l : (forall a, f a = rmap k (g a)) -> mapM f l = rmap (map k) (mapM g l).
Proof. intros H. induction l as [|a l IH]; [reflexivity|]. cbn. rewrite H, IH. destruct (g a); [|reflexivity]. cbn. destruct (mapM g l); reflexivity. Qed.

Lemma last_in {A} (t : list A) h d : In (last (h :: t) d) (h :: t).
Proof. revert h. induction t as [|a t IH]; intros h; [left; reflexivity|]. right. apply IH. Qed.
Section S.
Variables (c d : R).
Hypothesis Hc : 0 < c.
Lemma leb_abs a b : Rleb (nabs (a * c)) (nabs (b * c)) = Rleb (nabs a) (nabs b).
Proof.
  rewrite !nabs_R, !Rabs_mult, (Rabs_pos_eq c) by lra. destruct (Rleb (Rabs a) (Rabs b)) eqn:E; [apply Rleb_true in E; apply Rleb_true; nra|apply Rleb_false in E; apply Rleb_false; nra].
Qed.
Lemma ltb_abs a b : Rltb (nabs (a * c)) (nabs (b * c)) = Rltb (nabs a) (nabs b).
Proof.
  rewrite !nabs_R, !Rabs_mult, (Rabs_pos_eq c) by lra. destruct (Rltb (Rabs a) (Rabs b)) eqn:E; [apply Rltb_true in E; apply Rltb_true; nra|apply Rltb_false in E; apply Rltb_false; nra].
Qed.
Lemma seg_mask_scale x v s : seg_mask (map (fun a => a * c) x) (v * c) s = seg_mask x v s.
Proof.
  unfold seg_mask. rewrite !get_map. destruct (get x s) as [a|]; [|reflexivity]. destruct (get x (S s)) as [b|]; [|reflexivity]. cbn [rmap bind nsub nleb neqb NumR].
  rewrite <- !Rmult_minus_distr_r, !leb_abs. do 3 f_equal. destruct (Reqb a b) eqn:E; [apply Reqb_true in E; apply Reqb_true; subst; reflexivity|apply Reqb_false in E; apply Reqb_false; intros H; apply E; nra].
Qed.
Lemma interp1_scale x y b v : length x = length y -> interp1 (map (fun a => a * c) x) (map (fun a => a * d) y) b (v * c) = rmap (fun a => a * d) (interp1 x y b v).
Proof.
  intros HL. unfold interp1, segment_containing1, all_segs. rewrite map_length. rewrite (filterM_ext _ (seg_mask x v)) by (intros; apply seg_mask_scale).
  destruct (filterM (seg_mask x v) (seq 0 (length x - 1))) as [l|] eqn:EF; [|reflexivity]. cbn [bind]. destruct (match l with [] => [] | h :: _ => if b then [last l h] else [h] end) as [|j tl] eqn:EJ.
  - rewrite !get_map, !get_last_map. destruct (get x 0) as [x0|]; [|reflexivity]. cbn [rmap bind]. destruct (get_last x) as [xl|]; [|reflexivity]. cbn [rmap bind nsub nltb NumR]. rewrite <- !Rmult_minus_distr_r, ltb_abs. destruct (Rltb _ _); reflexivity.
  - rewrite !get_map. destruct (get y j) as [yj|]; [|reflexivity]. cbn [rmap bind]. destruct (get y (S j)) as [yk|]; [|reflexivity]. cbn [rmap bind]. destruct (get x j) as [xj|] eqn:E1; [|reflexivity]. cbn [rmap bind]. destruct (get x (S j)) as [xk|] eqn:E2; [|reflexivity]. cbn [rmap bind nsub nadd nmul ndiv NumR].
    f_equal. assert (NE : xk - xj <> 0).
    { assert (IN : In j l). { destruct l as [|h t]; [discriminate|]. destruct b; injection EJ as <- _; [|left; reflexivity]. exact (last_in t h h). }
      assert (FM : forall s, In s l -> seg_mask x v s = Ok true).
      { clear - EF. revert l EF. induction (seq 0 (length x - 1)) as [|a q IH]; intros l EF; cbn in EF; [injection EF as <-; intros s []|]. destruct (seg_mask x v a) as [m|] eqn:EM; [|discriminate]. cbn in EF. destruct (filterM (seg_mask x v) q) as [r|]; [|discriminate]. cbn in EF. injection EF as <-.
        intros s Hs. destruct m; [destruct Hs as [<-|Hs]; auto|]; apply (IH r); auto. }
      apply FM in IN. unfold seg_mask in IN. rewrite E1, E2 in IN. cbn [bind] in IN. injection IN as IN. apply andb_prop in IN as [_ IN]. apply negb_true_iff in IN. cbn [neqb NumR] in IN. apply Reqb_false in IN. lra. }
    replace (xk * c - xj * c) with ((xk - xj) * c) by ring. field. lra.
Qed.
Lemma interp_scale x y b l : length x = length y -> interp_x_y (map (fun a => a * c) x) (map (fun a => a * d) y) (map (fun a => a * c) l) b = rmap (map (fun a => a * d)) (interp_x_y x y l b).
Proof.
  intros HL. unfold interp_x_y. rewrite !map_length, HL, Nat.eqb_refl. cbn [negb]. induction l as [|a l IH]; [reflexivity|]. cbn [map mapM]. rewrite interp1_scale by auto. rewrite IH. destruct (interp1 x y b a); [|reflexivity]. cbn [rmap bind]. destruct (mapM (interp1 x y b) l); reflexivity.
Qed.
End S.

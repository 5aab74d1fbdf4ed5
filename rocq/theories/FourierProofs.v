(** * Fourier transforms *)
From Coq Require Import Reals List Arith ZArith Bool Lia Lra.
From Coquelicot Require Import Coquelicot.
From Verif Require Import Base SpecFourier.
Import ListNotations.
Local Open Scope R_scope.

Section S.
Variable a : R.
Variable b : Rbar.
Notation right := (right a b). Notation left := (left a b). Notation both := (both a b).
Lemma right_ext f g v : (forall x, f x = g x) -> right f v -> right g v.
Proof.
  intros H. unfold SpecFourier.right. destruct b as [r| |]; auto.
  - intros D. apply (is_RInt_ext f); auto.
  - intros D. apply (is_RInt_gen_ext (V := R_NormedModule) f); auto. apply filter_forall. intros; apply H.
Qed.
Lemma left_ext f g v : (forall x, f x = g x) -> left f v -> left g v.
Proof.
  intros H. unfold SpecFourier.left. destruct b as [r| |]; auto.
  - intros D. apply (is_RInt_ext f); auto.
  - intros D. apply (is_RInt_gen_ext (V := R_NormedModule) f); auto. apply filter_forall. intros; apply H.
Qed.
Lemma right_plus f g u v : right f u -> right g v -> right (fun x => f x + g x) (u + v).
Proof.
  unfold SpecFourier.right. destruct b as [r| |]; auto.
  - apply (is_RInt_plus (V := R_NormedModule)).
  - apply (is_RInt_gen_plus (V := R_NormedModule)).
Qed.
Lemma left_plus f g u v : left f u -> left g v -> left (fun x => f x + g x) (u + v).
Proof.
  unfold SpecFourier.left. destruct b as [r| |]; auto.
  - apply (is_RInt_plus (V := R_NormedModule)).
  - apply (is_RInt_gen_plus (V := R_NormedModule)).
Qed.
Lemma right_scal k f u : right f u -> right (fun x => k * f x) (k * u).
Proof.
  unfold SpecFourier.right. destruct b as [r| |]; auto.
  - apply (is_RInt_scal (V := R_NormedModule)).
  - apply (is_RInt_gen_scal (V := R_NormedModule)).
Qed.
Lemma left_scal k f u : left f u -> left (fun x => k * f x) (k * u).
Proof.
  unfold SpecFourier.left. destruct b as [r| |]; auto.
  - apply (is_RInt_scal (V := R_NormedModule)).
  - apply (is_RInt_gen_scal (V := R_NormedModule)).
Qed.
(** mirrored *)
Lemma rint_mirror (f : R -> R) u w v : is_RInt f u w v -> is_RInt (fun x => f (- x)) (- w) (- u) v.
Proof.
  intros D. assert (D1 : is_RInt f (- - u) (- - w) v) by (rewrite !Ropp_involutive; exact D). apply (is_RInt_comp_opp (V := R_NormedModule)) in D1.
  apply (is_RInt_opp (V := R_NormedModule)) in D1. apply (is_RInt_swap (V := R_NormedModule)) in D1. unfold opp in D1; cbn in D1. rewrite Ropp_involutive in D1.
  apply (is_RInt_ext (fun y => - - f (- y))); [intros; apply Ropp_involutive|exact D1].
Qed.
Lemma left_mirror f v : left f v <-> right (fun x => f (- x)) v.
Proof.
  unfold SpecFourier.left, SpecFourier.right. destruct b as [r| |]; [| |tauto].
  - split; intros D; apply rint_mirror in D; [rewrite !Ropp_involutive in D; exact D|]. apply (is_RInt_ext (fun x => f (- - x))); [intros; rewrite Ropp_involutive; auto|exact D].
  - split; intros D P HP; specialize (D P HP); destruct D as [Q R0 HQ HR D].
    + apply (Filter_prod _ _ _ (fun x => R0 (- x)) (fun y => Q (- y))).
      * exact HR.
      * destruct HQ as [M HQ]. exists (- M). intros x Hx. apply HQ. lra.
      * intros x y Hx Hy. destruct (D (- y) (- x) Hy Hx) as (l & L1 & L2). exists l. split; auto. cbn [fst snd] in *. apply rint_mirror in L1. rewrite !Ropp_involutive in L1. exact L1.
    + apply (Filter_prod _ _ _ (fun x => R0 (- x)) (fun y => Q (- y))).
      * destruct HR as [M HR]. exists (- M). intros x Hx. apply HR. lra.
      * unfold at_point in *. rewrite Ropp_involutive. exact HQ.
      * intros x y Hx Hy. destruct (D (- y) (- x) Hy Hx) as (l & L1 & L2). exists l. split; auto. cbn [fst snd] in *. apply rint_mirror in L1. rewrite !Ropp_involutive in L1. apply (is_RInt_ext (fun x => f (- - x))); [intros; rewrite Ropp_involutive; auto|exact L1].
Qed.
Lemma right_unique f u v : right f u -> right f v -> u = v.
Proof.
  unfold SpecFourier.right. destruct b as [r| |]; [| |tauto].
  - intros D E. rewrite <- (is_RInt_unique _ _ _ _ D). apply (is_RInt_unique _ _ _ _ E).
  - intros D E. rewrite <- (is_RInt_gen_unique (V := R_CompleteNormedModule) f u D). apply (is_RInt_gen_unique (V := R_CompleteNormedModule) f v E).
Qed.
Lemma both_unique f u v : both f u -> both f v -> u = v.
Proof. intros (u1 & u2 & A1 & A2 & ->) (v1 & v2 & B1 & B2 & ->). apply left_mirror in A1. apply left_mirror in B1. rewrite (right_unique _ _ _ A1 B1), (right_unique _ _ _ A2 B2). reflexivity. Qed.
Lemma both_ext f g v : (forall x, f x = g x) -> both f v -> both g v.
Proof. intros H (u & w & A & B & E). exists u, w. split; [apply (left_ext f); auto|]. split; [apply (right_ext f); auto|exact E]. Qed.
Lemma both_plus f g u v : both f u -> both g v -> both (fun x => f x + g x) (u + v).
Proof. intros (u1 & u2 & A1 & A2 & ->) (v1 & v2 & B1 & B2 & ->). exists (u1 + v1), (u2 + v2). split; [apply left_plus; auto|]. split; [apply right_plus; auto|ring]. Qed.
Lemma both_scal k f u : both f u -> both (fun x => k * f x) (k * u).
Proof. intros (u1 & u2 & A1 & A2 & ->). exists (k * u1), (k * u2). split; [apply left_scal; auto|]. split; [apply right_scal; auto|ring]. Qed.
End S.

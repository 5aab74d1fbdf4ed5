(** * Base: exceptions as values, numeric operations, numpy-like list helpers.

    Everything here is infrastructure shared by the models; nothing in this file
    models a particular function of /repo. *)
From Coq Require Import Reals List ZArith QArith Bool Lia Lra PrimFloat.
From Coq Require Uint63.
Import ListNotations.

(** Python exceptions that the modelled code can raise. *)
Inductive exn : Set :=
| ValueError | IndexError | TypeError | AttributeError | RuntimeError
| UnboundLocalError | NotImplementedError | SyntaxError_ | ZeroDivisionError
| KeyError | NameError | OSError | UserError (n : nat).

Inductive result (A : Type) : Type :=
| Ok (a : A)
| Err (e : exn).
Arguments Ok {A} a.
Arguments Err {A} e.

Definition bind {A B} (r : result A) (f : A -> result B) : result B :=
  match r with Ok a => f a | Err e => Err e end.
Definition rmap {A B} (f : A -> B) (r : result A) : result B :=
  match r with Ok a => Ok (f a) | Err e => Err e end.

Declare Scope res_scope.
Notation "x <- c1 ;; c2" := (bind c1 (fun x => c2))
  (at level 61, c1 at next level, right associativity) : res_scope.
Open Scope res_scope.

(** [l[i]] for a non-negative index. *)
Definition get {A} (l : list A) (i : nat) : result A :=
  match nth_error l i with Some v => Ok v | None => Err IndexError end.
(** [l[-1]]. *)
Definition get_last {A} (l : list A) : result A :=
  match rev l with v :: _ => Ok v | [] => Err IndexError end.

(** Evaluate left to right, stop at the first exception. *)
Fixpoint mapM {A B} (f : A -> result B) (l : list A) : result (list B) :=
  match l with
  | [] => Ok []
  | a :: t => b <- f a ;; bs <- mapM f t ;; Ok (b :: bs)
  end.

Fixpoint filterM {A} (f : A -> result bool) (l : list A) : result (list A) :=
  match l with
  | [] => Ok []
  | a :: t => b <- f a ;; r <- filterM f t ;; Ok (if b then a :: r else r)
  end.

Definition is_ok {A} (r : result A) : bool :=
  match r with Ok _ => true | Err _ => false end.

(** Numeric operations of numpy arrays' elements. *)
Class Num (A : Type) := mkNum {
  n0 : A; n1 : A;
  nadd : A -> A -> A; nsub : A -> A -> A; nmul : A -> A -> A; ndiv : A -> A -> A;
  nopp : A -> A;
  nltb : A -> A -> bool; nleb : A -> A -> bool; neqb : A -> A -> bool;
  nofZ : Z -> A
}.

Definition nabs {A} `{Num A} (a : A) : A := if nltb a n0 then nopp a else a.
Definition nhalf {A} `{Num A} : A := ndiv n1 (nadd n1 n1).
(** np.sign *)
Definition nsign {A} `{Num A} (a : A) : Z :=
  if nltb n0 a then 1%Z else if nltb a n0 then (-1)%Z else 0%Z.

(** Reals (exact arithmetic; used by the theorems). *)
Definition Rltb (a b : R) : bool := if Rlt_dec a b then true else false.
Definition Rleb (a b : R) : bool := if Rle_dec a b then true else false.
Definition Reqb (a b : R) : bool := if Req_EM_T a b then true else false.
#[export] Instance NumR : Num R :=
  mkNum R 0%R 1%R Rplus Rminus Rmult Rdiv Ropp Rltb Rleb Reqb IZR.

(** Rationals (exact and executable; used for witnesses).  [NumQ] and [NumF] are
    not registered as instances: they are always passed explicitly. *)
Definition Qltb (a b : Q) : bool := negb (Qle_bool b a).
Definition NumQ : Num Q :=
  mkNum Q 0%Q 1%Q Qplus Qminus Qmult Qdiv Qopp Qltb Qle_bool Qeq_bool inject_Z.

(** IEEE binary64 (used where rounding is the property). *)
Definition float_ofZ (z : Z) : PrimFloat.float :=
  match z with
  | Z0 => PrimFloat.zero
  | Zpos p => PrimFloat.of_uint63 (Uint63.of_Z (Zpos p))
  | Zneg p => PrimFloat.opp (PrimFloat.of_uint63 (Uint63.of_Z (Zpos p)))
  end.
Definition NumF : Num PrimFloat.float :=
  mkNum PrimFloat.float PrimFloat.zero PrimFloat.one PrimFloat.add PrimFloat.sub
        PrimFloat.mul PrimFloat.div PrimFloat.opp PrimFloat.ltb PrimFloat.leb
        PrimFloat.eqb float_ofZ.

(** Consecutive pairs (x[i], x[i+1]); [np.diff] is [map (fun p => snd p - fst p)]. *)
Fixpoint pairs {A} (l : list A) : list (A * A) :=
  match l with
  | a :: ((b :: _) as t) => (a, b) :: pairs t
  | _ => []
  end.

Definition diff {A} `{Num A} (l : list A) : list A :=
  map (fun p => nsub (snd p) (fst p)) (pairs l).

(** [np.where(mask)[0]]. *)
Fixpoint where_from (k : nat) (m : list bool) : list nat :=
  match m with
  | [] => []
  | b :: t => if b then k :: where_from (S k) t else where_from (S k) t
  end.
Definition where_ (m : list bool) : list nat := where_from 0 m.

Fixpoint sumn {A} `{Num A} (l : list A) : A :=
  match l with [] => n0 | a :: t => nadd a (sumn t) end.

(** Real-number specifications of the comparisons. *)
Lemma Rltb_true a b : Rltb a b = true <-> (a < b)%R.
Proof. unfold Rltb; destruct (Rlt_dec a b); split; intros; try discriminate; auto; contradiction. Qed.
Lemma Rltb_false a b : Rltb a b = false <-> (b <= a)%R.
Proof. unfold Rltb; destruct (Rlt_dec a b); split; intros; try discriminate; auto; lra. Qed.
Lemma Rleb_true a b : Rleb a b = true <-> (a <= b)%R.
Proof. unfold Rleb; destruct (Rle_dec a b); split; intros; try discriminate; auto; contradiction. Qed.
Lemma Rleb_false a b : Rleb a b = false <-> (b < a)%R.
Proof. unfold Rleb; destruct (Rle_dec a b); split; intros; try discriminate; auto; lra. Qed.
Lemma Reqb_true a b : Reqb a b = true <-> a = b.
Proof. unfold Reqb; destruct (Req_EM_T a b); split; intros; try discriminate; auto; contradiction. Qed.
Lemma Reqb_false a b : Reqb a b = false <-> a <> b.
Proof. unfold Reqb; destruct (Req_EM_T a b); split; intros; try discriminate; auto; contradiction. Qed.

Lemma nabs_R (a : R) : nabs a = Rabs a.
Proof.
  unfold nabs; cbn. unfold Rltb; destruct (Rlt_dec a 0).
  - symmetry; apply Rabs_left; assumption.
  - symmetry; apply Rabs_right; lra.
Qed.

Lemma get_Ok {A} (l : list A) i v : get l i = Ok v <-> nth_error l i = Some v.
Proof. unfold get; destruct (nth_error l i); split; intros H; inversion H; auto. Qed.

Lemma get_lt {A} (l : list A) i (d : A) : (i < length l)%nat -> get l i = Ok (nth i l d).
Proof.
  intros H. apply get_Ok. rewrite nth_error_nth' with (d := d); auto.
Qed.

Lemma get_ge {A} (l : list A) i : (length l <= i)%nat -> get l i = Err IndexError.
Proof. intros H. unfold get. apply nth_error_None in H. rewrite H; reflexivity. Qed.

Lemma get_last_nth {A} (l : list A) (d : A) :
  l <> [] -> get_last l = Ok (nth (length l - 1) l d).
Proof.
  intros H. destruct (exists_last H) as [l' [a ->]].
  unfold get_last. rewrite rev_app_distr; cbn.
  rewrite app_length; cbn. replace (length l' + 1 - 1)%nat with (length l') by lia.
  rewrite nth_middle; reflexivity.
Qed.

Lemma mapM_Ok_Forall2 {A B} (f : A -> result B) l r :
  mapM f l = Ok r <-> Forall2 (fun a b => f a = Ok b) l r.
Proof.
  revert r; induction l as [|a t IH]; intros r; cbn.
  - split; intros H; inversion H; auto.
  - destruct (f a) as [b|e] eqn:Ha; cbn.
    + destruct (mapM f t) as [bs|e] eqn:Ht; cbn.
      * split; intros H.
        -- inversion H; subst; constructor; auto. apply IH; reflexivity.
        -- inversion H; subst. rewrite Ha in *.
           match goal with h : Ok b = Ok _ |- _ => inversion h; subst end.
           f_equal; f_equal.
           match goal with h : Forall2 _ t _ |- _ => apply IH in h; inversion h; auto end.
      * split; intros H; [discriminate|].
        inversion H; subst.
        match goal with h : Forall2 _ t _ |- _ => apply IH in h; discriminate end.
    + split; intros H; [discriminate|]. inversion H; subst. congruence.
Qed.

Lemma mapM_map {A B} (f : A -> result B) (g : A -> B) l :
  (forall a, In a l -> f a = Ok (g a)) -> mapM f l = Ok (map g l).
Proof.
  induction l as [|a t IH]; intros H; cbn; auto.
  rewrite H by (left; auto); cbn. rewrite IH; auto. intros; apply H; right; auto.
Qed.

Lemma filterM_filter {A} (f : A -> result bool) (g : A -> bool) l :
  (forall a, In a l -> f a = Ok (g a)) -> filterM f l = Ok (filter g l).
Proof.
  induction l as [|a t IH]; intros H; cbn; auto.
  rewrite H by (left; auto); cbn. rewrite IH; cbn; auto.
  intros; apply H; right; auto.
Qed.

Lemma pairs_length {A} (l : list A) : length (pairs l) = (length l - 1)%nat.
Proof.
  induction l as [|a [|b t] IH]; cbn in *; auto. rewrite IH. lia.
Qed.

Lemma pairs_nth {A} (l : list A) i (d : A) :
  (S i < length l)%nat -> nth i (pairs l) (d, d) = (nth i l d, nth (S i) l d).
Proof.
  revert i; induction l as [|a [|b t] IH]; intros i H; cbn in H; try lia.
  destruct i as [|i]; [reflexivity|].
  change (pairs (a :: b :: t)) with ((a, b) :: pairs (b :: t)).
  change (nth (S i) ((a, b) :: pairs (b :: t)) (d, d)) with (nth i (pairs (b :: t)) (d, d)).
  rewrite IH by (cbn; lia). reflexivity.
Qed.

Lemma where_from_In k m i :
  In i (where_from k m) <-> (k <= i)%nat /\ nth_error m (i - k) = Some true.
Proof.
  revert k; induction m as [|b t IH]; intros k; cbn.
  - split; [tauto|]. intros [_ H]. destruct (i - k)%nat; discriminate.
  - assert (Hs : In i (where_from (S k) t) <-> (S k <= i)%nat /\ nth_error t (i - S k) = Some true)
      by apply IH.
    destruct b; cbn; rewrite Hs; split; intros H.
    + destruct H as [->|[H1 H2]].
      * split; [lia|]. rewrite Nat.sub_diag. reflexivity.
      * split; [lia|]. replace (i - k)%nat with (S (i - S k)) by lia. exact H2.
    + destruct H as [H1 H2]. destruct (Nat.eq_dec k i) as [->|Hne]; [left; auto|right].
      split; [lia|]. replace (i - k)%nat with (S (i - S k)) in H2 by lia. exact H2.
    + destruct H as [H1 H2]. split; [lia|].
      replace (i - k)%nat with (S (i - S k)) by lia. exact H2.
    + destruct H as [H1 H2]. destruct (Nat.eq_dec k i) as [->|Hne].
      * rewrite Nat.sub_diag in H2. discriminate.
      * split; [lia|]. replace (i - k)%nat with (S (i - S k)) in H2 by lia. exact H2.
Qed.

Lemma where_In m i : In i (where_ m) <-> nth_error m i = Some true.
Proof.
  unfold where_. rewrite where_from_In. rewrite Nat.sub_0_r.
  split; [tauto|]. intros; split; [lia|auto].
Qed.

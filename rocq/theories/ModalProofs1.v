(** * Linear systems with constant coefficients, solved through complex eigenvalues: algebra and uniqueness *)
From Coq Require Import Reals List Arith Lia Lra.
From Coquelicot Require Import Coquelicot.
From Verif Require Import Base BeamModel SpecComplex ComplexCalc SpecModal.
Import ListNotations.
Local Open Scope R_scope.

Local Notation Cg := csum.
Lemma seq_map_S n (f : nat -> C) : map f (seq 1 n) = map (fun k => f (S k)) (seq 0 n).
Proof. rewrite <- seq_shift, map_map. reflexivity. Qed.
Lemma Cg_S n f : Cg (S n) f = Cplus (f 0%nat) (Cg n (fun k => f (S k))).
Proof. unfold csum. cbn [seq map fold_right]. rewrite seq_map_S. reflexivity. Qed.
Lemma Cg_ext n : forall f g, (forall k, (k < n)%nat -> f k = g k) -> Cg n f = Cg n g.
Proof. induction n as [|n IH]; intros f g H; [reflexivity|]. rewrite !Cg_S, (H 0%nat) by lia. f_equal. apply IH. intros k Hk. apply H. lia. Qed.
Lemma Cg_plus n : forall f g, Cg n (fun k => Cplus (f k) (g k)) = Cplus (Cg n f) (Cg n g).
Proof. induction n as [|n IH]; intros f g; [apply C_eq; cbn; ring|]. rewrite !Cg_S, IH. ring. Qed.
Lemma Cg_scal n c : forall f, Cg n (fun k => Cmult c (f k)) = Cmult c (Cg n f).
Proof. induction n as [|n IH]; intros f; [apply C_eq; cbn; ring|]. rewrite !Cg_S, IH. ring. Qed.
Lemma Cg_zero n : Cg n (fun _ => RtoC 0) = RtoC 0.
Proof. induction n as [|n IH]; [reflexivity|]. rewrite Cg_S, IH. apply C_eq; cbn; ring. Qed.
Lemma Cg_swap n p (f : nat -> nat -> C) : Cg n (fun i => Cg p (f i)) = Cg p (fun j => Cg n (fun i => f i j)).
Proof.
  induction n as [|n IH] in f |- *.
  - change (RtoC 0 = Cg p (fun _ => RtoC 0)). rewrite Cg_zero. reflexivity.
  - rewrite Cg_S, IH, <- Cg_plus. apply Cg_ext. intros k _. rewrite Cg_S. reflexivity.
Qed.
Lemma Cg_pick n : forall j f, (j < n)%nat -> Cg n (fun k => Cmult (RtoC (if Nat.eqb j k then 1 else 0)) (f k)) = f j.
Proof.
  induction n as [|n IH]; intros j f Hj; [lia|]. rewrite Cg_S. destruct j as [|j]; cbn [Nat.eqb].
  - rewrite (Cg_ext n _ (fun _ => RtoC 0)) by (intros; apply C_eq; cbn; ring). rewrite Cg_zero. apply C_eq; cbn; ring.
  - rewrite (IH j (fun k => f (S k))) by lia. apply C_eq; cbn; ring.
Qed.
Lemma cassoc n (A D : nat -> C) (B : nat -> nat -> C) : Cg n (fun q => Cmult (Cg n (fun p => Cmult (A p) (B p q))) (D q)) = Cg n (fun p => Cmult (A p) (Cg n (fun q => Cmult (B p q) (D q)))).
Proof.
  rewrite (Cg_ext n _ (fun q => Cg n (fun p => Cmult (Cmult (A p) (B p q)) (D q)))).
  - rewrite Cg_swap. apply Cg_ext. intros p _. rewrite <- Cg_scal. apply Cg_ext. intros; ring.
  - intros q _. rewrite Cmult_comm, <- Cg_scal. apply Cg_ext. intros; ring.
Qed.
Lemma Cderive_csum n : forall (f : nat -> R -> C) t d, (forall k, (k < n)%nat -> is_Cderive (f k) t (d k)) -> is_Cderive (fun s => Cg n (fun k => f k s)) t (Cg n d).
Proof.
  induction n as [|n IH]; intros f t d H; [exact (Cderive_const (RtoC 0) t)|]. rewrite Cg_S.
  apply (Cderive_ext (fun s => Cplus (f 0%nat s) (Cg n (fun k => f (S k) s)))); [intros; rewrite Cg_S; auto|].
  apply Cderive_plus; [apply H; lia|]. apply (IH (fun k => f (S k)) t (fun k => d (S k))). intros k Hk. apply H. lia.
Qed.
Definition Ccont (f : R -> C) (t : R) : Prop := continuous (fun s => fst (f s)) t /\ continuous (fun s => snd (f s)) t.
Lemma Ccont_ext f g t : (forall s, f s = g s) -> Ccont f t -> Ccont g t.
Proof. intros H [A B]. split; [apply (continuous_ext (fun s => fst (f s)))|apply (continuous_ext (fun s => snd (f s)))]; auto; intros; rewrite H; auto. Qed.
Lemma Ccont_const c t : Ccont (fun _ => c) t. Proof. split; apply continuous_const. Qed.
Lemma Ccont_plus f g t : Ccont f t -> Ccont g t -> Ccont (fun s => Cplus (f s) (g s)) t.
Proof. intros [A B] [D E]. split; cbn [Cplus fst snd]; apply (continuous_plus (V := R_NormedModule)); auto. Qed.
Lemma Ccont_mult f g t : Ccont f t -> Ccont g t -> Ccont (fun s => Cmult (f s) (g s)) t.
Proof.
  intros [A B] [D E]. split; cbn [Cmult fst snd].
  - apply (continuous_minus (V := R_NormedModule)); apply (continuous_mult (K := R_AbsRing)); auto.
  - apply (continuous_plus (V := R_NormedModule)); apply (continuous_mult (K := R_AbsRing)); auto.
Qed.
Lemma Ccont_csum n : forall (f : nat -> R -> C) t, (forall k, (k < n)%nat -> Ccont (f k) t) -> Ccont (fun s => Cg n (fun k => f k s)) t.
Proof.
  induction n as [|n IH]; intros f t H; [exact (Ccont_const (RtoC 0) t)|]. apply (Ccont_ext (fun s => Cplus (f 0%nat s) (Cg n (fun k => f (S k) s)))); [intros; rewrite Cg_S; auto|].
  apply Ccont_plus; [apply H; lia|]. apply (IH (fun k => f (S k))). intros k Hk. apply H. lia.
Qed.
Lemma Ccont_derive f t d : is_Cderive f t d -> Ccont f t.
Proof. intros [A B]. split; apply (ex_derive_continuous (V := R_NormedModule)); eexists; eauto. Qed.

(** *** a continuous function without slope except at finitely many times is constant *)
Lemma flat_between (f : R -> R) (l : list R) : (forall t, continuous f t) -> forall a b, a < b -> (forall t, a < t < b -> ~ In t l -> is_derive f t 0) -> f a = f b.
Proof.
  intros HC. induction l as [|z l IH]; intros a b Hab HD.
  - destruct (MVT_gen f a b (fun _ => 0)) as (w & _ & E).
    + intros t. rewrite Rmin_left, Rmax_right by lra. intros Ht. apply HD; auto.
    + intros t _. apply continuity_pt_filterlim. apply HC.
    + lra.
  - destruct (Rlt_dec a z) as [H1|H1]; [destruct (Rlt_dec z b) as [H2|H2]|].
    + transitivity (f z); apply IH; auto; intros t Ht N; apply HD; try lra; intros [->|X]; try lra; auto.
    + apply IH; auto. intros t Ht N. apply HD; auto. intros [->|X]; try lra; auto.
    + apply IH; auto. intros t Ht N. apply HD; auto. intros [->|X]; try lra; auto.
Qed.
Lemma flat (f : R -> R) (l : list R) : (forall t, continuous f t) -> (forall t, ~ In t l -> is_derive f t 0) -> forall a b, f a = f b.
Proof.
  intros HC HD a b. destruct (Rtotal_order a b) as [H|[->|H]]; auto; [|symmetry]; apply (flat_between f l); auto.
Qed.
Lemma Cflat (f : R -> C) (l : list R) : (forall t, Ccont f t) -> (forall t, ~ In t l -> is_Cderive f t (RtoC 0)) -> forall a b, f a = f b.
Proof. intros HC HD a b. apply C_eq; [apply (flat (fun s => fst (f s)) l)|apply (flat (fun s => snd (f s)) l)]; intros t; try apply HC; intros N; destruct (HD t N); auto. Qed.

Lemma flat_on (f : R -> R) (l : list R) a b : (forall t, continuous f t) -> (forall t, a < t < b -> ~ In t l -> is_derive f t 0) -> forall s t, a <= s <= b -> a <= t <= b -> f s = f t.
Proof.
  intros HC HD s t Hs Ht. destruct (Rtotal_order s t) as [H|[->|H]]; auto; [|symmetry]; apply (flat_between f l); auto; intros z Hz; apply HD; lra.
Qed.
Lemma Cflat_on (f : R -> C) (l : list R) a b : (forall t, Ccont f t) -> (forall t, a < t < b -> ~ In t l -> is_Cderive f t (RtoC 0)) -> forall s t, a <= s <= b -> a <= t <= b -> f s = f t.
Proof. intros HC HD s t Hs Ht. apply C_eq; [apply (flat_on (fun s => fst (f s)) l a b)|apply (flat_on (fun s => snd (f s)) l a b)]; auto; intros z; try apply HC; intros Hz N; destruct (HD z Hz N); auto. Qed.

Section System.
Variables (n : nat) (G N0 Psi V N : nat -> nat -> C) (lam : nat -> C) (B : list R).
Hypothesis GN0 : forall i j, (i < n)%nat -> (j < n)%nat -> Cg n (fun k => Cmult (G i k) (N0 k j)) = RtoC (if Nat.eqb i j then 1 else 0).
Hypothesis N0G : forall i j, (i < n)%nat -> (j < n)%nat -> Cg n (fun k => Cmult (N0 i k) (G k j)) = RtoC (if Nat.eqb i j then 1 else 0).
Hypothesis EIG : forall i j, (i < n)%nat -> (j < n)%nat -> Cg n (fun k => Cmult (Cg n (fun p => Cmult (N0 i p) (Psi p k))) (V k j)) = Cmult (V i j) (lam j).
Hypothesis GVN : forall i j, (i < n)%nat -> (j < n)%nat -> Cg n (fun k => Cmult (Cg n (fun p => Cmult (G i p) (V p k))) (N k j)) = RtoC (if Nat.eqb i j then 1 else 0).
Hypothesis NGV : forall i j, (i < n)%nat -> (j < n)%nat -> Cg n (fun k => Cmult (N i k) (Cg n (fun p => Cmult (G k p) (V p j)))) = RtoC (if Nat.eqb i j then 1 else 0).

Lemma PsiV i l : (i < n)%nat -> (l < n)%nat -> Cg n (fun j => Cmult (Psi i j) (V j l)) = Cmult (Cg n (fun j => Cmult (G i j) (V j l))) (lam l).
Proof using GN0 EIG.
  intros Hi Hl. rewrite (Cg_ext n (fun j => Cmult (Psi i j) (V j l)) (fun j => Cmult (Cg n (fun p => Cmult (G i p) (Cg n (fun q => Cmult (N0 p q) (Psi q j))))) (V j l))).
  - rewrite cassoc. rewrite (Cg_ext n _ (fun p => Cmult (lam l) (Cmult (G i p) (V p l)))).
    + rewrite Cg_scal. ring.
    + intros p Hp. rewrite EIG by auto. ring.
  - intros j Hj. f_equal. rewrite <- cassoc. rewrite (Cg_ext n _ (fun q => Cmult (RtoC (if Nat.eqb i q then 1 else 0)) (Psi q j))).
    + rewrite Cg_pick by auto. reflexivity.
    + intros q Hq. rewrite GN0 by auto. reflexivity.
Qed.
(** the equations of the modes give the equations of the system *)
Lemma modes_to_system (c c' src : nat -> C) : (forall j, (j < n)%nat -> Cplus (c' j) (Cmult (lam j) (c j)) = Cg n (fun k => Cmult (N j k) (src k))) ->
  forall i, (i < n)%nat -> Cplus (Cg n (fun j => Cmult (G i j) (Cg n (fun l => Cmult (V j l) (c' l))))) (Cg n (fun j => Cmult (Psi i j) (Cg n (fun l => Cmult (V j l) (c l))))) = src i.
Proof using GN0 EIG GVN.
  intros Hc i Hi. rewrite <- !cassoc, <- Cg_plus.
  rewrite (Cg_ext n _ (fun l => Cmult (Cg n (fun j => Cmult (G i j) (V j l))) (Cg n (fun k => Cmult (N l k) (src k))))).
  - rewrite <- cassoc. rewrite (Cg_ext n _ (fun k => Cmult (RtoC (if Nat.eqb i k then 1 else 0)) (src k))); [apply Cg_pick; auto|].
    intros k Hk. rewrite <- GVN by auto. reflexivity.
  - intros l Hl. rewrite PsiV by auto. rewrite <- Hc by auto. ring.
Qed.
(** V N G = 1 *)
Lemma VNG i j : (i < n)%nat -> (j < n)%nat -> Cg n (fun k => Cmult (V i k) (Cg n (fun p => Cmult (N k p) (G p j)))) = RtoC (if Nat.eqb i j then 1 else 0).
Proof using GN0 N0G GVN.
  intros Hi Hj. rewrite <- N0G by auto. rewrite <- cassoc. apply Cg_ext. intros p Hp. f_equal.
  (* (V N) i p = N0 i p *)
  transitivity (Cg n (fun a => Cmult (RtoC (if Nat.eqb i a then 1 else 0)) (Cg n (fun k => Cmult (V a k) (N k p))))); [rewrite Cg_pick by auto; reflexivity|].
  rewrite (Cg_ext n _ (fun a => Cmult (Cg n (fun b => Cmult (N0 i b) (G b a))) (Cg n (fun k => Cmult (V a k) (N k p))))) by (intros a Ha; rewrite N0G by auto; reflexivity).
  rewrite cassoc. rewrite (Cg_ext n _ (fun b => Cmult (RtoC (if Nat.eqb p b then 1 else 0)) (N0 i b))); [rewrite Cg_pick by auto; reflexivity|].
  intros b Hb. rewrite <- cassoc. rewrite GVN by auto. rewrite Nat.eqb_sym. ring.
Qed.
(** the system has no motion of its own from rest *)
Lemma system_unique_on (u : nat -> R -> C) (a b t0 : R) : a <= t0 <= b -> (forall i t, (i < n)%nat -> Ccont (u i) t) ->
  (forall t, a < t < b -> ~ In t B -> exists u', (forall i, (i < n)%nat -> is_Cderive (u i) t (u' i)) /\
     forall i, (i < n)%nat -> Cplus (Cg n (fun j => Cmult (G i j) (u' j))) (Cg n (fun j => Cmult (Psi i j) (u j t))) = RtoC 0) ->
  (forall i, (i < n)%nat -> u i t0 = RtoC 0) -> forall i t, (i < n)%nat -> a <= t <= b -> u i t = RtoC 0.
Proof using GN0 N0G EIG GVN NGV.
  intros H00 HC HD H0.
  set (W := fun k j => Cg n (fun p => Cmult (N k p) (G p j))).
  set (w := fun k t => Cg n (fun j => Cmult (W k j) (u j t))).
  assert (UV : forall i t, (i < n)%nat -> u i t = Cg n (fun k => Cmult (V i k) (w k t))).
  { intros i t Hi. unfold w. rewrite <- cassoc. rewrite (Cg_ext n _ (fun j => Cmult (RtoC (if Nat.eqb i j then 1 else 0)) (u j t))); [rewrite Cg_pick by auto; reflexivity|].
    intros j Hj. f_equal. apply VNG; auto. }
  assert (Wc : forall k t, Ccont (w k) t).
  { intros k t. apply (Ccont_csum n (fun j s => Cmult (W k j) (u j s))). intros j Hj. apply Ccont_mult; [apply Ccont_const|apply HC; auto]. }
  assert (Wd : forall k t, (k < n)%nat -> a < t < b -> ~ In t B -> is_Cderive (w k) t (Copp (Cmult (lam k) (w k t)))).
  { intros k t Hk Hab Ht. destruct (HD t Hab Ht) as (u' & Du & Eu).
    replace (Copp (Cmult (lam k) (w k t))) with (Cg n (fun j => Cmult (W k j) (u' j))).
    { apply (Cderive_csum n (fun j s => Cmult (W k j) (u j s))). intros j Hj.
      replace (Cmult (W k j) (u' j)) with (Cplus (Cmult (RtoC 0) (u j t)) (Cmult (W k j) (u' j))) by (apply C_eq; cbn; ring).
      apply (Cderive_mult (fun _ => W k j) (u j)); [apply Cderive_const|auto]. }
    unfold W. rewrite cassoc.
    rewrite (Cg_ext n _ (fun p => Cmult (Copp (RtoC 1)) (Cmult (N k p) (Cg n (fun j => Cmult (Psi p j) (u j t)))))).
    2:{ intros p Hp. specialize (Eu p Hp). replace (Cg n (fun q => Cmult (G p q) (u' q))) with (Copp (Cg n (fun j => Cmult (Psi p j) (u j t)))); [ring|].
        replace (Cg n (fun q => Cmult (G p q) (u' q))) with (Cminus (Cplus (Cg n (fun j => Cmult (G p j) (u' j))) (Cg n (fun j => Cmult (Psi p j) (u j t)))) (Cg n (fun j => Cmult (Psi p j) (u j t)))) by ring. rewrite Eu. ring. }
    rewrite Cg_scal.
    rewrite (Cg_ext n _ (fun p => Cmult (N k p) (Cg n (fun l => Cmult (Cg n (fun j => Cmult (G p j) (V j l))) (Cmult (lam l) (w l t)))))).
    2:{ intros p Hp. f_equal. rewrite (Cg_ext n _ (fun j => Cmult (Psi p j) (Cg n (fun l => Cmult (V j l) (w l t))))) by (intros j Hj; rewrite UV by auto; reflexivity).
        rewrite <- cassoc. apply Cg_ext. intros l Hl. rewrite PsiV by auto. ring. }
    rewrite <- cassoc. rewrite (Cg_ext n _ (fun l => Cmult (RtoC (if Nat.eqb k l then 1 else 0)) (Cmult (lam l) (w l t)))) by (intros l Hl; rewrite NGV by auto; reflexivity).
    rewrite Cg_pick by auto. ring. }
  assert (W0 : forall k t, (k < n)%nat -> a <= t <= b -> w k t = RtoC 0).
  { intros k t Hk Htab. set (g := fun s => Cmult (cexp (Cmult (lam k) (RtoC (s - t0)))) (w k s)).
    assert (E : g t = g t0).
    { apply (Cflat_on g B a b); auto.
      - intros s. apply Ccont_mult; [|apply Wc]. eapply Ccont_derive. apply Cderive_exp.
      - intros s Hs' Hs. replace (RtoC 0) with (Cplus (Cmult (Cmult (lam k) (cexp (Cmult (lam k) (RtoC (s - t0))))) (w k s)) (Cmult (cexp (Cmult (lam k) (RtoC (s - t0)))) (Copp (Cmult (lam k) (w k s))))) by ring.
        apply (Cderive_mult (fun s => cexp (Cmult (lam k) (RtoC (s - t0)))) (w k)); [apply Cderive_exp|apply Wd; auto]. }
    assert (Z : g t0 = RtoC 0).
    { unfold g, w. rewrite (Cg_ext n _ (fun _ => RtoC 0)) by (intros j Hj; rewrite H0 by auto; ring). rewrite Cg_zero. ring. }
    rewrite Z in E. unfold g in E. destruct (Ceq_dec (w k t) (RtoC 0)) as [A|A]; auto. exfalso. apply (Cmult_neq_0 _ _ (cexp_nz _) A E). }
  intros i t Hi Ht. rewrite UV by auto. rewrite (Cg_ext n _ (fun _ => RtoC 0)) by (intros k Hk; rewrite W0 by auto; ring). apply Cg_zero.
Qed.
Lemma system_unique (u : nat -> R -> C) (t0 : R) : (forall i t, (i < n)%nat -> Ccont (u i) t) ->
  (forall t, ~ In t B -> exists u', (forall i, (i < n)%nat -> is_Cderive (u i) t (u' i)) /\
     forall i, (i < n)%nat -> Cplus (Cg n (fun j => Cmult (G i j) (u' j))) (Cg n (fun j => Cmult (Psi i j) (u j t))) = RtoC 0) ->
  (forall i, (i < n)%nat -> u i t0 = RtoC 0) -> forall i t, (i < n)%nat -> u i t = RtoC 0.
Proof using GN0 N0G EIG GVN NGV.
  intros HC HD H0 i t Hi. apply (system_unique_on u (Rmin t0 t) (Rmax t0 t) t0); auto.
  - split; [apply Rmin_l|apply Rmax_l].
  - split; [apply Rmin_r|apply Rmax_r].
Qed.
End System.

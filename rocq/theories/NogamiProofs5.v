(** * Proofs about the layered soil with a drain: orthogonality and best approximation *)
From Coq Require Import Reals List Arith ZArith Bool Lia Lra.
From Coquelicot Require Import Coquelicot.
From Verif Require Import Base SpecPiecewise SpecStein SpecNogami TerzaghiProofs SteinProofs SteinProofs4 SteinProofs5.
Import ListNotations.
Local Open Scope R_scope.

Section Ground.
Variable g : ground.
Hypothesis Hg : is_ground g.
Notation s := (earth g).
Notation N := (layers s).
Lemma Hsg : is_soil s. Proof. apply Hg. Qed.
Lemma Hrg : 0 < r_in g < r_out g. Proof. apply Hg. Qed.

(** shapes with depth that belong to the same wavenumber *)
Variables bctop bcbot : Z.
Hypothesis Bt : (bctop = 0 \/ bctop = 1)%Z.
Hypothesis Bb : (bcbot = 0 \/ bcbot = 1)%Z.
Definition rfull (m : rmode) : Prop := around_equation m /\ vert_equation g m /\ drained g m /\ closed g m /\
  at_top bctop (vert m) /\ joined s (vert m) /\ at_bottom s bcbot (vert m).
Lemma vert_smooth m : vert_equation g m -> smooth s (shape (vert m)).
Proof. intros E i z Hi. destruct (E i z Hi) as [D _]. apply (ex_derive_continuous (V := R_NormedModule) _ _ (ex_intro _ _ D)). Qed.
Lemma vert_orthogonal m l : rfull m -> rfull l -> wavenumber m = wavenumber l -> decay (vert m) <> decay (vert l) -> integral s (fun i z => shape (vert m) i z * shape (vert l) i z) = 0.
Proof.
  intros (_ & E1 & _ & _ & T1 & J1 & B1) (_ & E2 & _ & _ & T2 & J2 & B2) Hw Hd. pose proof Hsg as Hs.
  set (M := vert m) in *. set (L := vert l) in *.
  set (W := fun i z => at_ (perm s) i * (shape M i z * slope L i z - slope M i z * shape L i z)).
  assert (SM : smooth s (shape M)) by (apply vert_smooth; auto). assert (SL : smooth s (shape L)) by (apply vert_smooth; auto).
  assert (Q : forall i, (i < N)%nat -> (decay M - decay L) * (weight s i * piece s (fun i z => shape M i z * shape L i z) i) = W i (depth s (S i)) - W i (depth s i)).
  { intros i Hi. destruct Hs as (_ & _ & _ & Hp). destruct (Hp i Hi) as (_ & K & _).
    assert (I1 : is_RInt (fun z => (decay M - decay L) * weight s i * (shape M i z * shape L i z)) (depth s i) (depth s (S i)) ((decay M - decay L) * weight s i * piece s (fun i z => shape M i z * shape L i z) i)).
    { apply (is_RInt_scal (V := R_NormedModule) (fun z => shape M i z * shape L i z)). apply (smooth_int s (fun i z => shape M i z * shape L i z)); auto. apply smooth_mult; auto. }
    assert (I2 : is_RInt (fun z => (decay M - decay L) * weight s i * (shape M i z * shape L i z)) (depth s i) (depth s (S i)) (minus (W i (depth s (S i))) (W i (depth s i)))).
    { apply (is_RInt_derive (W i)).
      - intros z _. destruct (E1 i z Hi) as [D1 D2]. destruct (E2 i z Hi) as [D3 D4]. fold M in D1, D2. fold L in D3, D4. rewrite <- Hw in D4.
        assert (X1 : ex_derive (shape M i) z) by (eexists; eauto). assert (X2 : ex_derive (slope M i) z) by (eexists; eauto). assert (X3 : ex_derive (shape L i) z) by (eexists; eauto). assert (X4 : ex_derive (slope L i) z) by (eexists; eauto).
        unfold W. auto_derive; [auto|]. change (fun x : R => shape M i x) with (shape M i). change (fun x : R => slope M i x) with (slope M i). change (fun x : R => shape L i x) with (shape L i). change (fun x : R => slope L i x) with (slope L i). rewrite (is_derive_unique _ _ _ D1), (is_derive_unique _ _ _ D2), (is_derive_unique _ _ _ D3), (is_derive_unique _ _ _ D4). unfold weight. field. lra.
      - intros z _. apply (continuous_scal_r (V := R_NormedModule) ((decay M - decay L) * weight s i) (fun z => shape M i z * shape L i z)). apply (smooth_mult s (shape M) (shape L)); auto. }
    pose proof (is_RInt_unique (V := R_CompleteNormedModule) _ _ _ _ I1) as U1. pose proof (is_RInt_unique (V := R_CompleteNormedModule) _ _ _ _ I2) as U2. rewrite U1 in U2.
    rewrite <- Rmult_assoc. exact U2. }
  assert (Tel : forall k, (k < N)%nat -> total (S k) (fun i => W i (depth s (S i)) - W i (depth s i)) = W k (depth s (S k)) - W 0%nat 0).
  { induction k as [|k IH]; intros Hk.
    - rewrite total_S, total_0. unfold depth at 2. rewrite total_0. ring.
    - rewrite total_S, IH by lia. assert (X : W k (depth s (S k)) = W (S k) (depth s (S k))).
      { unfold W. destruct (J1 k Hk) as [A1 A2]. destruct (J2 k Hk) as [A3 A4]. fold M in A1, A2. fold L in A3, A4.
        replace (at_ (perm s) k * (shape M k (depth s (S k)) * slope L k (depth s (S k)) - slope M k (depth s (S k)) * shape L k (depth s (S k)))) with (shape M k (depth s (S k)) * (at_ (perm s) k * slope L k (depth s (S k))) - at_ (perm s) k * slope M k (depth s (S k)) * shape L k (depth s (S k))) by ring.
        rewrite A2, A4, A1, A3. ring. }
      lra. }
  assert (Np : (1 <= N)%nat) by apply Hs.
  assert (Z1 : W 0%nat 0 = 0). { unfold W. destruct Bt as [e|e]; rewrite (proj1 T1 e), (proj1 T2 e) || rewrite (proj2 T1 e), (proj2 T2 e); ring. }
  assert (Z2 : W (N - 1)%nat (depth s N) = 0). { unfold W. unfold at_bottom in B1, B2. cbv zeta in B1, B2. destruct Bb as [e|e]; rewrite (proj1 B1 e), (proj1 B2 e) || rewrite (proj2 B1 e), (proj2 B2 e); ring. }
  assert (F : (decay M - decay L) * integral s (fun i z => shape M i z * shape L i z) = 0).
  { unfold integral. rewrite <- total_scal. rewrite (total_ext _ _ _ Q). replace (total N) with (total (S (N - 1))) by (f_equal; lia). rewrite Tel by lia. replace (S (N - 1)) with N by lia. lra. }
  apply Rmult_integral in F. destruct F; [lra|auto].
Qed.

(** ** Integrals over the ground *)
Definition rcont (u : R -> R) : Prop := forall r, 0 < r -> continuous u r.
Definition inner (u : R -> R) : R := RInt (fun r => r * u r) (r_in g) (r_out g).
Lemma inner_ok u : rcont u -> is_RInt (fun r => r * u r) (r_in g) (r_out g) (inner u).
Proof.
  intros Hu. pose proof Hrg. apply (RInt_correct (V := R_CompleteNormedModule)). apply (ex_RInt_continuous (V := R_CompleteNormedModule)). intros z Hz. rewrite Rmin_left, Rmax_right in Hz by lra.
  apply (continuous_mult (K := R_AbsRing) (fun r => r) u); [apply continuous_id|apply Hu; lra].
Qed.
Definition I2 (F : nat -> R -> R -> R) : R := integral s (fun i z => inner (fun r => F i r z)).
Lemma og_I2 F v : over_ground g F v -> v = I2 F.
Proof.
  intros (w & Hw & (h & Hh & ->)). unfold I2, integral. apply total_ext. intros i Hi. f_equal. unfold piece.
  rewrite (RInt_ext (V := R_CompleteNormedModule) _ (w i)); [symmetry; apply (is_RInt_unique (V := R_CompleteNormedModule)); auto|].
  intros z _. unfold inner. apply (is_RInt_unique (V := R_CompleteNormedModule)). auto.
Qed.
Lemma og_lin F G c d v w : over_ground g F v -> over_ground g G w -> over_ground g (fun i r z => c * F i r z + d * G i r z) (c * v + d * w).
Proof.
  intros (a & A1 & (h & A2 & ->)) (b & B1 & (k & B2 & ->)). exists (fun i z => c * a i z + d * b i z). split.
  - intros i z Hi. apply (is_RInt_ext (fun r => plus (scal c (r * F i r z)) (scal d (r * G i r z)))); [intros; unfold plus, scal; cbn; unfold mult; cbn; match goal with |- ?u = ?v => change (@eq R u v) end; ring|].
    apply (is_RInt_plus (V := R_NormedModule)); apply (is_RInt_scal (V := R_NormedModule)); auto.
  - exists (fun i => c * h i + d * k i). split.
    + intros i Hi. apply (is_RInt_plus (V := R_NormedModule) (fun z => c * a i z) (fun z => d * b i z)); apply (is_RInt_scal (V := R_NormedModule)); auto.
    + rewrite <- !total_scal, <- total_plus. apply total_ext. intros; ring.
Qed.
Lemma og_ext F G v : (forall i r z, (i < N)%nat -> 0 < r -> F i r z = G i r z) -> over_ground g F v -> over_ground g G v.
Proof.
  intros E (w & Hw & Ho). exists w. split; auto. intros i z Hi. eapply is_RInt_ext; [|apply Hw; auto]. intros r Hr. pose proof Hrg. rewrite Rmin_left in Hr by lra. cbv beta. rewrite E; auto. lra.
Qed.
Lemma og_prod u f : rcont u -> smooth s f -> over_ground g (fun i r z => u r * f i z) (inner u * integral s f).
Proof.
  intros Hu Hf. exists (fun i z => inner u * f i z). split.
  - intros i z Hi. apply (is_RInt_ext (fun r => scal (f i z) (r * u r))); [intros; unfold scal; cbn; unfold mult; cbn; match goal with |- ?u = ?v => change (@eq R u v) end; ring|].
    eapply rint_val; [apply (is_RInt_scal (V := R_NormedModule)); apply inner_ok; auto|]. unfold scal; cbn; unfold mult; cbn. match goal with |- ?u = ?v => change (@eq R u v) end. ring.
  - exists (fun i => inner u * piece s f i). split.
    + intros i Hi. apply (is_RInt_scal (V := R_NormedModule) (f i)). apply smooth_int; auto.
    + unfold integral. rewrite <- total_scal. apply total_ext. intros; ring.
Qed.
(** finite sums of products *)
Definition piece2 : Type := R * (R -> R) * (nat -> R -> R).
Definition pval (L : list piece2) (i : nat) (r z : R) : R := total_over L (fun e => fst (fst e) * (snd (fst e) r * snd e i z)).
Definition nice (L : list piece2) : Prop := forall e, In e L -> rcont (snd (fst e)) /\ smooth s (snd e).
Definition Sep (F : nat -> R -> R -> R) : Prop := exists L, nice L /\ forall i r z, (i < N)%nat -> 0 < r -> F i r z = pval L i r z.
Lemma rcont_const c : rcont (fun _ => c). Proof. intros r _. apply continuous_const. Qed.
Lemma rcont_mult u v : rcont u -> rcont v -> rcont (fun r => u r * v r).
Proof. intros A B r H. apply (continuous_mult (K := R_AbsRing)); auto. Qed.
Lemma sep_og F : Sep F -> over_ground g F (I2 F).
Proof.
  intros (L & HL & E). assert (X : exists v, over_ground g (pval L) v).
  { clear E. induction L as [|e L IH].
    - exists (inner (fun _ => 0) * integral s (fun _ _ => 0)). apply (og_ext (fun i r z => 0 * 0)); [intros; unfold pval, total_over; cbn; ring|]. apply (og_prod (fun _ => 0) (fun _ _ => 0)); [apply rcont_const|apply smooth_const].
    - destruct IH as (v & Hv); [intros x Hx; apply HL; right; auto|]. destruct (HL e (or_introl eq_refl)) as [A B].
      eexists. apply (og_ext (fun i r z => fst (fst e) * (snd (fst e) r * snd e i z) + 1 * pval L i r z)); [intros; unfold pval, total_over; cbn [map fold_right]; ring|]. apply og_lin; [apply og_prod; auto|exact Hv]. }
  destruct X as (v & Hv). assert (HF : over_ground g F v) by (eapply og_ext; [|exact Hv]; intros; symmetry; apply E; auto). rewrite <- (og_I2 _ _ HF). exact HF.
Qed.
Lemma sep_lin F G c d : Sep F -> Sep G -> Sep (fun i r z => c * F i r z + d * G i r z).
Proof.
  intros (L & HL & E) (K & HK & E'). exists (map (fun e => (c * fst (fst e), snd (fst e), snd e)) L ++ map (fun e => (d * fst (fst e), snd (fst e), snd e)) K). split.
  - intros e He. apply in_app_iff in He. destruct He as [He|He]; apply in_map_iff in He; destruct He as (x & <- & Hx); cbn [fst snd]; [apply HL|apply HK]; auto.
  - intros i r z Hi Hr. rewrite E, E' by auto. unfold pval, total_over. rewrite map_app, fold_right_app, !map_map. cbn [fst snd].
    assert (G1 : forall l (c : R) acc, fold_right Rplus acc (map (fun e : piece2 => c * fst (fst e) * (snd (fst e) r * snd e i z)) l) = c * fold_right Rplus 0 (map (fun e : piece2 => fst (fst e) * (snd (fst e) r * snd e i z)) l) + acc).
    { clear. induction l as [|a l IH]; intros; cbn [map fold_right]; [ring|]. rewrite IH. ring. }
    rewrite !G1. ring.
Qed.
Lemma sep_ext F G : (forall i r z, (i < N)%nat -> 0 < r -> F i r z = G i r z) -> Sep F -> Sep G.
Proof. intros E (L & HL & EL). exists L. split; auto. intros. rewrite <- E by auto. apply EL; auto. Qed.
Lemma sep_prod u f : rcont u -> smooth s f -> Sep (fun i r z => u r * f i z).
Proof. intros A B. exists [(1, u, f)]. split; [intros e [<-|[]]; auto|]. intros. unfold pval, total_over. cbn. ring. Qed.
Lemma sep_const c : Sep (fun _ _ _ => c).
Proof. apply (sep_ext (fun _ _ _ => (fun _ => 1) 0 * (fun (_ : nat) (_ : R) => c) 0%nat 0)); [intros; ring|]. apply (sep_prod (fun _ => 1) (fun _ _ => c)); [apply rcont_const|apply smooth_const]. Qed.
Lemma sep_mult F G : Sep F -> Sep G -> Sep (fun i r z => F i r z * G i r z).
Proof.
  intros (L & HL & E) HG. apply (sep_ext (fun i r z => pval L i r z * G i r z)); [intros; rewrite E by auto; ring|]. clear E. induction L as [|e L IH].
  - apply (sep_ext (fun _ _ _ => 0)); [intros; unfold pval, total_over; cbn; ring|apply sep_const].
  - destruct (HL e (or_introl eq_refl)) as [A B]. apply (sep_ext (fun i r z => 1 * (fst (fst e) * (snd (fst e) r * snd e i z) * G i r z) + 1 * (pval L i r z * G i r z))); [intros; unfold pval, total_over; cbn [map fold_right]; ring|].
    apply sep_lin; [|apply IH; intros x Hx; apply HL; right; auto].
    destruct HG as (K & HK & EK). exists (map (fun k => (fst (fst e) * fst (fst k), (fun r => snd (fst e) r * snd (fst k) r), (fun i z => snd e i z * snd k i z))) K). split.
    + intros x Hx. apply in_map_iff in Hx. destruct Hx as (k & <- & Hk). destruct (HK k Hk). cbn [fst snd]. split; [apply rcont_mult; auto|apply smooth_mult; auto].
    + intros i r z Hi Hr. rewrite EK by auto. unfold pval. rewrite total_over_map. cbn [fst snd]. rewrite <- total_over_scal. apply total_over_ext. intros; ring.
Qed.
Lemma I2_lin F G c d : Sep F -> Sep G -> I2 (fun i r z => c * F i r z + d * G i r z) = c * I2 F + d * I2 G.
Proof. intros A B. symmetry. apply og_I2. apply og_lin; apply sep_og; auto. Qed.
Lemma I2_ext F G : Sep F -> (forall i r z, (i < N)%nat -> 0 < r -> F i r z = G i r z) -> I2 F = I2 G.
Proof. intros A E. apply og_I2. eapply og_ext; [exact E|apply sep_og; auto]. Qed.
Lemma I2_prod u f : rcont u -> smooth s f -> I2 (fun i r z => u r * f i z) = inner u * integral s f.
Proof. intros A B. symmetry. apply og_I2. apply og_prod; auto. Qed.
Lemma I2_nonneg F : Sep F -> (forall i r z, (i < N)%nat -> 0 < r -> 0 <= F i r z) -> 0 <= I2 F.
Proof.
  intros A E. destruct (sep_og F A) as (w & Hw & (h & Hh & ->)). pose proof Hrg as RG. apply total_nonneg. intros i Hi. destruct Hsg as (_ & _ & _ & Hp). destruct (Hp i Hi) as (_ & _ & M).
  apply Rmult_le_pos; [unfold weight; lra|]. apply (is_RInt_ge_0 (w i) (depth s i) (depth s (S i))); [apply depth_le; [apply Hsg|auto]|apply Hh; auto|].
  intros z _. apply (is_RInt_ge_0 (fun r => r * F i r z) (r_in g) (r_out g)); [lra|apply Hw; auto|]. intros r Hr. apply Rmult_le_pos; [lra|apply E; auto; lra].
Qed.

(** ** Modes *)
Notation mv m := (fun i r z => around m r * shape (vert m) i z).
Lemma around_cont m : around_equation m -> rcont (around m).
Proof. intros E r H. destruct (E r H) as [D _]. apply (ex_derive_continuous (V := R_NormedModule) _ _ (ex_intro _ _ D)). Qed.
Lemma mode_sep m : rfull m -> Sep (mv m).
Proof. intros (A & B & _). apply sep_prod; [apply around_cont; auto|apply vert_smooth; auto]. Qed.
Lemma around_orthogonal m l : rfull m -> rfull l -> (wavenumber m)^2 <> (wavenumber l)^2 -> inner (fun r => around m r * around l r) = 0.
Proof.
  intros (E1 & _ & D1 & C1 & _) (E2 & _ & D2 & C2 & _) Hne. pose proof Hrg as RG.
  set (u := around m) in *. set (u' := around l) in *. set (v := around_slope m) in *. set (v' := around_slope l) in *. set (w := wavenumber m) in *. set (w' := wavenumber l) in *.
  set (G := fun r => r * (v r * u' r - u r * v' r) / (w'^2 - w^2)). assert (Dw : w'^2 - w^2 <> 0) by lra.
  apply (is_RInt_unique (V := R_CompleteNormedModule)). eapply rint_val; [apply (is_RInt_derive G)|].
  - intros r H. rewrite Rmin_left, Rmax_right in H by lra. assert (Hp : 0 < r) by lra. destruct (E1 r Hp) as [A1 A2]. destruct (E2 r Hp) as [A3 A4].
    change (is_derive u r (v r)) in A1. change (is_derive v r (- w^2 * u r - v r / r)) in A2. change (is_derive u' r (v' r)) in A3. change (is_derive v' r (- w'^2 * u' r - v' r / r)) in A4.
    assert (X1 : ex_derive u r) by (eexists; eauto). assert (X2 : ex_derive v r) by (eexists; eauto). assert (X3 : ex_derive u' r) by (eexists; eauto). assert (X4 : ex_derive v' r) by (eexists; eauto).
    unfold G. auto_derive; [auto|]. change (fun x => u x) with u. change (fun x => v x) with v. change (fun x => u' x) with u'. change (fun x => v' x) with v'.
    rewrite (is_derive_unique _ _ _ A1), (is_derive_unique _ _ _ A2), (is_derive_unique _ _ _ A3), (is_derive_unique _ _ _ A4). match goal with |- ?u = ?v => change (@eq R u v) end. field. repeat split; auto; first [apply Rgt_not_eq; lra|lra].
  - intros r H. rewrite Rmin_left, Rmax_right in H by lra. apply (continuous_mult (K := R_AbsRing) (fun r => r) (fun r => u r * u' r)); [apply continuous_id|]. apply (rcont_mult u u'); [apply around_cont; auto|apply around_cont; auto|lra].
  - unfold G, minus, plus, opp. cbn -[pow]. unfold closed, drained in *. fold u in D1. fold u' in D2. fold v in C1. fold v' in C2. rewrite D1, D2, C1, C2. match goal with |- ?u = ?v => change (@eq R u v) end. field. auto.
Qed.
(** distinct terms *)
Definition apart (m l : rmode) : Prop := (wavenumber m)^2 <> (wavenumber l)^2 \/ (wavenumber m = wavenumber l /\ decay (vert m) <> decay (vert l)).
Lemma I2_mm m l : rfull m -> rfull l -> I2 (fun i r z => mv m i r z * mv l i r z) = inner (fun r => around m r * around l r) * integral s (fun i z => shape (vert m) i z * shape (vert l) i z).
Proof.
  intros Fm Fl. assert (A := proj1 Fm). assert (B := proj1 (proj2 Fm)). assert (A' := proj1 Fl). assert (B' := proj1 (proj2 Fl)).
  rewrite <- (I2_prod (fun r => around m r * around l r) (fun i z => shape (vert m) i z * shape (vert l) i z)).
  - apply I2_ext; [apply sep_mult; apply mode_sep; auto|]. intros; ring.
  - apply rcont_mult; apply around_cont; auto.
  - apply smooth_mult; apply vert_smooth; auto.
Qed.
Lemma orthogonal2 m l : rfull m -> rfull l -> apart m l -> I2 (fun i r z => mv m i r z * mv l i r z) = 0.
Proof.
  intros Fm Fl [H|[H1 H2]]; rewrite I2_mm by auto; [rewrite around_orthogonal by auto|rewrite vert_orthogonal by auto]; ring.
Qed.
(** ** Best approximation *)
Lemma rcomb_sep a ms : (forall m, In m ms -> rfull m) -> Sep (rcombination a ms).
Proof.
  intros E. revert a. induction ms as [|m ms IH]; intros a; destruct a as [|x a].
  1,2,3: apply (sep_ext (fun _ _ _ => 0)); [intros; reflexivity|apply sep_const].
  apply (sep_ext (fun i r z => x * mv m i r z + 1 * rcombination a ms i r z)); [intros; unfold rcombination, total_over; cbn [combine map fold_right fst snd]; ring|].
  apply sep_lin; [apply mode_sep; apply E; left; auto|apply IH; intros; apply E; right; auto].
Qed.
Lemma I2_comb a ms G : (forall m, In m ms -> rfull m) -> Sep G -> I2 (fun i r z => rcombination a ms i r z * G i r z) = total_over (combine a ms) (fun p => fst p * I2 (fun i r z => mv (snd p) i r z * G i r z)).
Proof.
  intros E HG. assert (Z : I2 (fun i r z => 0 * G i r z + 0 * G i r z) = 0) by (rewrite I2_lin by auto; ring). assert (S0 : Sep (fun i r z => 0 * G i r z + 0 * G i r z)) by (apply sep_lin; auto).
  revert a E. induction ms as [|m ms IH]; intros a E; destruct a as [|x a].
  1,2,3: cbn [combine]; unfold total_over; cbn [map fold_right]; rewrite <- Z; symmetry; apply I2_ext; [exact S0|intros; unfold rcombination, total_over; cbn; ring].
  assert (Fm : rfull m) by (apply E; left; auto).
  unfold total_over in *. cbn [combine map fold_right fst snd]. rewrite <- IH by (intros; apply E; right; auto).
  assert (S1 : Sep (fun i r z => mv m i r z * G i r z)) by (apply sep_mult; auto; apply mode_sep; auto).
  assert (S2 : Sep (fun i r z => rcombination a ms i r z * G i r z)) by (apply sep_mult; auto; apply rcomb_sep; intros; apply E; right; auto).
  rewrite <- (Rmult_1_l (I2 (fun i r z => rcombination a ms i r z * G i r z))). rewrite <- I2_lin by auto. symmetry. apply I2_ext; [apply sep_lin; auto|].
  intros; unfold rcombination, total_over; cbn [combine map fold_right fst snd]; ring.
Qed.
Lemma rcomb_minus a c ms i r z : length a = length ms -> length c = length ms -> rcombination a ms i r z - rcombination c ms i r z = rcombination (map (fun p => fst p - snd p) (combine a c)) ms i r z.
Proof.
  revert a c. induction ms as [|m ms IH]; intros [|x a] [|y c] L1 L2; try discriminate; [unfold rcombination, total_over; cbn; ring|].
  cbn in L1, L2. unfold rcombination, total_over in *. cbn [combine map fold_right fst snd]. rewrite <- IH by lia. ring.
Qed.
Lemma rbest ms a : (forall m, In m ms -> rfull m /\ rproject g m) -> ForallOrdPairs apart ms -> length a = length ms ->
  I2 (fun i r z => (1 - rcombination (map (fun m => amp (vert m)) ms) ms i r z)^2) <= I2 (fun i r z => (1 - rcombination a ms i r z)^2).
Proof.
  intros Hm Hd La. assert (Em : forall m, In m ms -> rfull m) by (intros m Hi; apply Hm; auto).
  set (A := map (fun m => amp (vert m)) ms). assert (LA : length A = length ms) by (unfold A; apply map_length).
  set (FA := rcombination A ms). set (Fa := rcombination a ms).
  assert (SA : Sep FA) by (apply rcomb_sep; auto). assert (Sa : Sep Fa) by (apply rcomb_sep; auto).
  assert (S1 : Sep (fun i r z => 1 - FA i r z)) by (apply (sep_ext (fun i r z => 1 * 1 + (-1) * FA i r z)); [intros; ring|apply (sep_lin (fun _ _ _ => 1)); [apply sep_const|auto]]).
  assert (Sy : forall m l, apart m l -> apart l m) by (intros m l [H|[H1 H2]]; [left|right]; auto).
  (* the misfit is orthogonal to every term *)
  assert (O : forall m, In m ms -> I2 (fun i r z => mv m i r z * (1 - FA i r z)) = 0).
  { intros m Hin. destruct (Hm m Hin) as [Fm (n & d & I1 & I3 & Dp & Am)].
    assert (Sm : Sep (mv m)) by (apply mode_sep; auto). apply og_I2 in I1. apply og_I2 in I3.
    rewrite (I2_ext _ (fun i r z => 1 * mv m i r z + (-1) * (FA i r z * mv m i r z))); [|apply sep_mult; auto|intros; ring].
    rewrite I2_lin by (auto; apply sep_mult; auto). rewrite <- I1. unfold FA. rewrite I2_comb by auto.
    assert (X : total_over (combine A ms) (fun p => fst p * I2 (fun i r z => mv (snd p) i r z * mv m i r z)) = amp (vert m) * d).
    { rewrite I3. rewrite <- (I2_ext (fun i r z => mv m i r z * mv m i r z) (fun i r z => (around m r * shape (vert m) i z)^2)); [|apply sep_mult; auto|intros; ring]. unfold A. clear - Hm Hd Hin Fm Bt Bb Hg Sy.
      induction ms as [|l ms IH]; [destruct Hin|]. cbn [map combine]. unfold total_over in *. cbn [map fold_right fst snd]. inversion Hd as [|? ? N1 N2]; subst.
      destruct Hin as [->|Hin].
      - assert (Z : fold_right Rplus 0 (map (fun p => fst p * I2 (fun i r z => around (snd p) r * shape (vert (snd p)) i z * (around m r * shape (vert m) i z))) (combine (map (fun m => amp (vert m)) ms) ms)) = 0); [|rewrite Z; ring].
        clear IH. assert (Hl : forall l, In l ms -> rfull l /\ apart m l) by (intros l Hl; split; [apply Hm; right; auto|rewrite Forall_forall in N1; apply N1; auto]).
        clear - Hl Fm Bt Bb Hg Sy. induction ms as [|l ms IH]; [reflexivity|]. cbn [map combine fold_right fst snd]. rewrite IH by (intros; apply Hl; right; auto). destruct (Hl l (or_introl eq_refl)) as [F1 F2]. rewrite (orthogonal2 l m) by auto. ring.
      - rewrite IH; auto; [|intros; apply Hm; right; auto]. rewrite (orthogonal2 l m); [ring|apply Hm; left; auto|auto|]. rewrite Forall_forall in N1. apply N1; auto. }
    rewrite X, Am. field. lra. }
  set (D := fun i r z => FA i r z - Fa i r z). set (dl := map (fun p => fst p - snd p) (combine A a)).
  assert (ED : forall i r z, D i r z = rcombination dl ms i r z) by (intros i r z; apply rcomb_minus; auto).
  assert (SD : Sep D) by (apply (sep_ext (rcombination dl ms)); [intros; symmetry; apply ED|apply rcomb_sep; auto]).
  assert (SDM : Sep (fun i r z => D i r z * (1 - FA i r z))) by (apply sep_mult; auto).
  assert (Cross : I2 (fun i r z => D i r z * (1 - FA i r z)) = 0).
  { rewrite (I2_ext _ (fun i r z => rcombination dl ms i r z * (1 - FA i r z))) by (auto; intros; rewrite ED; auto). rewrite I2_comb by auto.
    unfold total_over. transitivity (fold_right Rplus 0 (map (fun _ : R * rmode => 0) (combine dl ms))).
    - f_equal. apply map_ext_in. intros [x m] Hin. cbn [fst snd]. rewrite O; [ring|]. apply in_combine_r in Hin. auto.
    - clear. induction (combine dl ms); cbn; [auto|lra]. }
  assert (SS : Sep (fun i r z => (1 - FA i r z) * (1 - FA i r z))) by (apply sep_mult; auto). assert (SDD : Sep (fun i r z => D i r z * D i r z)) by (apply sep_mult; auto).
  rewrite <- (I2_ext (fun i r z => 1 * ((1 - FA i r z) * (1 - FA i r z)) + 1 * (2 * (D i r z * (1 - FA i r z)) + 1 * (D i r z * D i r z))) (fun i r z => (1 - Fa i r z)^2)); [|apply sep_lin; [auto|apply sep_lin; auto]|intros; unfold D; ring].
  rewrite <- (I2_ext (fun i r z => (1 - FA i r z) * (1 - FA i r z)) (fun i r z => (1 - FA i r z)^2)); [|auto|intros; ring].
  rewrite I2_lin; [|auto|apply sep_lin; auto]. rewrite I2_lin by auto. rewrite Cross.
  assert (0 <= I2 (fun i r z => D i r z * D i r z)); [|lra]. apply I2_nonneg; [auto|]. intros i r z _ _. pose proof (Rle_0_sqr (D i r z)) as Q. exact Q.
Qed.
End Ground.

(** * The integrals: rows, bounds, sums of intervals *)
From Coq Require Import Reals List Bool ZArith Lia Lra.
From Coquelicot Require Import Coquelicot.
From Verif Require Import Base QuadratureGen QuadratureModel SpecQuadrature QuadratureProofs QuadratureProofs2.
Import ListNotations.
Open Scope R_scope.

Lemma gl_allowed_iff n : In n gl_allowed <-> (2 <= n <= 20)%Z \/ n = 32%Z \/ n = 64%Z \/ n = 100%Z.
Proof. unfold gl_allowed. cbn [In]. lia. Qed.
Lemma gk_allowed_iff n : In n gk_allowed <-> In n [7; 10; 15; 20; 25; 30]%Z.
Proof. unfold gk_allowed. cbn [In]. lia. Qed.
Lemma gl_not n : ~ In n gl_allowed -> gauss_legendre n = Err ValueError.
Proof. intros H. unfold gauss_legendre. destruct (zmem n gl_allowed) eqn:E; [apply zmem_In in E; contradiction|reflexivity]. Qed.
Lemma gk_not n : ~ In n gk_allowed -> gauss_kronrod n = Err ValueError.
Proof. intros H. unfold gauss_kronrod. destruct (zmem n gk_allowed) eqn:E; [apply zmem_In in E; contradiction|reflexivity]. Qed.

Lemma broadcast_same la lb : length la = length lb -> broadcast la lb = Ok (combine la lb).
Proof.
  intros H. destruct la as [|a [|a' la]]; destruct lb as [|b [|b' lb]]; try discriminate; cbn in *; auto.
  injection H as H. rewrite H. rewrite Nat.eqb_refl. reflexivity.
Qed.
Lemma broadcast_left a lb : broadcast [a] lb = Ok (map (fun b => (a, b)) lb).
Proof. reflexivity. Qed.
Lemma broadcast_right la b : broadcast la [b] = Ok (map (fun a => (a, b)) la).
Proof. destruct la as [|a [|a' la]]; reflexivity. Qed.
Lemma broadcast_bad la lb : length la <> length lb -> length la <> 1%nat -> length lb <> 1%nat -> broadcast la lb = Err ValueError.
Proof.
  intros H1 H2 H3. destruct la as [|a [|a' la]]; destruct lb as [|b [|b' lb]]; cbn in *; try lia; auto.
  destruct (Nat.eqb_spec (length la) (length lb)); [lia|reflexivity].
Qed.
Lemma combine_repeat_l {B} (a : R) (lb : list B) : map (fun b => (a, b)) lb = combine (repeat a (length lb)) lb.
Proof. induction lb as [|b lb IH]; [reflexivity|]. cbn. rewrite IH. reflexivity. Qed.
Lemma combine_repeat_r {A} (la : list A) (b : R) : map (fun a => (a, b)) la = combine la (repeat b (length la)).
Proof. induction la as [|a la IH]; [reflexivity|]. cbn. rewrite IH. reflexivity. Qed.

(** ** value of a rule: inside the interval, positive, bounded *)
Lemma inside a b t : -1 < t < 1 -> a <> b -> Rmin a b < (b - a) / 2 * t + (a + b) / 2 < Rmax a b.
Proof. intros Ht Hab. unfold Rmin, Rmax. destruct (Rle_dec a b); split; nra. Qed.
Lemma rule_inside f g a b xw : List.Forall (fun e => -1 < fst e < 1) xw -> (forall x, Rmin a b < x < Rmax a b -> f x = g x) -> rule f a b xw = rule g a b xw.
Proof.
  intros Hx H. unfold rule. cbv zeta. apply rsum_ext. intros e He. rewrite List.Forall_forall in Hx. specialize (Hx e He).
  destruct (Req_dec a b) as [->|N]; [unfold Rdiv; rewrite Rminus_eq_0; ring|]. rewrite H; [reflexivity|apply inside; auto].
Qed.
Lemma rsum_nonneg {A} (f : A -> R) l : (forall e, In e l -> 0 <= f e) -> 0 <= rsum (map f l).
Proof. intros H. induction l as [|a l IH]; cbn; [lra|]. assert (0 <= f a) by (apply H; left; auto). assert (0 <= rsum (map f l)) by (apply IH; intros; apply H; right; auto). unfold rsum in *. lra. Qed.
Lemma rule_nonneg f a b xw : List.Forall (fun e => -1 < fst e < 1 /\ 0 < snd e) xw -> a <= b -> (forall x, a < x < b -> 0 <= f x) -> 0 <= rule f a b xw.
Proof.
  intros Hx Hab H. unfold rule. cbv zeta. apply rsum_nonneg. intros e He. rewrite List.Forall_forall in Hx. destruct (Hx e He) as [H1 H2].
  destruct (Req_dec a b) as [->|N]; [unfold Rdiv; rewrite Rminus_eq_0; lra|].
  assert (I := inside a b (fst e) H1 N). rewrite Rmin_left, Rmax_right in I by auto. specialize (H _ I). apply Rmult_le_pos; [|lra]. apply Rmult_le_pos; [lra|auto].
Qed.
Lemma rule_const c a b xw m eps : moments xw m eps -> (0 < m)%nat -> Rabs (rule (fun _ => c) a b xw - c * (b - a)) <= eps * Rabs ((b - a) / 2) * Rabs c.
Proof.
  intros Hm Hp. assert (H := rule_mono xw m eps a b 0 Hm Hp). cbn [pow INR] in H. rewrite !Rmult_1_r in H. unfold Rdiv at 1 in H. rewrite Rinv_1, Rmult_1_r in H.
  rewrite (rule_ext _ (fun x => c * 1)) by (intros; ring). rewrite (rule_scal c (fun _ => 1)).
  replace (c * rule (fun _ => 1) a b xw - c * (b - a)) with (c * (rule (fun _ => 1) a b xw - (b - a))) by ring. rewrite Rabs_mult, Rmult_comm. apply Rmult_le_compat_r; [apply Rabs_pos|exact H].
Qed.
(** near-best approximation: no worse than any polynomial of the right degree *)
Lemma rule_approx f xw m eps cs a b I delta : List.Forall (fun e => -1 < fst e < 1 /\ 0 < snd e) xw -> moments xw m eps -> (length cs <= m)%nat -> (0 < m)%nat -> a <= b ->
  is_RInt f a b I -> (forall x, a <= x <= b -> Rabs (f x - poly cs x) <= delta) ->
  Rabs (rule f a b xw - I) <= delta * (2 + eps) * (b - a) + eps * ((b - a) / 2) * poly_size cs (Rmax (Rabs a) (Rabs b)).
Proof.
  intros Hx Hm Hl Hp Hab HI Hd.
  assert (D0 : 0 <= delta) by (apply Rle_trans with (2 := Hd a ltac:(lra)); apply Rabs_pos).
  assert (E0 : 0 <= eps) by (apply Rle_trans with (2 := Hm 0%nat Hp); apply Rabs_pos).
  assert (Hpi := poly_is_int cs 0 a b). apply (is_RInt_ext _ (poly cs)) in Hpi; [|intros; cbn; ring]. set (Ip := polyint 0 cs a b) in *.
  assert (B := rule_polynomial xw m eps cs a b Ip Hm Hl Hpi). rewrite (Rabs_pos_eq ((b - a) / 2)) in B by lra.
  assert (B1 : Rabs (rule f a b xw - rule (poly cs) a b xw) <= delta * (1 + eps) * (b - a)).
  { assert (C1 := rule_const delta a b xw m eps Hm Hp). rewrite (Rabs_pos_eq delta) in C1 by auto. rewrite (Rabs_pos_eq ((b - a) / 2)) in C1 by lra.
    assert (U : forall g h, (forall x, a < x < b -> h x <= g x) -> rule h a b xw <= rule g a b xw).
    { intros g h Hgh. assert (N := rule_nonneg (fun x => g x + - 1 * h x) a b xw Hx Hab). cbv beta in N. rewrite (rule_plus g (fun x => -1 * h x)), rule_scal in N.
      assert (0 <= rule g a b xw + - 1 * rule h a b xw) by (apply N; intros x Hx2; specialize (Hgh x Hx2); lra). lra. }
    assert (U1 := U (fun x => poly cs x + delta) f). assert (U2 := U f (fun x => poly cs x + (-1) * delta)). cbv beta in U1, U2.
    rewrite (rule_plus (poly cs) (fun _ => delta)) in U1. rewrite (rule_plus (poly cs) (fun _ => (-1) * delta)), (rule_scal (-1) (fun _ => delta)) in U2.
    assert (V1 : rule f a b xw <= rule (poly cs) a b xw + rule (fun _ => delta) a b xw). { apply U1. intros x Hx2. specialize (Hd x ltac:(lra)). apply Rabs_le_between in Hd. lra. }
    assert (V2 : rule (poly cs) a b xw + -1 * rule (fun _ => delta) a b xw <= rule f a b xw). { apply U2. intros x Hx2. specialize (Hd x ltac:(lra)). apply Rabs_le_between in Hd. lra. }
    apply Rabs_le_between in C1. assert (0 <= eps * ((b - a) / 2) * delta) by (apply Rmult_le_pos; auto; apply Rmult_le_pos; lra). apply Rabs_le. nra. }
  assert (B2 : Rabs (I - Ip) <= delta * (b - a)).
  { assert (J := is_RInt_minus (V := R_NormedModule) _ _ _ _ _ _ HI Hpi).
    replace (I - Ip) with (minus I Ip) by reflexivity. rewrite Rmult_comm.
    apply (norm_RInt_le_const (V := R_NormedModule) (fun x => minus (f x) (poly cs x)) a b (minus I Ip) delta Hab); auto. }
  replace (rule f a b xw - I) with ((rule f a b xw - rule (poly cs) a b xw) + (rule (poly cs) a b xw - Ip) + (Ip - I)) by ring.
  assert (T1 := Rabs_triang ((rule f a b xw - rule (poly cs) a b xw) + (rule (poly cs) a b xw - Ip)) (Ip - I)).
  assert (T2 := Rabs_triang (rule f a b xw - rule (poly cs) a b xw) (rule (poly cs) a b xw - Ip)). rewrite (Rabs_minus_sym Ip I) in T1. lra.
Qed.

(** ** consecutive intervals *)
Lemma last_indep {A} (l : list A) d d' : l <> [] -> last l d = last l d'.
Proof. induction l as [|a [|b l] IH]; intros H; [congruence|reflexivity|]. apply IH. discriminate. Qed.
Fixpoint steps (x : R) (xs : list R) : R := match xs with [] => 0 | y :: r => Rabs ((y - x) / 2) + steps y r end.
Lemma poly_size_mono cs u v : 0 <= u <= v -> 0 <= poly_size cs u <= poly_size cs v.
Proof.
  intros H. unfold poly_size. induction cs as [|c r IH]; cbn [poly map]; [lra|]. assert (P := Rabs_pos c). split; nra.
Qed.
Lemma consecutive xw m eps cs : moments xw m eps -> (length cs <= m)%nat -> 0 <= eps -> forall xs x0 M I, (forall x, In x (x0 :: xs) -> Rabs x <= M) ->
  is_RInt (poly cs) x0 (last xs x0) I ->
  Rabs (rsum (map (fun e => rule (poly cs) (fst e) (snd e) xw) (combine (removelast (x0 :: xs)) xs)) - I) <= eps * steps x0 xs * poly_size cs M.
Proof.
  intros Hm Hl He. induction xs as [|y xs IH]; intros x0 M I HM HI.
  - cbn in *. assert (E : I = 0). { rewrite <- (is_RInt_unique _ _ _ _ HI). exact (RInt_point (V := R_CompleteNormedModule) x0 (poly cs)). } rewrite E, Rminus_0_r, Rabs_R0. lra.
  - assert (Hc := fun u v => poly_is_int cs 0 u v). assert (Hc' : forall u v, is_RInt (poly cs) u v (polyint 0 cs u v)).
    { intros u v. apply (is_RInt_ext (fun x => x ^ 0 * poly cs x)); [intros; cbn; ring|apply Hc]. }
    assert (EL : last (y :: xs) x0 = last xs y).
    { clear. revert y. induction xs as [|z xs IH]; intros y; [reflexivity|]. change (last (z :: xs) x0 = last (z :: xs) y). apply last_indep. discriminate. }
    rewrite EL in HI. assert (E : I = polyint 0 cs x0 y + polyint 0 cs y (last xs y)).
    { rewrite <- (is_RInt_unique _ _ _ _ HI). apply is_RInt_unique. apply (is_RInt_Chasles (V := R_NormedModule)) with y; apply Hc'. }
    change (removelast (x0 :: y :: xs)) with (x0 :: removelast (y :: xs)). cbn [combine map rsum fold_right fst snd steps].
    assert (IH1 := IH y M _ (fun x Hx => HM x (or_intror Hx)) (Hc' y (last xs y))). unfold rsum in IH1. set (S0 := fold_right Rplus 0 _) in *. rewrite E.
    assert (R1 := rule_polynomial xw m eps cs x0 y _ Hm Hl (Hc' x0 y)).
    assert (M1 : Rmax (Rabs x0) (Rabs y) <= M) by (apply Rmax_lub; apply HM; cbn; auto).
    assert (M0 : 0 <= Rmax (Rabs x0) (Rabs y)) by (apply Rle_trans with (1 := Rabs_pos x0); apply Rmax_l).
    assert (PS := poly_size_mono cs _ _ (conj M0 M1)).
    assert (R2 : eps * Rabs ((y - x0) / 2) * poly_size cs (Rmax (Rabs x0) (Rabs y)) <= eps * Rabs ((y - x0) / 2) * poly_size cs M) by (apply Rmult_le_compat_l; [apply Rmult_le_pos; auto; apply Rabs_pos|lra]).
    set (r := rule (poly cs) x0 y xw) in *. set (p1 := polyint 0 cs x0 y) in *. set (p2 := polyint 0 cs y (last xs y)) in *.
    replace (r + S0 - (p1 + p2)) with ((r - p1) + (S0 - p2)) by ring. assert (T := Rabs_triang (r - p1) (S0 - p2)). lra.
Qed.

(** ** gk: signs, coarse rule *)
Lemma dec_pos t : forallb (fun e => (Z.abs (fst e) <? D)%Z && (0 <? snd e)%Z) t = true -> List.Forall (fun e => -1 < fst e < 1 /\ 0 < snd e) (map (fun e => (dec (fst e), dec (snd e))) t).
Proof.
  intros T. rewrite forallb_forall in T. apply List.Forall_forall. intros e He.
  apply in_map_iff in He. destruct He as (z & <- & Hz). specialize (T z Hz). apply andb_true_iff in T. destruct T as [T1 T2]. apply Z.ltb_lt in T1, T2. cbn [fst snd].
  rewrite !dec_D. assert (Dp := IZRD). assert (Ip := Rinv_0_lt_compat _ Dp). apply IZR_lt in T1, T2. rewrite abs_IZR in T1. apply Rabs_def2 in T1. unfold Rdiv.
  assert (E1 : IZR D * / IZR D = 1) by (apply Rinv_r; lra). split; [split|apply Rmult_lt_0_compat; auto]; nra.
Qed.
Definition same_table (n : Z) : bool :=
  match gl_table n, gk_table n with
  | Some t, Some (g, _, _) => if list_eq_dec (fun a b : Z * Z => ltac:(decide equality; apply Z.eq_dec)) t g then true else false
  | _, _ => false end.
Lemma same_all : forallb same_table [7; 10; 15; 20]%Z = true.
Proof. vm_compute. reflexivity. Qed.
Lemma gk_full n : In n gk_allowed -> exists xi wi1 wi2, gauss_kronrod n = Ok (xi, wi1, wi2) /\
  moments (combine xi wi1) (2 * Z.to_nat n) (/ 10 ^ 24) /\ moments (combine xi wi2) (3 * Z.to_nat n + 2) (/ 10 ^ 24) /\
  List.Forall (fun e => -1 < fst e < 1 /\ 0 < snd e) (combine xi wi2) /\ List.Forall (fun e => -1 < fst e < 1) (combine xi wi1) /\
  (In n [7; 10; 15; 20]%Z -> exists xw, gauss_legendre n = Ok xw /\ forall f a b, rule f a b (combine xi wi1) = rule f a b xw).
Proof.
  intros H. destruct (gk_rule n H) as (xi & wi1 & wi2 & E & M1 & M2 & _ & L1 & L2). exists xi, wi1, wi2. split; [exact E|]. split; [exact M1|]. split; [exact M2|].
  assert (A := gk_all). rewrite forallb_forall in A. specialize (A n H). unfold gk_ok in A. unfold gauss_kronrod in E.
  assert (Hz := H). apply zmem_In in Hz. rewrite Hz in E. cbn [negb] in E. destruct (gk_table n) as [[[g k] dup]|] eqn:T; [|discriminate]. rewrite !andb_true_iff in A.
  destruct A as [[[[[Lg Lk] Ld] Hm] Tg] Tk]. apply Nat.eqb_eq in Ld. destruct (put_ok k g dup Ld Hm) as (wi1' & Hp & Hl & HF). rewrite Hp in E. cbn [bind] in E. injection E as <- <- <-.
  assert (P2 : List.Forall (fun e => -1 < fst e < 1 /\ 0 < snd e) (map (fun e => (dec (fst e), dec (snd e))) k)).
  { apply dec_pos. unfold table_ok in Tk. rewrite !andb_true_iff in Tk. tauto. }
  split; [rewrite combine_fst_snd; exact P2|]. split.
  - apply List.Forall_forall. intros [x w] He. apply in_combine_l in He. cbn [fst]. apply in_map_iff in He. destruct He as (z & <- & Hz2).
    rewrite List.Forall_forall in P2. apply (P2 (dec (fst z), dec (snd z))). apply in_map_iff. exists z. auto.
  - intros Hs. assert (SA := same_all). rewrite forallb_forall in SA. specialize (SA n Hs). unfold same_table in SA. rewrite T in SA. destruct (gl_table n) as [t|] eqn:Tl; [|discriminate].
    destruct list_eq_dec as [Et|]; [|discriminate]. subst t. unfold gauss_legendre. rewrite Tl.
    assert (G : zmem n gl_allowed = true). { apply zmem_In. apply gl_allowed_iff. cbn [In] in Hs. lia. } rewrite G. cbn [negb].
    eexists. split; [reflexivity|]. intros f a b. unfold rule. cbv zeta. apply (HF (fun x w => (b - a) / 2 * f ((b - a) / 2 * x + (a + b) / 2) * w)). intros; ring.
Qed.
(** ** the nodes are symmetric *)
Definition sym_table (n : Z) : bool :=
  match gl_table n with
  | Some t => if list_eq_dec (fun a b : Z * Z => ltac:(decide equality; apply Z.eq_dec)) (rev (map (fun e => (- fst e, snd e)%Z) t)) t then true else false
  | None => false end.
Lemma sym_all : forallb sym_table gl_allowed = true.
Proof. vm_compute. reflexivity. Qed.
Lemma rsum_rev l : rsum (rev l) = rsum l.
Proof.
  assert (A : forall u v, rsum (u ++ v) = rsum u + rsum v).
  { unfold rsum. intros u v. induction u as [|x u IH]; cbn [app fold_right]; [ring|]. rewrite IH. ring. }
  induction l as [|x l IH]; [reflexivity|]. cbn [rev]. rewrite A, IH. unfold rsum. cbn [fold_right]. ring.
Qed.
Lemma gl_reversed n xw f a b : In n gl_allowed -> gauss_legendre n = Ok xw -> rule f b a xw = - rule f a b xw.
Proof.
  intros Hn E. assert (A := sym_all). rewrite forallb_forall in A. specialize (A n Hn). unfold sym_table in A. unfold gauss_legendre in E. apply zmem_In in Hn. rewrite Hn in E. cbn [negb] in E.
  destruct (gl_table n) as [t|]; [|discriminate]. injection E as <-. destruct list_eq_dec as [S|]; [|discriminate].
  unfold rule. cbv zeta. rewrite map_map. cbn [fst snd]. rewrite <- S at 1. rewrite map_rev, rsum_rev, !map_map. cbn [fst snd].
  replace (- rsum (map (fun e => (b - a) / 2 * f ((b - a) / 2 * dec (fst e) + (a + b) / 2) * dec (snd e)) t)) with (-1 * rsum (map (fun e => (b - a) / 2 * f ((b - a) / 2 * dec (fst e) + (a + b) / 2) * dec (snd e)) t)) by ring.
  rewrite <- rsum_scal. apply rsum_ext. intros e _. unfold dec. rewrite opp_IZR.
  replace ((a - b) / 2 * (- IZR (fst e) / 10 ^ 25) + (b + a) / 2) with ((b - a) / 2 * (IZR (fst e) / 10 ^ 25) + (a + b) / 2) by (unfold Rdiv; ring). unfold Rdiv. ring.
Qed.

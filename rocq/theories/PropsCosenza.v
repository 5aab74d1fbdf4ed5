(** * C126: anomalous diffusion (cosenzaandkorosak2014.py) *)
From Coq Require Import Reals List Arith ZArith Bool Lia Lra.
From Coquelicot Require Import Coquelicot.
From Verif Require Import Base LaplaceModel SpecLaplace LaplaceProofs PropsLaplace SpecPiecewise TerzaghiModel TerzaghiProofs LuProofs PropsLu CosenzaModel.
Import ListNotations.
Open Scope R_scope.

(** F is, wherever its denominator does not vanish, the Laplace transform of the function b that starts from 1 and
    obeys b' + sum of theta times the derivative of order v of b + lam b = 0. *)
Definition sum_C (l : list (R * R)) (f : R -> R -> C) : C := fold_right Cplus (RtoC 0) (map (fun p => f (fst p) (snd p)) l).
Definition decay_transform (cpow : C -> R -> C) (v theta : list R) (lam : R) (F : C -> C) : Prop := forall s,
  (s + RtoC lam + sum_C (combine v theta) (fun v th => RtoC th * cpow s v))%C <> RtoC 0 ->
  (s * F s - RtoC 1 + sum_C (combine v theta) (fun v th => RtoC th * (cpow s v * F s - cpow s (v - 1)%R)) + RtoC lam * F s = RtoC 0)%C.

Lemma fold_sum l (f : R -> R -> C) c : fold_left (fun a p => a + f (fst p) (snd p))%C l c = (c + sum_C l f)%C.
Proof.
  revert c. induction l as [|p l IH]; intros c; unfold sum_C; cbn [fold_left map fold_right]; [ring|]. rewrite IH. unfold sum_C. ring.
Qed.
Lemma sum_C_dist l (f g : R -> R -> C) x : sum_C l (fun v th => RtoC th * (f v th * x - g v th))%C = (sum_C l (fun v th => RtoC th * f v th) * x - sum_C l (fun v th => RtoC th * g v th))%C.
Proof. unfold sum_C. induction l as [|p l IH]; cbn [map fold_right]; [ring|]. rewrite IH. ring. Qed.
Lemma F_decay cpow v theta lam : decay_transform cpow v theta lam (co_F cpow v theta lam).
Proof.
  intros s Hd. unfold co_F. cbv zeta.
  rewrite (fold_sum _ (fun v th => RtoC th * cpow s (v - 1)%R)%C), (fold_sum _ (fun v th => RtoC th * cpow s v)%C).
  set (A := sum_C (combine v theta) (fun v th => RtoC th * cpow s (v - 1)%R)%C) in *. set (B := sum_C (combine v theta) (fun v th => RtoC th * cpow s v)%C) in *.
  rewrite (sum_C_dist _ (fun v _ => cpow s v) (fun v _ => cpow s (v - 1))). fold A B. field. exact Hd.
Qed.
(** The multipliers of the waves at the times asked for. *)
Definition multiplier (cpow : C -> R -> C) (v theta : list R) (lam : R) (ts b : list R) : Prop := exists F a,
  decay_transform cpow v theta lam F /\ call (Talbot F 24 0 true) ts = Ok a /\ b = values a.
Definition co_u (ui L : R) (n : nat) (b : nat -> list R) (z : R) (j : nat) : R := ui * ssum (fun k => 2 / co_M k * sin (co_M k * (z / L)) * nth j (b k) 0) n.

Lemma sum_combine (f : nat -> R -> R) (g : nat -> R) n : np_sum (map (fun p => f (fst p) (snd p)) (combine (seq 0 n) (map g (seq 0 n)))) = ssum (fun k => f k (g k)) n.
Proof.
  assert (E : forall l, combine l (map g l) = map (fun k => (k, g k)) l) by (induction l as [|x l IH]; [reflexivity|]; cbn; rewrite IH; reflexivity).
  rewrite E, map_map. cbn [fst snd]. unfold np_sum. induction n as [|n IH]; [reflexivity|]. rewrite seq_S, map_app, fold_left_app, IH. reflexivity.
Qed.
Lemma co_run cpow z t theta v tpor L kv mv gamw ui n : nonzero t -> exists b,
  (forall k, multiplier cpow v theta (co_M k) t (b k)) /\
  cosenzaandkorosak2014 cpow z t theta v tpor L kv mv gamw ui n =
    Ok (map (fun z => map (co_u ui L n b z) (seq 0 (length t))) z, map (fun j => 1 - ssum (fun k => 8 / (co_M k)^2 * nth j (b k) 0) n) (seq 0 (length t))).
Proof.
  intros Hz. set (b := fun k => match call (Talbot (co_F cpow v theta (co_M k)) 24 0 true) t with Ok a => spread a | Err _ => [] end).
  assert (Hb : forall k, exists a, call (Talbot (co_F cpow v theta (co_M k)) 24 0 true) t = Ok a /\ b k = spread a).
  { intros k. destruct (C125_midpoint_rule (co_F cpow v theta (co_M k)) 24 0 true ltac:(lia)) as (N & _ & _ & _ & X). destruct (X t Hz) as (a & _ & E & _). exists a. unfold b. rewrite E. auto. }
  exists b. split.
  { intros k. destruct (Hb k) as (a & E & Q). exists (co_F cpow v theta (co_M k)), a. split; [apply F_decay|]. split; [auto|]. rewrite Q. destruct a; reflexivity. }
  unfold cosenzaandkorosak2014. replace (match tpor with None => t | Some _ => t end) with t by (destruct tpor; auto). cbv zeta.
  assert (E : co_Bn cpow v theta t n = Ok (map b (seq 0 n))). { unfold co_Bn. apply mapM_map. intros k _. destruct (Hb k) as (a & E & ->). rewrite E. reflexivity. }
  rewrite E. cbn [bind]. f_equal. f_equal.
  - rewrite map_map. apply map_ext. intros x. apply map_ext. intros j. unfold row. rewrite map_map.
    rewrite (sum_combine (fun k c => 2 / co_M k * sin (co_M k * (x / L)) * c) (fun k => nth j (b k) 0)). unfold co_u. ring.
  - apply map_ext. intros j. unfold row. rewrite map_map. f_equal. rewrite (sum_combine (fun k c => 2 * 2^2 / (co_M k)^2 * c) (fun k => nth j (b k) 0)). apply ssum_ext. intros k _. unfold Rdiv. ring.
Qed.
Lemma co_M_Mk k : co_M k = 2 * Mk k. Proof. unfold co_M, Mk. field. Qed.

(** The pore pressures are sums of waves that vanish at top and bottom and are the same at equal distances from
    them, with multipliers given by the transforms; the degree of consolidation leaves twice their mean over the
    depth, relative to ui. *)
Theorem C126_waves : forall cpow z t theta v tpor L kv mv gamw ui n, nonzero t -> 0 < L -> exists por doc u b,
  cosenzaandkorosak2014 cpow z t theta v tpor L kv mv gamw ui n = Ok (por, doc) /\
  length por = length z /\ length doc = length t /\
  (forall k, (k < length z)%nat -> length (nth k por []) = length t /\ forall j, (j < length t)%nat -> nth j (nth k por []) 0 = u (at_ z k) j) /\
  (forall k, (k < n)%nat -> multiplier cpow v theta ((2 * INR k + 1) * PI) t (b k)) /\
  (forall x j, u x j = ui * ssum (fun k => 2 / ((2 * INR k + 1) * PI) * sin ((2 * INR k + 1) * PI * (x / L)) * nth j (b k) 0) n) /\
  (forall j, u 0 j = 0 /\ u L j = 0 /\ forall x, u (L - x) j = u x j) /\
  forall j, (j < length t)%nat -> exists mean, is_RInt (fun x => u x j) 0 L (mean * L) /\ ui * (1 - at_ doc j) = 2 * mean.
Proof.
  intros cpow z t theta v tpor L kv mv gamw ui n Hz HL. destruct (co_run cpow z t theta v tpor L kv mv gamw ui n Hz) as (b & Hb & E).
  do 2 eexists. exists (co_u ui L n b), b. split; [exact E|]. split; [apply map_length|]. split; [rewrite map_length, seq_length; auto|].
  assert (SM : forall k x, sin (co_M k * ((L - x) / L)) = sin (co_M k * (x / L))).
  { intros k x. replace (co_M k * ((L - x) / L)) with (PI - co_M k * (x / L) + 2 * INR k * PI) by (unfold co_M; field; lra). rewrite sin_period. rewrite sin_minus, sin_PI, cos_PI. ring. }
  split; [|split; [|split; [|split]]].
  - intros k Hk. rewrite (nth_indep _ [] (map (co_u ui L n b 0) (seq 0 (length t)))) by (rewrite map_length; auto). rewrite map_nth with (f := fun z => map (co_u ui L n b z) (seq 0 (length t))). split; [rewrite map_length, seq_length; auto|].
    intros j Hj. rewrite (nth_indep _ 0 (co_u ui L n b (nth k z 0) 0)) by (rewrite map_length, seq_length; auto). rewrite map_nth with (f := co_u ui L n b (nth k z 0)). rewrite seq_nth by auto. reflexivity.
  - intros k _. apply Hb.
  - reflexivity.
  - intros j. assert (Z0 : co_u ui L n b 0 j = 0). { unfold co_u. rewrite ssum_0'; [ring|]. intros k _. replace (co_M k * (0 / L)) with 0 by (unfold Rdiv; ring). rewrite sin_0. ring. }
    assert (Sy : forall x, co_u ui L n b (L - x) j = co_u ui L n b x j). { intros x. unfold co_u. f_equal. apply ssum_ext. intros k _. rewrite SM. reflexivity. }
    split; [auto|]. split; [|auto]. rewrite <- Z0. rewrite <- (Sy 0). f_equal. ring.
  - intros j Hj. exists (ui * ssum (fun k => 4 / (co_M k)^2 * nth j (b k) 0) n). split.
    + apply (rint_val _ _ _ (ui * (ssum (fun k => L * (4 / (co_M k)^2 * nth j (b k) 0)) n))); [|rewrite ssum_scal; match goal with |- ?u = ?v => change (@eq R u v) end; ring].
      apply (is_RInt_scal (V := R_NormedModule) (fun x => ssum (fun k => 2 / co_M k * sin (co_M k * (x / L)) * nth j (b k) 0) n)). apply (ssum_RInt (fun k x => 2 / co_M k * sin (co_M k * (x / L)) * nth j (b k) 0)). intros k _.
      pose proof (Mk_pos k) as MP. assert (MP' : 0 < co_M k) by (rewrite co_M_Mk; lra). generalize (nth j (b k) 0). intros c.
      apply (rint_val _ _ _ (minus (- (2 * L / (co_M k)^2) * cos (co_M k * (L / L)) * c) (- (2 * L / (co_M k)^2) * cos (co_M k * (0 / L)) * c))).
      * apply (is_RInt_derive (fun z => - (2 * L / (co_M k)^2) * cos (co_M k * (z / L)) * c)).
        -- intros y _. generalize dependent (co_M k). intros M HM. auto_derive; [auto|]. cbn [pow]. unfold Rdiv. tz_gen. field. lra.
        -- intros y _. apply (ex_derive_continuous (V := R_NormedModule)). auto_derive. auto.
      * replace (co_M k * (L / L)) with (PI + 2 * INR k * PI) by (unfold co_M; field; lra). replace (co_M k * (0 / L)) with 0 by (unfold Rdiv; ring). rewrite cos_period, cos_PI, cos_0. unfold minus, plus, opp; cbn. match goal with |- ?u = ?v => change (@eq R u v) end. field. lra.
    + set (g := fun j => 1 - ssum (fun k => 8 / (co_M k)^2 * nth j (b k) 0) n). unfold at_. rewrite (nth_indep _ 0 (g 0%nat)) by (rewrite map_length, seq_length; auto). rewrite map_nth, seq_nth by auto. cbn [plus Nat.add]. unfold g.
      rewrite (ssum_ext (fun k => 8 / (co_M k)^2 * nth j (b k) 0) (fun k => 2 * (4 / (co_M k)^2 * nth j (b k) 0))) by (intros; unfold Rdiv; ring). rewrite ssum_scal. ring.
Qed.
(** Permeability, compressibility, unit weight and tpor have no effect at all. *)
Theorem C126_no_effect_refuted : forall cpow z t theta v tpor tpor' L kv mv gamw kv' mv' gamw' ui n,
  cosenzaandkorosak2014 cpow z t theta v tpor L kv mv gamw ui n = cosenzaandkorosak2014 cpow z t theta v tpor' L kv' mv' gamw' ui n.
Proof. intros. unfold cosenzaandkorosak2014. destruct tpor, tpor'; reflexivity. Qed.
(** Time zero is refused. *)
Theorem C126_time_zero : forall cpow z t theta v tpor L kv mv gamw ui n, (1 <= n)%nat -> In 0 t ->
  cosenzaandkorosak2014 cpow z t theta v tpor L kv mv gamw ui n = Err ValueError.
Proof.
  intros cpow z t theta v tpor L kv mv gamw ui n Hn H0. unfold cosenzaandkorosak2014. replace (match tpor with None => t | Some _ => t end) with t by (destruct tpor; auto). cbv zeta.
  unfold co_Bn. destruct n as [|n]; [lia|]. cbn [seq mapM]. rewrite (proj1 (C125_zero_time _ t H0)). reflexivity.
Qed.
Theorem C126_witness : forall cpow, exists por doc, cosenzaandkorosak2014 cpow [1/2; 1] [1/100; 1] [1/5] [1/10] None 2 1 1 10 3 20 = Ok (por, doc) /\ length por = 2%nat /\ length doc = 2%nat.
Proof.
  intros cpow. destruct (C126_waves cpow [1/2; 1] [1/100; 1] [1/5] [1/10] None 2 1 1 10 3 20) as (por & doc & u & b & H1 & H2 & H3 & _); [intros t [<-|[<-|[]]]; lra|lra|].
  exists por, doc. auto.
Qed.

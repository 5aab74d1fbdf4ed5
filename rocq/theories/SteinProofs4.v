(** * Proofs about the layered soil: the tables *)
From Coq Require Import Reals List Arith ZArith Bool Lia Lra.
From Coquelicot Require Import Coquelicot.
From Verif Require Import Base PiecewiseModel LoadGen LoadModel SpectralModel RootModel ConstitutiveModel SteinModel SpecPiecewise SpecLoad SpecStein PiecewiseProofs PropsLoad TerzaghiProofs SteinProofs SteinProofs2 SteinProofs3.
Import ListNotations.
Open Scope R_scope.

Lemma interp1_load_value x y t q : length x = length y -> nondecr x -> x <> [] -> interp1 x y false t = Ok q -> load_value x y t q.
Proof.
  intros Hl Hn Hx E.
  assert (F : forall k, (S k < length x)%nat -> at_ x k < at_ x (S k) -> at_ x k <= t <= at_ x (S k) -> (forall j, in_segment x t j -> (k <= j)%nat) -> q = chord x y k t).
  { intros k Hk Hlt Hv Hmin. assert (Hin : in_segment x t k) by (apply in_segment_nondecr; auto).
    destruct (segment_containing1_spec x false t) as [[_ Hno]|[i (Hi & Hin' & Hm)]]; [exfalso; apply (Hno k); auto|].
    assert (i = k) by (pose proof (Hm k Hin); pose proof (Hmin i Hin'); lia). subst i.
    rewrite (interp1_in x y false t k Hl Hi) in E by auto. injection E as <-. reflexivity. }
  split; [|split; [|split]].
  - intros k Hk Hv. apply F; auto; [lra|lra|]. intros j Hj. apply in_segment_nondecr in Hj; auto. destruct Hj as (J1 & J2 & J3).
    destruct (le_lt_dec k j) as [|L]; auto. pose proof (nondecr_le x Hn (S j) k ltac:(lia) ltac:(lia)). lra.
  - intros H1 H2. rewrite interp1_left in E by auto. injection E as <-. reflexivity.
  - intros H1. rewrite interp1_right in E by auto. injection E as <-. rewrite Hl. reflexivity.
  - intros k Hk E0 H1 Ht. rewrite (F k); auto; [unfold chord; rewrite E0, Ht; unfold Rdiv; ring|lra|lra|].
    intros j Hj. apply in_segment_nondecr in Hj; auto. destruct Hj as (J1 & J2 & J3). destruct (le_lt_dec k j) as [|L]; auto.
    pose proof (nondecr_le x Hn (S j) k ltac:(lia) ltac:(lia)). pose proof (nondecr_le x Hn 0 j ltac:(lia) ltac:(lia)). lra.
Qed.

(** ** Effects add up *)
Lemma sum_jumps_lin x y t c d f g : sum_jumps x y t (fun v => c * f v + d * g v) = c * sum_jumps x y t f + d * sum_jumps x y t g.
Proof.
  unfold sum_jumps. induction (seq 0 (length x - 1)) as [|k l IH]; cbn [map fold_right]; [ring|]. rewrite IH.
  destruct (Req_EM_T _ _); [destruct (Rle_dec _ _)|]; ring.
Qed.
Lemma effect_lin x y r t c d f g u v : effect x y r t f u -> effect x y r t g v -> effect x y r t (fun w => c * f w + d * g w) (c * u + d * v).
Proof.
  intros (I & HI & ->) (J & HJ & ->). exists (c * I + d * J). split.
  - apply (is_RInt_ext (fun tau => plus (scal c (r tau * f (t - tau))) (scal d (r tau * g (t - tau))))).
    + intros z _. unfold plus, scal; cbn; unfold mult; cbn. ring.
    + apply (is_RInt_plus (V := R_NormedModule)); apply (is_RInt_scal (V := R_NormedModule)); auto.
  - rewrite (sum_jumps_lin x y t c d (fun ts => f (t - ts)) (fun ts => g (t - ts))). ring.
Qed.
Lemma effect_ext x y r t f g u : (forall w, f w = g w) -> effect x y r t f u -> effect x y r t g u.
Proof.
  intros E (I & HI & ->). exists I. split; [apply (is_RInt_ext (fun tau => r tau * f (t - tau))); auto; intros z _; rewrite E; reflexivity|].
  f_equal. unfold sum_jumps. f_equal. apply map_ext. intros k. rewrite E. reflexivity.
Qed.
Lemma effect_0 x y r t f u : effect x y r t f u -> effect x y r t (fun _ => 0) 0.
Proof. intros E. replace 0 with (0 * u + 0 * u) by ring. apply (effect_ext x y r t (fun w => 0 * f w + 0 * f w)); [intros; ring|]. apply effect_lin; auto. Qed.
Lemma effect_unique x y r t f u v : effect x y r t f u -> effect x y r t f v -> u = v.
Proof. intros (I & HI & ->) (J & HJ & ->). f_equal. apply (is_RInt_unique (V := R_CompleteNormedModule)) in HI, HJ. rewrite <- HI, <- HJ. reflexivity. Qed.

Lemma total_over_sumn {T} (l : list T) f : sumn (map f l) = total_over l f.
Proof. unfold total_over. induction l as [|a l IH]; [reflexivity|]. cbn [map sumn fold_right]. rewrite IH. reflexivity. Qed.
Lemma total_over_map {T U} (g : T -> U) l f : total_over (map g l) f = total_over l (fun a => f (g a)).
Proof. unfold total_over. rewrite map_map. reflexivity. Qed.
Lemma total_over_ext {T} (l : list T) f g : (forall a, In a l -> f a = g a) -> total_over l f = total_over l g.
Proof. intros E. unfold total_over. f_equal. apply map_ext_in. auto. Qed.
Lemma total_over_scal {T} (l : list T) c f : total_over l (fun a => c * f a) = c * total_over l f.
Proof. unfold total_over. induction l as [|a l IH]; cbn [map fold_right]; [ring|]. rewrite IH. ring. Qed.
Lemma total_over_int {T} (l : list T) (f : T -> R -> R) g a c : (forall p, In p l -> is_RInt (f p) a c (g p)) -> is_RInt (fun z => total_over l (fun p => f p z)) a c (total_over l g).
Proof.
  intros E. induction l as [|p l IH].
  - apply (rint_val _ _ _ (scal (c - a) 0)); [apply (is_RInt_const (V := R_NormedModule))|]. unfold scal, total_over; cbn; unfold mult; cbn. ring.
  - apply (is_RInt_plus (V := R_NormedModule) (f p) (fun z => total_over l (fun q => f q z))); [apply E; left; auto|apply IH; intros; apply E; right; auto].
Qed.

Section S.
Variable P : stein.
Hypothesis Hs : is_soil (soil_of P).
Notation s := (soil_of P).
Notation N := (nlayers P).
Variable r : R -> R.
Hypothesis Hr : is_load (s_tim P) (s_mag P) r.
Variable pairs : list (R * term).
Hypothesis Hp : forall p, In p pairs -> 0 < fst p /\ t_beta (snd p) = beta P (fst p).
Notation tim := (s_tim P). Notation mag := (s_mag P).
Definition modes : list mode := map (fun p => mode_of (rate P (fst p)) (snd p)) pairs.
Definition tm (b t : R) : R := match calc_Tm P (cv P 0) b t with Ok v => v | Err _ => 0 end.
Lemma tm_effect b t : 0 < b -> effect tim mag r t (fun x => exp (- rate P b * x)) (tm b t).
Proof.
  intros Hb. unfold tm. destruct (calc_Tm_effect P r (cv P 0) b t Hr) as (v & E & X); [pose proof (rate_pos P Hs b Hb) as Q; unfold rate in Q; lra|].
  rewrite E. exact X.
Qed.
Lemma tm_layer b i t : 0 < b -> (i < N)%nat -> calc_Tm P (cv P i) (beta P b i) t = Ok (tm b t).
Proof.
  intros Hb Hi. pose proof (rate_all P Hs b Hb i Hi) as Q. pose proof (rate_pos P Hs b Hb) as RP.
  destruct (calc_Tm_effect P r (cv P i) (beta P b i) t Hr) as (v & E & X); [lra|]. rewrite Q in X. rewrite E. f_equal.
  eapply effect_unique; [exact X|apply tm_effect; auto].
Qed.
Definition uu (i : nat) (z t : R) : R := total_over pairs (fun p => t_A (snd p) * shape (mode_of (rate P (fst p)) (snd p)) i z * tm (fst p) t).
Lemma uu_effect i z t : effect tim mag r t (response modes i z) (uu i z t).
Proof.
  unfold uu, response, modes. apply (effect_ext tim mag r t (fun w => total_over pairs (fun p => t_A (snd p) * shape (mode_of (rate P (fst p)) (snd p)) i z * exp (- rate P (fst p) * w)))).
  - intros w. rewrite total_over_map. reflexivity.
  - induction pairs as [|p l IH].
    + apply (effect_0 _ _ _ _ (fun x => exp (- rate P 1 * x)) (tm 1 t)). apply tm_effect. lra.
    + assert (IH' := IH ltac:(intros; apply Hp; right; auto)). destruct (Hp p (or_introl eq_refl)) as [Hb _].
      pose proof (effect_lin tim mag r t (t_A (snd p) * shape (mode_of (rate P (fst p)) (snd p)) i z) 1 _ _ _ _ (tm_effect (fst p) t Hb) IH') as Q.
      unfold total_over in *. cbn [map fold_right]. rewrite Rmult_1_l in Q. eapply effect_ext; [|exact Q]. intros w. cbv beta. ring.
Qed.
Lemma searchsorted_cumsum l : forall acc z, let i := searchsorted (cumsum acc l) z in (i <= length l)%nat /\
  ((i < length l)%nat -> z <= nth i (cumsum acc l) 0) /\ ((0 < i)%nat -> nth (i - 1) (cumsum acc l) 0 < z).
Proof.
  induction l as [|a l IH]; intros acc z i; [unfold i; cbn; split; [lia|split; intros; lia]|].
  unfold i. cbn [cumsum searchsorted]. destruct (Rltb (acc + a) z) eqn:E.
  - apply Rltb_true in E. destruct (IH (acc + a) z) as (I1 & I2 & I3). set (k := searchsorted (cumsum (acc + a) l) z) in *. cbn [length]. split; [lia|]. split.
    + intros L. cbn [nth]. apply I2. lia.
    + intros _. destruct k as [|k']; [cbn; auto|]. replace (S (S k') - 1)%nat with (S k') by lia. cbn [nth]. replace (S k' - 1)%nat with k' in I3 by lia. apply I3. lia.
  - apply Rltb_false in E. cbn [length nth]. split; [lia|]. split; [intros; lra|intros; lia].
Qed.
Lemma in_layer z : 0 <= z <= depth s N -> let i := searchsorted (zlayers P) z in (i < N)%nat /\ depth s i <= z <= depth s (S i).
Proof.
  intros Hz i. destruct (searchsorted_cumsum (s_h P) 0 z) as (I1 & I2 & I3). change (searchsorted (cumsum 0 (s_h P)) z) with i in *.
  assert (LN : length (s_h P) = N) by (rewrite (N_layers P Hs); reflexivity). rewrite LN in *.
  assert (Hi : (i < N)%nat).
  { destruct (le_lt_dec N i) as [L|L]; auto. exfalso. assert (i = N) by lia. pose proof (N_pos P Hs). rewrite H in I3. specialize (I3 ltac:(lia)).
    pose proof (zlayer_depth P Hs (N - 1) ltac:(lia)) as Q. unfold zlayer, zlayers in Q. rewrite Q in I3. replace (S (N - 1)) with N in I3 by lia. lra. }
  split; auto. pose proof (zlayer_depth P Hs i Hi) as Q. unfold zlayer, zlayers in Q. specialize (I2 Hi). rewrite Q in I2. split; auto.
  destruct i as [|k]; [unfold depth; rewrite total_0; lra|]. specialize (I3 ltac:(lia)). replace (S k - 1)%nat with k in I3 by lia.
  pose proof (zlayer_depth P Hs k ltac:(lia)) as Q2. unfold zlayer, zlayers in Q2. rewrite Q2 in I3. lra.
Qed.
Lemma por1_eq z t : let i := searchsorted (zlayers P) z in (i < N)%nat -> por1 P (map snd pairs) z t = Ok (uu i z t).
Proof.
  intros i Hi. unfold por1. cbv zeta. fold i. replace (Nat.ltb i N) with true by (symmetry; apply Nat.ltb_lt; auto).
  rewrite mapM_map with (g := fun T => t_A T * (t_B T i * cos (t_beta T i * z) + t_C T i * sin (t_beta T i * z)) * match calc_Tm P (cv P i) (t_beta T i) t with Ok v => v | Err _ => 0 end).
  - cbn [bind]. f_equal. rewrite total_over_sumn, total_over_map. unfold uu. apply total_over_ext. intros p Hin. destruct (Hp p Hin) as [Hb Eb]. rewrite Eb, tm_layer by auto. cbn [shape mode_of]. rewrite Eb. reflexivity.
  - intros T HT. apply in_map_iff in HT. destruct HT as (p & <- & Hin). destruct (Hp p Hin) as [Hb Eb]. rewrite Eb, tm_layer by auto. reflexivity.
Qed.
(** integral of the pore pressure over a layer *)
Definition uint (i : nat) (t : R) : R := total_over pairs (fun p => Zm_integral P (snd p) i * tm (fst p) t * t_A (snd p)).
Lemma uint_ok i t : (i < N)%nat -> is_RInt (fun z => uu i z t) (depth s i) (depth s (S i)) (uint i t).
Proof.
  intros Hi. apply (total_over_int pairs (fun p z => t_A (snd p) * shape (mode_of (rate P (fst p)) (snd p)) i z * tm (fst p) t)).
  intros p Hin. destruct (Hp p Hin) as [Hb Eb].
  apply (is_RInt_ext (fun z => scal (t_A (snd p) * tm (fst p) t) (shape (mode_of (rate P (fst p)) (snd p)) i z))); [intros z _; unfold scal; cbn; unfold mult; cbn; ring|].
  eapply rint_val; [apply (is_RInt_scal (V := R_NormedModule)); apply (shape_int P Hs (fst p) Hb (snd p) Eb i); auto|].
  unfold Zm_integral. cbv zeta. rewrite (zlayer_top P Hs), (zlayer_depth P Hs) by auto. unfold scal; cbn; unfold mult; cbn. match goal with |- ?u = ?v => change (@eq R u v) end. ring.
Qed.
Lemma sumn_concat (f : nat -> list R) l : sumn (concat (map f l)) = sumn (map (fun i => sumn (f i)) l).
Proof.
  induction l as [|a l IH]; [reflexivity|]. cbn [map concat sumn]. rewrite <- IH. generalize (concat (map f l)). intros c. induction (f a) as [|x k IHk]; [cbn; ring|]. cbn [app sumn]. rewrite IHk. cbn. ring.
Qed.
Lemma settle_avp1_eq t q : interp1 tim mag false t = Ok q ->
  settle_avp1 P (map snd pairs) t = Ok (total N (fun i => mv P i * hh P i) * q - total N (fun i => mv P i * uint i t), total N (fun i => uint i t) / depth s N).
Proof.
  intros E. unfold settle_avp1. rewrite E. cbn [bind].
  rewrite mapM_map with (g := fun i => map (fun p => (Zm_integral P (snd p) i * tm (fst p) t * t_A (snd p), mv P i * Zm_integral P (snd p) i * tm (fst p) t * t_A (snd p))) pairs).
  - cbn [bind]. cbv zeta. f_equal. f_equal.
    + f_equal; [rewrite total_sumn; reflexivity|]. rewrite concat_map, map_map, (sumn_concat (fun i => map snd (map (fun p => (Zm_integral P (snd p) i * tm (fst p) t * t_A (snd p), mv P i * Zm_integral P (snd p) i * tm (fst p) t * t_A (snd p))) pairs))), total_sumn. apply total_ext. intros i Hi.
      rewrite map_map. cbn [snd]. rewrite total_over_sumn. unfold uint. rewrite <- total_over_scal. apply total_over_ext. intros; ring.
    + f_equal; [|rewrite (zlayer_depth P Hs) by (pose proof (N_pos P Hs); lia); replace (S (N - 1)) with N by (pose proof (N_pos P Hs); lia); reflexivity].
      rewrite concat_map, map_map, (sumn_concat (fun i => map fst (map (fun p => (Zm_integral P (snd p) i * tm (fst p) t * t_A (snd p), mv P i * Zm_integral P (snd p) i * tm (fst p) t * t_A (snd p))) pairs))), total_sumn. apply total_ext. intros i Hi.
      rewrite map_map. cbn [fst]. rewrite total_over_sumn. reflexivity.
  - intros i Hi. apply in_seq in Hi.
    rewrite mapM_map with (g := fun T => (Zm_integral P T i * match calc_Tm P (cv P i) (t_beta T i) t with Ok v => v | Err _ => 0 end * t_A T, mv P i * Zm_integral P T i * match calc_Tm P (cv P i) (t_beta T i) t with Ok v => v | Err _ => 0 end * t_A T)).
    + f_equal. rewrite map_map. apply map_ext_in. intros p Hin. destruct (Hp p Hin) as [Hb Eb]. rewrite Eb, tm_layer by (auto; lia). reflexivity.
    + intros T HT. apply in_map_iff in HT. destruct HT as (p & <- & Hin). destruct (Hp p Hin) as [Hb Eb]. rewrite Eb, tm_layer by (auto; lia). reflexivity.
Qed.
(** the response obeys the consolidation equation *)
Lemma response_ok : consolidates s (response modes).
Proof.
  set (d := fun (i : nat) (z : R) (p : R * term) => slope (mode_of (rate P (fst p)) (snd p)) i z).
  exists (fun i z t => total_over modes (fun m => amp m * slope m i z * exp (- decay m * t))). intros i z t Hi.
  exists (total_over modes (fun m => amp m * shape m i z * (- decay m * exp (- decay m * t)))).
  exists (total_over modes (fun m => amp m * (- (decay m * at_ (comp s) i / at_ (perm s) i) * shape m i z) * exp (- decay m * t))).
  assert (Hm : forall m, In m modes -> mode_equation s m).
  { intros m Hm. apply in_map_iff in Hm. destruct Hm as (p & <- & Hin). destruct (Hp p Hin) as [Hb Eb]. apply m_equation; auto. }
  assert (D : forall (l : list mode) (f : mode -> R -> R) (g : mode -> R) x, (forall m, In m l -> is_derive (f m) x (g m)) -> is_derive (fun y => total_over l (fun m => f m y)) x (total_over l g)).
  { clear. intros l f g x E. induction l as [|m l IH]; [exact (is_derive_const (K := R_AbsRing) (V := R_NormedModule) 0 x)|]. apply (is_derive_plus (V := R_NormedModule) (f m) (fun y => total_over l (fun m => f m y))); [apply E; left; auto|apply IH; intros; apply E; right; auto]. }
  unfold response. split; [|split; [|split]].
  - apply (D modes (fun m x => amp m * shape m i x * exp (- decay m * t)) (fun m => amp m * slope m i z * exp (- decay m * t))). intros m Hin. destruct (Hm m Hin i z Hi) as [D1 _].
    apply (is_derive_ext (fun x => amp m * exp (- decay m * t) * shape m i x)); [intros x; match goal with |- ?u = ?v => change (@eq R u v) end; ring|]. replace (amp m * slope m i z * exp (- decay m * t)) with (amp m * exp (- decay m * t) * slope m i z) by ring.
    apply (is_derive_scal (shape m i) z (amp m * exp (- decay m * t)) (slope m i z)). auto.
  - apply (D modes (fun m x => amp m * slope m i x * exp (- decay m * t)) (fun m => amp m * (- (decay m * at_ (comp s) i / at_ (perm s) i) * shape m i z) * exp (- decay m * t))). intros m Hin. destruct (Hm m Hin i z Hi) as [_ D2].
    apply (is_derive_ext (fun x => amp m * exp (- decay m * t) * slope m i x)); [intros x; match goal with |- ?u = ?v => change (@eq R u v) end; ring|].
    match goal with |- is_derive _ _ ?v => replace v with (amp m * exp (- decay m * t) * (- (decay m * at_ (comp s) i / at_ (perm s) i) * shape m i z)) by ring end.
    apply (is_derive_scal (slope m i) z (amp m * exp (- decay m * t))). auto.
  - apply (D modes (fun m x => amp m * shape m i z * exp (- decay m * x)) (fun m => amp m * shape m i z * (- decay m * exp (- decay m * t)))). intros m Hin. auto_derive; auto. ring.
  - rewrite <- (N_layers P Hs) in Hi. pose proof (kvpos P Hs i Hi) as K. change (at_ (perm s) i) with (kv P i). change (at_ (comp s) i) with (mv P i).
    rewrite <- !total_over_scal. apply total_over_ext. intros m _. field. lra.
Qed.
End S.

(** * The analytical path of SpecBeam solves the equations of motion *)
From Coq Require Import Reals List Arith Lia Lra Bool.
From Coquelicot Require Import Coquelicot.
From Verif Require Import Base PiecewiseModel SpecPiecewise PolyLineModel SpectralModel SpectralProofs LoadModel SpecLoad BeamModel DingModel LoadComplexModel PropsBeam6
  SpecComplex ComplexCalc SpecGalerkin SpecModal SpecBeamModel SpecBeamModalModel SpecBeamMotion ModalProofs1 ModalProofs2 ModalProofs3.
Import ListNotations.
Local Open Scope R_scope.
Local Notation at_ := SpecPiecewise.at_.

Section Assembly.
Variable cos_E : impl -> list R -> list R -> R -> R -> list C -> list R -> result (list (list C)).
Variables (o : sb) (F : points -> R -> R) (T0 : R) (eigs : list C) (Igamv : list (list C)).
Local Notation n := (b_nterms (s_in o)).
Local Notation beta i := (nth i (s_beta o) 0).
Local Notation lam e := (nth e eigs (RtoC 0)).
Hypothesis HG : good_loads o F.
Hypothesis HU : unloaded_before o T0.
Hypothesis Hlen : length eigs = (2 * n)%nat.
Hypothesis Hnz : forall l, In l eigs -> l <> RtoC 0.
Hypothesis Hres : forall l v k, In l eigs -> In v (vehicles o) -> (k < n)%nat -> l <> (0, speed v * beta k) /\ l <> (0, - (speed v * beta k)).

Definition mode_c (ls : list ((list R * list R) * (R * R))) (e : nat) (t : R) : C :=
  Cplus (csum n (fun i => Cmult (cat Igamv e (n + i)) (sumC (map (fun a => duh T0 (line_S (beta i) a) (lam e) t) ls))))
        (sumC (map (fun q => Cmult (csum n (fun i => Cmult (cat Igamv e (n + i)) (RtoC (sin (fst q * beta i))))) (duh T0 (F (snd q)) (lam e) t)) (stands o))).
Definition breaks (ls : list ((list R * list R) * (R * R))) : list R := concat (map (fun a => fst (fst a)) ls) ++ concat (map (fun q => px (snd q)) (stands o)).

Lemma breaks_line ls a t : In a ls -> In t (fst (fst a)) -> In t (breaks ls).
Proof using. intros Ha Ht. apply in_or_app. left. apply in_concat. exists (fst (fst a)). split; auto. apply (in_map (fun a => fst (fst a))); auto. Qed.
Lemma breaks_stand ls q t : In q (stands o) -> In t (px (snd q)) -> In t (breaks ls).
Proof using. intros Ha Ht. apply in_or_app. right. apply in_concat. exists (px (snd q)). split; auto. apply (in_map (fun q => px (snd q))); auto. Qed.
Lemma quiet_breaks ls t : (forall a, In a ls -> line_of (vehicles o) a) -> quiet o t -> ~ In t (breaks ls).
Proof using.
  intros HL [Q1 Q2] HI. apply in_app_or in HI as [HI|HI]; apply in_concat in HI as (l & Hl & Ht); apply in_map_iff in Hl as (a & <- & Ha).
  - destruct (HL a Ha) as (v & x & s & e & p & Hv & Hx & E & _ & _ & _ & _ & H1 & H2). destruct (Q1 v x Hv Hx) as [N1 N2]. rewrite E in Ht. cbn [fst] in Ht.
    destruct Ht as [<-|[<-|[<-|[<-|[]]]]]; destruct H1, H2; contradiction.
  - apply (Q2 a Ha Ht).
Qed.
Lemma good_px_py (P : points) : length (px P) = length (py P). Proof using. unfold px, py. rewrite !map_length. reflexivity. Qed.
Lemma stand_driven ls im q : In q (stands o) -> (forall l, In l eigs -> driven T0 (breaks ls) l (duh T0 (F (snd q)) l) (fun t => RtoC (F (snd q) t))) /\
  tabulated (fun tv => CEload_linear im (px (snd q)) (py (snd q)) eigs tv 1) eigs (duh T0 (F (snd q))).
Proof using HG HU Hnz.
  intros Hq. destruct HG as (_ & G2 & _). destruct (G2 q Hq) as (A1 & A2 & A3 & A4). apply linear_driven; auto.
  - apply good_px_py.
  - apply (proj2 HU); auto.
  - intros t Ht. eapply breaks_stand; eauto.
Qed.
Lemma mode_driven ls e : (forall a, In a ls -> line_of (vehicles o) a) -> (forall b t, fold_right Rplus 0 (map (fun a => line_S b a t) ls) = fold_right Rplus 0 (map (pressing (fun x => sin (b * x)) t) (vehicles o))) ->
  (e < 2 * n)%nat -> driven T0 (breaks ls) (lam e) (mode_c ls e) (fun t => csum n (fun i => Cmult (cat Igamv e (n + i)) (RtoC (pushing o F i t)))).
Proof using HG HU Hlen Hnz Hres.
  intros HL HS He. assert (Hin : In (lam e) eigs) by (apply nth_In; lia).
  apply (driven_ext T0 (breaks ls) (lam e) (mode_c ls e) (fun t => Cplus (csum n (fun i => Cmult (cat Igamv e (n + i)) (sumC (map (fun a => RtoC (line_S (beta i) a t)) ls))))
     (sumC (map (fun q => Cmult (csum n (fun i => Cmult (cat Igamv e (n + i)) (RtoC (sin (fst q * beta i))))) (RtoC (F (snd q) t))) (stands o))))).
  - intros t. rewrite (map_ext _ (fun q => csum n (fun i => Cmult (RtoC (F (snd q) t)) (Cmult (cat Igamv e (n + i)) (RtoC (sin (fst q * beta i))))))) by (intros q; rewrite Cg_scal; ring).
    rewrite sumC_csum, <- Cg_plus. apply Cg_ext. intros i Hi. rewrite sumC_R, HS. unfold pushing, modeshape.
    assert (E : sumC (map (fun q => Cmult (RtoC (F (snd q) t)) (Cmult (cat Igamv e (n + i)) (RtoC (sin (fst q * beta i))))) (stands o)) = Cmult (cat Igamv e (n + i)) (RtoC (fold_right Rplus 0 (map (fun q => F (snd q) t * sin (beta i * fst q)) (stands o))))).
    { rewrite <- sumC_R. generalize (stands o). intros l. induction l as [|q l IH]; [cbn; ring|]. cbn [map sumC fold_right]. unfold sumC in IH. rewrite IH, (Rmult_comm (beta i)), RtoC_mult. ring. }
    rewrite E. rewrite RtoC_plus. ring.
  - unfold mode_c. apply driven_plus.
    + apply (driven_csum T0 (breaks ls) (lam e) n (fun i t => Cmult (cat Igamv e (n + i)) (sumC (map (fun a => duh T0 (line_S (beta i) a) (lam e) t) ls))) (fun i t => Cmult (cat Igamv e (n + i)) (sumC (map (fun a => RtoC (line_S (beta i) a t)) ls)))).
      intros i Hi. apply driven_scal. apply (driven_list T0 (breaks ls) (lam e) (fun a => duh T0 (line_S (beta i) a) (lam e)) (fun a t => RtoC (line_S (beta i) a t))).
      intros a Ha. apply (line_driven vectorized (vehicles o) a (beta i) T0 (breaks ls) eigs); auto.
      * apply (proj1 HU).
      * intros t Ht. eapply breaks_line; eauto.
    + apply (driven_list T0 (breaks ls) (lam e) (fun q t => Cmult (csum n (fun i => Cmult (cat Igamv e (n + i)) (RtoC (sin (fst q * beta i))))) (duh T0 (F (snd q)) (lam e) t))
        (fun q t => Cmult (csum n (fun i => Cmult (cat Igamv e (n + i)) (RtoC (sin (fst q * beta i))))) (RtoC (F (snd q) t)))).
      intros q Hq. apply (driven_scal T0 (breaks ls) (lam e) _ (duh T0 (F (snd q)) (lam e)) (fun t => RtoC (F (snd q) t))). apply (proj1 (stand_driven ls vectorized q Hq)); auto.
Qed.
Lemma E_computed : exists ls E, E_Igamv_the cos_E o eigs Igamv = Ok E /\ (forall a, In a ls -> line_of (vehicles o) a) /\
  (forall b t, fold_right Rplus 0 (map (fun a => line_S b a t) ls) = fold_right Rplus 0 (map (pressing (fun x => sin (b * x)) t) (vehicles o))) /\
  forall e t, (e < 2 * n)%nat -> (t < length (s_t o))%nat -> cat E e t = mode_c ls e (nth t (s_t o) 0).
Proof using HG HU Hlen Hnz Hres.
  set (im := b_impl (s_in o)).
  assert (A : exists ls A, match s_moving o with None => Ok [] | Some l => E_Igamv_the_mvpl im n (s_beta o) eigs (s_t o) Igamv l end = Ok A /\ (forall a, In a ls -> line_of (vehicles o) a) /\
    (forall b t, fold_right Rplus 0 (map (fun a => line_S b a t) ls) = fold_right Rplus 0 (map (pressing (fun x => sin (b * x)) t) (vehicles o))) /\
    forall e t, (e < 2 * n)%nat -> (t < length (s_t o))%nat -> cat A e t = csum n (fun i => Cmult (cat Igamv e (n + i)) (sumC (map (fun a => duh T0 (line_S (beta i) a) (lam e) (nth t (s_t o) 0)) ls)))).
  { assert (HV := proj1 HG). assert (HUv := proj1 HU). assert (HRv := Hres). unfold vehicles in *. destruct (s_moving o) as [l|].
    2:{ exists [], []. split; auto. split; [intros a []|]. split; auto. intros e t _ _. rewrite cat_nil. rewrite (Cg_ext n _ (fun _ => RtoC 0)); [symmetry; apply Cg_zero|]. intros i _. cbn [map sumC fold_right]. ring. }
    destruct (axle_loads_ok l HV) as (ls & EL & HL & HS). exists ls. unfold E_Igamv_the_mvpl. rewrite EL. cbn [bind].
    destruct (mapM_tab (fun i => mapM (fun a => CEload_sinlinear im (fst (fst a)) (snd (fst a)) (fst (snd a) * beta i) (snd (snd a) * beta i) eigs (s_t o) 1) ls)
      (fun i As => Forall2 (fun a A => forall t e, (t < length (s_t o))%nat -> (e < length eigs)%nat -> cat A t e = duh T0 (line_S (beta i) a) (lam e) (nth t (s_t o) 0)) ls As) (seq 0 n)) as (E & EE & HE).
    { intros i Hi. apply in_seq in Hi. apply mapM_tab. intros a Ha.
      destruct (line_driven im l a (beta i) T0 (fst (fst a)) eigs (HL a Ha) HUv (fun t Ht => Ht) Hnz (fun l0 v Hl0 Hv => HRv l0 v i Hl0 Hv ltac:(lia))) as [_ HT].
      destruct (HT (s_t o)) as (A & EA & HA). exists A. split; auto. }
    rewrite EE. cbn [bind]. eexists. split; [reflexivity|]. split; auto. split; auto. intros e t He Ht. rewrite cat_table by auto. rewrite isum_csum. apply Cg_ext. intros i Hi.
    assert (HEi := seq_tab _ [] n 0 E HE i Hi). cbn [Nat.add] in HEi. rewrite (map_tab _ (fun A => cat A t e) (fun a => duh T0 (line_S (beta i) a) (lam e) (nth t (s_t o) 0)) ls _ HEi); [ring|].
    intros a A0 _ HA. apply HA; auto. lia. }
  assert (Bx : exists A, match s_stat o with None => Ok [] | Some st => E_Igamv_the_stationary cos_E im n (s_beta o) eigs (s_t o) Igamv st end = Ok A /\
    forall e t, (e < 2 * n)%nat -> (t < length (s_t o))%nat -> cat A e t = sumC (map (fun q => Cmult (csum n (fun i => Cmult (cat Igamv e (n + i)) (RtoC (sin (fst q * beta i))))) (duh T0 (F (snd q)) (lam e) (nth t (s_t o) 0))) (stands o))).
  { assert (HSt := proj2 (proj2 HG)). assert (HD := fun q Hq => proj2 (stand_driven [] im q Hq)). unfold stands in *. destruct (s_stat o) as [[[xs Ps] ops]|].
    2:{ exists []. split; auto. intros e t _ _. rewrite cat_nil. reflexivity. }
    destruct HSt as [HLP ->]. unfold E_Igamv_the_stationary.
    assert (EC : combine (combine xs Ps) (map (fun _ => @None (R * R)) xs) = map (fun q => (q, None)) (combine xs Ps)).
    { clear - HLP. revert Ps HLP. induction xs as [|x xs IH]; intros [|P Ps] H; try discriminate; [reflexivity|]. cbn [combine map]. f_equal. apply IH. cbn in H. lia. }
    rewrite EC.
    destruct (mapM_tab (fun q => let '(x, P, op) := q in A <- match op with Some (om, ph) => cos_E im (px P) (py P) om ph eigs (s_t o) | None => CEload_linear im (px P) (py P) eigs (s_t o) 1 end ;; Ok (x, A))
      (fun q y => fst y = fst (fst q) /\ forall t e, (t < length (s_t o))%nat -> (e < length eigs)%nat -> cat (snd y) t e = duh T0 (F (snd (fst q))) (lam e) (nth t (s_t o) 0)) (map (fun q => (q, @None (R * R))) (combine xs Ps))) as (E & EE & HE).
    { intros q Hq. apply in_map_iff in Hq as ([x P] & <- & Hq). destruct (HD (x, P) Hq (s_t o)) as (A0 & EA & HA). cbn [fst snd] in EA, HA |- *. rewrite EA. cbn [bind]. exists (x, A0). cbn [fst snd]. split; [reflexivity|]. split; auto. }
    rewrite EE. cbn [bind]. eexists. split; [reflexivity|]. intros e t He Ht. rewrite cat_table by auto.
    rewrite (map_tab _ (fun q => Cmult (cat (snd q) t e) (isum (seq 0 n) (fun i => Cmult (cat Igamv e (n + i)) (RtoC (sin (fst q * beta i))))))
       (fun q => Cmult (csum n (fun i => Cmult (cat Igamv e (n + i)) (RtoC (sin (fst (fst q) * beta i))))) (duh T0 (F (snd (fst q))) (lam e) (nth t (s_t o) 0))) _ _ HE).
    - rewrite map_map. reflexivity.
    - intros q y _ [Y1 Y2]. rewrite Y1, Y2 by (auto; lia). rewrite isum_csum. ring. }
  destruct A as (ls & A & EA & HL & HS & HA). destruct Bx as (A' & EA' & HA'). exists ls. unfold E_Igamv_the. fold im. rewrite EA, EA'. cbn [bind]. eexists. split; [reflexivity|]. split; auto. split; auto.
  intros e t He Ht. rewrite cat_table by auto. rewrite HA, HA' by auto. reflexivity.
Qed.
End Assembly.

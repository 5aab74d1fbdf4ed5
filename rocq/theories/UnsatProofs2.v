(** * All source terms of the unsaturated problem together *)
From Coq Require Import Reals List Arith ZArith Lia Lra Bool Sorted.
From Coquelicot Require Import Coquelicot.
From Verif Require Import Base PiecewiseModel LayersModel SpecPiecewise SpecPiecewiseApi PolyLineModel SpecPolyLine
  SpectralModel SpecSpectral WrapModel SpecWrap WrapProofs PropsWrap LoadModel LoadTrigModel SpecLoad
  SpecSpeccon SpecconModel SpecconProofs SpecconProofs2 SpecconProofs4 SpecconProofs5 SpecGalerkin SpecconProofs6 PolyLineProofs4 PolyLineProofs7 UnsatModel SpecUnsat UnsatProofs.
Import ListNotations.
Open Scope R_scope.
Local Notation RI f := (RInt f 0 1).

Lemma edge_move m m' P ph c k k' t : nth k m 0 = nth k' m' 0 -> edge m P ph c k t = edge m' P ph c k' t.
Proof. intros E. unfold edge. rewrite E. reflexivity. Qed.
Lemma flow_move T0 m m' P Ts Bs c cb k k' t : nth k m 0 = nth k' m' 0 -> edge_flow T0 m P Ts Bs c cb k t = edge_flow T0 m' P Ts Bs c cb k' t.
Proof. intros E. unfold edge_flow. rewrite E. reflexivity. Qed.
Lemma pushed_move m m' c L k k' t : nth k m 0 = nth k' m' 0 -> pushed m c L k t = pushed m' c L k' t.
Proof. intros E. unfold pushed. rewrite E. reflexivity. Qed.

Section Sources.
Variables (U : uproblem) (w a : physics) (sk : skeleton) (T0 : R) (eigs : list R) (Igamv : list (list R)) (m : list R).
Let n := u_neig U.
Let nn := (2 * n)%nat.
Let ok t := u_before U t.
Hypothesis HIg : length Igamv = nn.
Hypothesis Heig : length eigs = nn.
Hypothesis Hnz : forall lam, In lam eigs -> u_dT U * lam <> 0.
Hypothesis Hm : length m = n.
Hypothesis Nm : forall x, In x m -> x <> 0.
Hypothesis HR : represents_unsat T0 U w a sk.
Hypothesis HH : u_H U <> 0.
Hypothesis HL : loads_seen U /\ dTw U <> 0.
Variables Tw Bw Ta Ba : list (R -> R).
Hypothesis HTw : are_loads T0 (listed (wtop_vs_time U)) (wtop_omega_phase U) Tw.
Hypothesis HBw : are_loads T0 (listed (wbot_vs_time U)) (wbot_omega_phase U) Bw.
Hypothesis HTa : are_loads T0 (listed (atop_vs_time U)) (atop_omega_phase U) Ta.
Hypothesis HBa : are_loads T0 (listed (abot_vs_time U)) (abot_omega_phase U) Ba.
Hypothesis Ew1 : p_top w = total Tw.
Hypothesis Ew2 : p_top0 w = total0 (listed (wtop_vs_time U)) (wtop_omega_phase U).
Hypothesis Ew3 : p_bot w = (fun t => bottom_factor (water U) * total Bw t).
Hypothesis Ew4 : p_bot0 w = bottom_factor (water U) * total0 (listed (wbot_vs_time U)) (wbot_omega_phase U).
Hypothesis Ea1 : p_top a = total Ta.
Hypothesis Ea2 : p_top0 a = total0 (listed (atop_vs_time U)) (atop_omega_phase U).
Hypothesis Ea3 : p_bot a = (fun t => bottom_factor (air U) * total Ba t).
Hypothesis Ea4 : p_bot0 a = bottom_factor (air U) * total0 (listed (abot_vs_time U)) (abot_omega_phase U).
Let d := u_mvref U * u_ua U.
Local Notation contributes' := (contributes nn (u_dT U) T0 ok eigs Igamv).
Local Notation mm := (m_block m).

Lemma mm_len : length mm = nn. Proof using Hm. clear HIg Heig. unfold m_block, nn. rewrite app_length. lia. Qed.
Lemma mm_nz x : In x mm -> x <> 0. Proof using Nm. unfold m_block. intros H. apply in_app_or in H. destruct H; auto. Qed.
Lemma mm_water i : (i < n)%nat -> nth i mm 0 = nth i m 0.
Proof using Hm. clear HIg Heig. intros H. unfold m_block. apply app_nth1. lia. Qed.
Lemma mm_air i : nth (n + i) mm 0 = nth i m 0.
Proof using Hm. clear HIg Heig. unfold m_block. rewrite app_nth2 by lia. f_equal. lia. Qed.

(** Sources in the water's and in the air's equation. *)
Definition w_source (i : nat) (t : R) : R :=
  pushed m (f_1kw sk) (f_surcharge w) i t - edge m (water U) w (f_mv w) i t - edge m (air U) a (f_1kw sk) i t + edge m (air U) a (f_mv w) i t
  - d_v w * edge_flow T0 m (water U) Tw Bw (f_kv w) (kv_bottom w) i t.
Definition a_source (i : nat) (t : R) : R :=
  pushed m (f_1ka sk) (f_surcharge w) i t - edge m (water U) w (f_mv a) i t - edge m (air U) a (f_1ka sk) i t + edge m (air U) a (f_mv a) i t
  + / d * edge m (air U) a (f_n sk) i t - / d * edge m (air U) a (fun z => f_S sk z * f_n sk z) i t
  - d_v a * edge_flow T0 m (air U) Ta Ba (f_kv a) (kv_bottom a) i t.
Definition u_source (k : nat) (t : R) : R := if Nat.ltb k n then w_source k t else a_source (k - n) t.

Lemma u_sep l : (forall p, In p l -> In p ([m1kw U; m1ka U; m2w U; m2a U; u_n U; u_S U] ++ listed (u_surcharge_vs_depth U))) -> well_separated l.
Proof using HR. intros H. destruct HR as (_ & _ & _ & W & _). eapply sep_from; [exact W|]. intros p x Hp Hx. exists p. auto. Qed.

Lemma surcharge_part :
  (forall d k, In d (f_surcharge w) -> (k < nn)%nat -> ex_RInt (fun z => f_1kw sk z * mag d z * sin (nth k mm 0 * z)) 0 1) /\
  (forall d k, In d (f_surcharge w) -> (k < nn)%nat -> ex_RInt (fun z => f_1ka sk z * mag d z * sin (nth k mm 0 * z)) 0 1) /\
  contributes' (fun tvals acc => match u_surcharge_vs_depth U, u_surcharge_vs_time U with
         | Some sz, Some st => add_part nn (length tvals) 1 (u_surcharge U m eigs tvals Igamv sz st) acc
         | _, _ => Ok acc
         end)
    (fun k t => (if water_rows U k then pushed mm (f_1kw sk) (f_surcharge w) k t else 0) +
                (if air_rows U k then pushed mm (f_1ka sk) (f_surcharge w) k t else 0)).
Proof using HIg Heig Hnz Hm Nm HR.
  pose proof HR as (RW & RA & Es & W & P1 & P2 & P3 & P4). pose proof RW as (_ & _ & _ & _ & _ & _ & Hs & _).
  cbn [surcharge_vs_depth surcharge_vs_time surcharge_omega_phase water] in Hs.
  assert (Z0 : f_surcharge w = [] -> (forall d k, In d (f_surcharge w) -> (k < nn)%nat -> ex_RInt (fun z => f_1kw sk z * mag d z * sin (nth k mm 0 * z)) 0 1) /\
  (forall d k, In d (f_surcharge w) -> (k < nn)%nat -> ex_RInt (fun z => f_1ka sk z * mag d z * sin (nth k mm 0 * z)) 0 1) /\
  contributes' (fun tvals acc => Ok acc)
    (fun k t => (if water_rows U k then pushed mm (f_1kw sk) (f_surcharge w) k t else 0) +
                (if air_rows U k then pushed mm (f_1ka sk) (f_surcharge w) k t else 0))).
  { intros ->. split; [intros d0 k []|]. split; [intros d0 k []|]. eapply contributes_ext; [apply contributes_nothing|reflexivity|].
    intros k t _ _ _. unfold pushed. cbn [map fold_right]. destruct (water_rows U k), (air_rows U k); ring. }
  unfold are_depth_loads in Hs. destruct (u_surcharge_vs_depth U) as [sz|] eqn:E1; [destruct (u_surcharge_vs_time U) as [tt'|] eqn:E2|]; try (apply Z0; exact Hs).
  clear Z0.
  assert (D : are_depth_loads T0 (Some sz) (Some tt') (u_surcharge_omega_phase U) (f_surcharge w)) by exact Hs.
  assert (Hok : forall t, ok t -> before_ends (load_tables (water U)) t) by (intros t O; apply O).
  destruct (phase_surcharge nn T0 ok eigs Igamv mm (water U) (water_rows U) HIg Heig Hnz mm_len mm_nz Hok (m1kw U) (f_1kw sk) sz tt' (f_surcharge w) P1
    ltac:(apply u_sep; rewrite E1; cbn [listed]; intros p [<-|Hp]; [left; auto|apply in_or_app; right; auto]) E1 E2 D) as (I1 & C1).
  destruct (phase_surcharge nn T0 ok eigs Igamv mm (water U) (air_rows U) HIg Heig Hnz mm_len mm_nz Hok (m1ka U) (f_1ka sk) sz tt' (f_surcharge w) P2
    ltac:(apply u_sep; rewrite E1; cbn [listed]; intros p [<-|Hp]; [right; left; auto|apply in_or_app; right; auto]) E1 E2 D) as (I2 & C2).
  split; [exact I1|]. split; [exact I2|].
  pose proof (contributes_seq _ _ _ _ _ _ _ _ _ _ C1 (contributes_part _ _ _ _ _ _ 1 _ _ C2)) as CC.
  eapply contributes_ext; [apply (contributes_part _ _ _ _ _ _ 1 _ _ CC)| |].
  - intros tvals acc. unfold u_surcharge, aDmagDt_bilinear_z. rewrite mm_len. reflexivity.
  - intros k t _ _ _. cbv beta. ring.
Qed.

Lemma no_loads_flow : atop_vs_time U = None -> abot_vs_time U = None -> forall M c cb k t, edge_flow T0 M (air U) Ta Ba c cb k t = 0.
Proof using HTa HBa.
  intros E1 E2 M c cb k t. destruct HTa as (_ & FT). destruct HBa as (_ & FB). rewrite E1 in FT. rewrite E2 in FB. cbn in FT, FB.
  assert (X1 : Ta = []) by (inversion FT; auto). assert (X2 : Ba = []) by (inversion FB; auto). unfold edge_flow. rewrite X1, X2. cbn. ring.
Qed.
Lemma bc_part :
  (shape_ints nn mm (water U) (f_mv w) /\ shape_ints nn mm (air U) (f_1kw sk) /\ shape_ints nn mm (air U) (f_mv w) /\
   shape_ints nn mm (water U) (f_mv a) /\ shape_ints nn mm (air U) (f_1ka sk) /\ shape_ints nn mm (air U) (f_mv a) /\
   shape_ints nn mm (air U) (f_n sk) /\ shape_ints nn mm (air U) (fun z => f_S sk z * f_n sk z)) /\
  contributes' (fun tvals acc => add_part nn (length tvals) 1 (u_BC U m eigs tvals Igamv) acc)
    (fun k t => (if water_rows U k then - edge mm (water U) w (f_mv w) k t - edge mm (air U) a (f_1kw sk) k t + edge mm (air U) a (f_mv w) k t
                    - d_v w * edge_flow T0 mm (water U) Tw Bw (f_kv w) (kv_bottom w) k t else 0) +
                (if air_rows U k then - edge mm (water U) w (f_mv a) k t - edge mm (air U) a (f_1ka sk) k t + edge mm (air U) a (f_mv a) k t
                    + / d * edge mm (air U) a (f_n sk) k t - / d * edge mm (air U) a (fun z => f_S sk z * f_n sk z) k t
                    - d_v a * edge_flow T0 mm (air U) Ta Ba (f_kv a) (kv_bottom a) k t else 0)).
Proof using HIg Heig Hnz Hm Nm HR HH HL HTw HBw HTa HBa Ew1 Ew2 Ew3 Ew4 Ea1 Ea2 Ea3 Ea4.
  pose proof HR as (RW & RA & Es & W & P1 & P2 & P3 & P4). pose proof RW as (Ww & Pw & Kw & _). pose proof RA as (Wa & Pa & Ka & _).
  cbn [kv dTv mv water air] in Kw, Ka, Pw, Pa. destruct Kw as (Kw & KBw & Dw). destruct Ka as (Ka & KBa & Da).
  assert (Ow : forall t, ok t -> before_ends (load_tables (water U)) t) by (intros t O; apply O).
  assert (Oa : forall t, ok t -> before_ends (load_tables (air U)) t) by (intros t O; apply O).
  assert (WS : forall keep e c f, depth_profile 0 1 c f -> well_separated [c] ->
    shape_ints nn mm (water U) f /\ contributes' (fun tvals acc => add_part nn (length tvals) e (by_water U m eigs tvals Igamv keep c) acc) (fun k t => if keep k then e * edge mm (water U) w f k t else 0)).
  { intros keep e c f Pc Wc. exact (phase_aDfDt nn T0 ok eigs Igamv mm (water U) w Tw Bw keep HIg Heig Hnz mm_len mm_nz HH HTw HBw Ew1 Ew2 Ew3 Ew4 Ow e c f Pc Wc). }
  assert (AS : forall keep e c f, depth_profile 0 1 c f -> well_separated [c] ->
    shape_ints nn mm (air U) f /\ contributes' (fun tvals acc => add_part nn (length tvals) e (by_air U m eigs tvals Igamv keep c) acc) (fun k t => if keep k then e * edge mm (air U) a f k t else 0)).
  { intros keep e c f Pc Wc. exact (phase_aDfDt nn T0 ok eigs Igamv mm (air U) a Ta Ba keep HIg Heig Hnz mm_len mm_nz HH HTa HBa Ea1 Ea2 Ea3 Ea4 Oa e c f Pc Wc). }
  destruct (WS (water_rows U) (-1) (m2w U) (f_mv w) Pw ltac:(apply u_sep; intros p [<-|[]]; cbn; tauto)) as (I1 & C1).
  destruct (AS (water_rows U) (-1) (m1kw U) (f_1kw sk) P1 ltac:(apply u_sep; intros p [<-|[]]; cbn; tauto)) as (I2 & C2).
  destruct (AS (water_rows U) 1 (m2w U) (f_mv w) Pw ltac:(apply u_sep; intros p [<-|[]]; cbn; tauto)) as (I3 & C3).
  destruct (WS (air_rows U) (-1) (m2a U) (f_mv a) Pa ltac:(apply u_sep; intros p [<-|[]]; cbn; tauto)) as (I5 & C5).
  destruct (AS (air_rows U) (-1) (m1ka U) (f_1ka sk) P2 ltac:(apply u_sep; intros p [<-|[]]; cbn; tauto)) as (I6 & C6).
  destruct (AS (air_rows U) 1 (m2a U) (f_mv a) Pa ltac:(apply u_sep; intros p [<-|[]]; cbn; tauto)) as (I7 & C7).
  destruct (AS (air_rows U) (/ d) (u_n U) (f_n sk) P3 ltac:(apply u_sep; intros p [<-|[]]; cbn; tauto)) as (I8 & C8).
  destruct (phase_abDfDt nn T0 ok eigs Igamv mm (air U) a Ta Ba (air_rows U) HIg Heig Hnz mm_len mm_nz HH HTa HBa Ea1 Ea2 Ea3 Ea4 Oa (- / d) (u_S U) (u_n U) (f_S sk) (f_n sk) P4 P3
     ltac:(apply u_sep; intros p [<-|[<-|[]]]; cbn; tauto)) as (I9 & C9).
  split; [auto 10|].
  assert (SK : forall (P : problem) (ph : physics) k, represents T0 P ph -> kv P = Some k -> well_separated [k]).
  { intros P ph k Rp Ek. apply (sep_sub P ph T0 Rp). intros p [<-|[]]. apply profiles_in. auto. }
  pose proof (phase_D nn T0 ok eigs Igamv mm (water U) Tw Bw (water_rows U) HIg Heig Hnz mm_len mm_nz HH HTw HBw Ow (- dTw U) (u_kw U) (f_kv w) Kw (SK _ _ _ RW eq_refl)) as C4.
  pose proof (phase_D nn T0 ok eigs Igamv mm (air U) Ta Ba (air_rows U) HIg Heig Hnz mm_len mm_nz HH HTa HBa Oa (- dTa U) (u_Da U) (f_kv a) Ka (SK _ _ _ RA eq_refl)) as C10.
  assert (C4' : contributes' (fun tvals acc => if Reqb (dTw U) 0 then Ok acc else add_part nn (length tvals) (- dTw U)
           (BC_D_aDf_z (water_rows U) (u_drn U) mm eigs tvals Igamv (u_kw U) (wtop_vs_time U) (u_normalised U (wbot_vs_time U))
              (wtop_omega_phase U) (wbot_omega_phase U) (u_dT U) (u_im U)) acc)
     (fun k t => if water_rows U k then - d_v w * edge_flow T0 mm (water U) Tw Bw (f_kv w) (kv_bottom w) k t else 0)).
  { rewrite Dw, KBw. destruct (Reqb (dTw U) 0) eqn:E0; [|exact C4]. apply Reqb_true in E0. rewrite E0.
    eapply contributes_ext; [apply contributes_nothing|reflexivity|]. intros k t _ _ _. destruct (water_rows U k); ring. }
  assert (C10' : contributes' (fun tvals acc => if Reqb (dTw U) 0 then Ok acc else add_part nn (length tvals) (- dTa U)
           (BC_D_aDf_z (air_rows U) (u_drn U) mm eigs tvals Igamv (u_Da U) (atop_vs_time U) (u_normalised U (abot_vs_time U))
              (atop_omega_phase U) (abot_omega_phase U) (u_dT U) (u_im U)) acc)
     (fun k t => if air_rows U k then - d_v a * edge_flow T0 mm (air U) Ta Ba (f_kv a) (kv_bottom a) k t else 0)).
  { rewrite Da, KBa. destruct (Reqb (dTw U) 0) eqn:E0; [|exact C10]. apply Reqb_true in E0.
    eapply contributes_ext; [apply contributes_nothing|reflexivity|]. intros k t _ _ _. destruct (air_rows U k); auto.
    destruct HL as (_ & N). contradiction. }
  pose proof (contributes_seq _ _ _ _ _ _ _ _ _ _ C1 (contributes_seq _ _ _ _ _ _ _ _ _ _ C2 (contributes_seq _ _ _ _ _ _ _ _ _ _ C3 (contributes_seq _ _ _ _ _ _ _ _ _ _ C4'
    (contributes_seq _ _ _ _ _ _ _ _ _ _ C5 (contributes_seq _ _ _ _ _ _ _ _ _ _ C6 (contributes_seq _ _ _ _ _ _ _ _ _ _ C7 (contributes_seq _ _ _ _ _ _ _ _ _ _ C8
    (contributes_seq _ _ _ _ _ _ _ _ _ _ C9 C10'))))))))) as CC.
  eapply contributes_ext; [apply (contributes_part _ _ _ _ _ _ 1 _ _ CC)| |].
  - intros tvals acc. reflexivity.
  - intros k t _ _ _. cbv beta. destruct (water_rows U k), (air_rows U k); ring.
Qed.
Lemma all_sources : exists c, mild nn (u_dT U) T0 ok eigs Igamv c u_source /\ forall tvals, exists A, u_make_E_Igamv_the U m eigs tvals Igamv = Ok A /\
  shape A nn (length tvals) /\ forall j i, (j < nn)%nat -> (i < length tvals)%nat -> cell A j i = c j (nth i tvals 0).
Proof using HIg Heig Hnz Hm Nm HR HH HL HTw HBw HTa HBa Ew1 Ew2 Ew3 Ew4 Ea1 Ea2 Ea3 Ea4.
  destruct surcharge_part as (_ & _ & S1). destruct bc_part as (_ & S2).
  pose proof (contributes_seq _ _ _ _ _ _ _ _ _ _ S1 S2) as CC.
  assert (CC' : contributes' (fun tvals acc => acc <- match u_surcharge_vs_depth U, u_surcharge_vs_time U with
         | Some sz, Some st => add_part nn (length tvals) 1 (u_surcharge U m eigs tvals Igamv sz st) acc
         | _, _ => Ok acc
         end ;; add_part nn (length tvals) 1 (u_BC U m eigs tvals Igamv) acc) u_source).
  { eapply contributes_ext; [exact CC|reflexivity|]. intros k t Hk _ _. unfold u_source, water_rows, air_rows. fold n.
    destruct (Nat.ltb k n) eqn:E.
    - apply Nat.ltb_lt in E. assert (E' : Nat.leb n k = false) by (apply Nat.leb_gt; auto). rewrite E'. unfold w_source.
      pose proof (mm_water k E) as M. symmetry in M. rewrite (pushed_move m mm _ _ k k t M), !(edge_move m mm _ _ _ k k t M), (flow_move T0 m mm _ _ _ _ _ k k t M). ring.
    - apply Nat.ltb_ge in E. assert (E' : Nat.leb n k = true) by (apply Nat.leb_le; auto). rewrite E'. unfold a_source.
      pose proof (mm_air (k - n)) as M. replace (n + (k - n))%nat with k in M by lia. symmetry in M.
      rewrite (pushed_move m mm _ _ (k - n) k t M), !(edge_move m mm _ _ _ (k - n) k t M), (flow_move T0 m mm _ _ _ _ _ (k - n) k t M). ring. }
  destruct CC' as (c & M & H). exists c. split; [exact M|]. intros tvals. destruct (H tvals _ _ (zero_tab nn tvals)) as (A & E & T). exists A.
  assert (B : is_none (atop_vs_time U) || is_none (abot_vs_time U) || is_none (wtop_vs_time U) || is_none (wbot_vs_time U) = true).
  { destruct HL as ([N|[N|[N|N]]] & _); rewrite N; cbn; rewrite ?Bool.orb_true_r; reflexivity. }
  split; [|split].
  - unfold u_make_E_Igamv_the. rewrite B. exact E.
  - destruct (match u_surcharge_vs_depth U, u_surcharge_vs_time U with Some sz, Some st => _ | _, _ => _ end) as [acc|]; cbn [bind] in E; [|discriminate].
    unfold add_part in E. destruct (u_BC U m eigs tvals Igamv); cbn [bind] in E; [|discriminate]. injection E as <-. apply table_shape.
  - intros j i Hj Hi. rewrite T by auto. ring.
Qed.
End Sources.

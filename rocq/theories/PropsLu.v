(** * C123-C124: consolidation of soil around a compressible column (luetal2010.py) *)
From Coq Require Import Reals List Arith ZArith Bool Lia Lra.
From Coquelicot Require Import Coquelicot.
From Verif Require Import Base SpecPiecewise ConstitutiveModel SmearModel SpecSmear SpecLu LuModel TerzaghiModel TerzaghiProofs LuProofs LuProofs2.
Import ListNotations.
Open Scope R_scope.

(** A table of values f at depths zs (rows) and times ts (columns). *)
Definition table (zs ts : list R) (f : R -> R -> R) (A : list (list R)) : Prop :=
  length A = length zs /\ forall k, (k < length zs)%nat -> length (nth k A []) = length ts /\
    forall j, (j < length ts)%nat -> nth j (nth k A []) 0 = f (at_ zs k) (at_ ts j).
Lemma table_grid zs ts f : table zs ts f (map (fun z => map (f z) ts) zs).
Proof.
  split; [apply map_length|]. intros k Hk. rewrite (nth_indep _ [] (map (f 0) ts)) by (rewrite map_length; auto). rewrite map_nth with (f := fun z => map (f z) ts). split; [apply map_length|].
  intros j Hj. rewrite (nth_indep _ 0 (f (nth k zs 0) 0)) by (rewrite map_length; auto). apply map_nth with (f := f (nth k zs 0)).
Qed.
(** The pore pressures: mean u, soil us, column uc. *)
Definition column_fields (P : lu) (u us uc : R -> R -> R) : Prop := exists mu,
  is_mu (l_re P / l_rc P) (around_column P) mu /\
  column_system (l_rc P) (l_re P) (l_kv P) (l_kvc P) (l_kh P) (l_khc P) (l_mvs P) (l_mvc P) (l_gamw P) mu u us uc /\
  open_top_closed_bottom (l_H P) u /\ open_top_closed_bottom (l_H P) us /\ open_top_closed_bottom (l_H P) uc /\
  ((1 <= l_nterms P)%nat -> exists e, is_RInt (fun z => (u z 0 - linear_with_depth (l_H P) (l_utop P) (l_ubot P) z)^2) 0 (l_H P) e /\
     e <= l_H P * (4 / (PI^2 * INR (l_nterms P))) * ((l_utop P)^2 + (l_ubot P - l_utop P)^2)).

Lemma lu_run P zs ts : sound_lu P -> l_kvc P <> l_kv P -> exists por pors porc avp settle u us uc,
  luetal2010 P zs ts = Ok (por, pors, porc, avp, settle) /\ column_fields P u us uc /\
  table zs ts u por /\ table zs ts us pors /\ table zs ts uc porc /\
  length avp = length ts /\ length settle = length ts /\
  forall j, (j < length ts)%nat -> is_RInt (fun z => u z (at_ ts j)) 0 (l_H P) (l_H P * at_ avp j) /\
    exists strain, (forall z, ((l_re P)^2 - (l_rc P)^2) * (strain z / l_mvs P) + (l_rc P)^2 * (strain z / l_mvc P)
        = (l_re P)^2 * (linear_with_depth (l_H P) (l_utop P) (l_ubot P) z - u z (at_ ts j))) /\
      is_RInt strain 0 (l_H P) (at_ settle j).
Proof.
  intros So Hk. assert (Hd : l_kvc P - l_kv P <> 0) by lra. destruct (l_mu0_ok P So) as (mu & Emu & Imu & Hmu). pose proof (lo_H P So) as HH.
  set (avg := fun t => l_sum P (fun k => 2 / (l_M k)^2 * (l_utop P - minus1 k * (l_utop P - l_ubot P) / l_M k) * exp (- l_betm P mu k * t))).
  set (g := fun a => ((l_utop P + l_ubot P) / 2 - a) * (l_H P * l_mvs P * (l_n P)^2 / ((l_n P)^2 - 1 + l_Y P))).
  exists (map (fun z => map (uall P mu z) ts) zs), (map (fun z => map (usoil P mu z) ts) zs), (map (fun z => map (ucol P mu z) ts) zs), (map avg ts), (map g (map avg ts)), (uall P mu), (usoil P mu), (ucol P mu).
  split; [|split; [|split; [apply table_grid|split; [apply table_grid|split; [apply table_grid|split; [apply map_length|split; [rewrite !map_length; auto|]]]]]]].
  - unfold luetal2010. rewrite Emu. cbn [bind]. rewrite (D_ok P Hd mu). cbn [bind]. cbv zeta. do 4 f_equal; [f_equal|].
    + apply map_ext. intros z. apply map_ext. intros t. apply por_eq.
    + apply map_ext. intros z. apply map_ext. intros t. apply (pors_eq P So Hd mu Hmu).
    + apply map_ext. intros z. apply map_ext. intros t. apply (porc_eq P So Hd mu Hmu).
  - exists mu. split; [auto|]. split; [apply lu_system; auto|]. destruct (lu_ends P So mu) as (E1 & E2 & E3). split; [auto|]. split; [auto|]. split; [auto|].
    intros Hn. exact (start_misfit (l_H P) HH (l_nterms P) (l_utop P) (l_ubot P) (bet P mu) Hn).
  - intros j Hj.
    assert (EA : at_ (map avg ts) j = avg (at_ ts j)). { unfold at_. rewrite (nth_indep _ 0 (avg 0)) by (rewrite map_length; auto). apply map_nth. }
    assert (ES : at_ (map g (map avg ts)) j = g (avg (at_ ts j))). { rewrite <- EA. unfold at_. rewrite (nth_indep _ 0 (g 0)) by (rewrite !map_length; auto). apply map_nth. }
    assert (I : is_RInt (fun z => uall P mu z (at_ ts j)) 0 (l_H P) (l_H P * avg (at_ ts j))).
    { eapply rint_val; [apply ser_int; auto|]. f_equal. unfold avg. rewrite l_sum_ssum. apply ssum_ext. intros k _. change (l_M k) with (Mk k). unfold cc, bet. pose proof (Mk_pos k). generalize (exp (- l_betm P mu k * at_ ts j)). intros x. field. lra. }
    rewrite EA, ES. split; [exact I|]. pose proof (NN_pos P So) as HN. pose proof (Y_pos P So) as HY. unfold NN in HN.
    set (s := l_mvs P * (l_n P)^2 / ((l_n P)^2 - 1 + l_Y P)).
    exists (fun z => s * (linear_with_depth (l_H P) (l_utop P) (l_ubot P) z - uall P mu z (at_ ts j))). split.
    + intros z. generalize (linear_with_depth (l_H P) (l_utop P) (l_ubot P) z - uall P mu z (at_ ts j)). intros d. destruct So.
      replace ((l_re P)^2) with ((l_n P)^2 * (l_rc P)^2) by (unfold l_n; field; lra). unfold s, l_Y in *. set (N2 := (l_n P)^2) in *. clearbody N2. field. repeat split; try lra.
      assert (0 < (N2 - 1) * l_mvc P) by (apply Rmult_lt_0_compat; auto). lra.
    + eapply rint_val; [apply (is_RInt_scal (V := R_NormedModule)); apply (is_RInt_minus (V := R_NormedModule)); [|exact I]|].
      * apply (is_RInt_derive (fun z => l_utop P * z + (l_ubot P - l_utop P) * (z^2 / (2 * l_H P))) (linear_with_depth (l_H P) (l_utop P) (l_ubot P))).
        -- intros z _. unfold linear_with_depth. auto_derive; [auto|]. field. lra.
        -- intros z _. unfold linear_with_depth. apply (ex_derive_continuous (V := R_NormedModule)). auto_derive. auto.
      * unfold g, s, scal, minus, plus, opp; cbn. unfold mult; cbn. match goal with |- ?u = ?v => change (@eq R u v) end. cbn in HN. field. repeat split; lra.
Qed.

(** ** C123: pore pressures *)
Theorem C123_pressures : forall P zs ts, sound_lu P -> l_kvc P <> l_kv P -> exists por pors porc avp settle u us uc,
  luetal2010 P zs ts = Ok (por, pors, porc, avp, settle) /\ column_fields P u us uc /\
  table zs ts u por /\ table zs ts us pors /\ table zs ts uc porc.
Proof.
  intros P zs ts So Hk. destruct (lu_run P zs ts So Hk) as (por & pors & porc & avp & settle & u & us & uc & H1 & H2 & H3 & H4 & H5 & _).
  exists por, pors, porc, avp, settle, u, us, uc. auto.
Qed.
(** A column as permeable vertically as the soil, which is the default, is refused. *)
Theorem C123_same_permeability_refuted : forall P zs ts, sound_lu P -> l_kvc P = l_kv P -> luetal2010 P zs ts = Err ZeroDivisionError.
Proof.
  intros P zs ts So E. destruct (l_mu0_ok P So) as (mu & Emu & _). unfold luetal2010. rewrite Emu. cbn [bind]. unfold l_D, fdiv. rewrite E.
  replace (Reqb (l_kv P - l_kv P) 0) with true by (symmetry; apply Reqb_true; lra). reflexivity.
Qed.
Theorem C123_defaults_refuted : forall zs ts, luetal2010 (lu_defaults 1 5) zs ts = Err ZeroDivisionError.
Proof. intros zs ts. apply C123_same_permeability_refuted; [|reflexivity]. constructor; cbn; auto; lra. Qed.

(** ** C124: average pore pressure and settlement *)
(** avp is the mean over the depth of the same mean pore pressure.  The settlement is the integral of the strain
    which, the same in soil and column, makes their skeletons carry the dissipated pressure. *)
Theorem C124_average_and_settlement : forall P zs ts, sound_lu P -> l_kvc P <> l_kv P -> exists por pors porc avp settle u us uc,
  luetal2010 P zs ts = Ok (por, pors, porc, avp, settle) /\ column_fields P u us uc /\ table zs ts u por /\
  length avp = length ts /\ length settle = length ts /\
  forall j, (j < length ts)%nat -> is_RInt (fun z => u z (at_ ts j)) 0 (l_H P) (l_H P * at_ avp j) /\
    exists strain, (forall z, ((l_re P)^2 - (l_rc P)^2) * (strain z / l_mvs P) + (l_rc P)^2 * (strain z / l_mvc P)
        = (l_re P)^2 * (linear_with_depth (l_H P) (l_utop P) (l_ubot P) z - u z (at_ ts j))) /\
      is_RInt strain 0 (l_H P) (at_ settle j).
Proof.
  intros P zs ts So Hk. destruct (lu_run P zs ts So Hk) as (por & pors & porc & avp & settle & u & us & uc & H1 & H2 & H3 & H4 & H5 & H6 & H7 & H8).
  exists por, pors, porc, avp, settle, u, us, uc. auto 10.
Qed.
(** The hypotheses hold of a column with a smear zone. *)
Definition exL : lu := mkLu (1/10) (9/10) 10 (Some (15/100)) (Some (1/2)) 1 2000 1 2 (1/10) (5/10000) 10 (9/10) (2/10) 100.
Theorem C123_witness : exists por pors porc avp settle u us uc, luetal2010 exL [0; 3; 10] [1/10; 2] = Ok (por, pors, porc, avp, settle) /\
  column_fields exL u us uc /\ length por = 3%nat.
Proof.
  destruct (C123_pressures exL [0; 3; 10] [1/10; 2]) as (por & pors & porc & avp & settle & u & us & uc & H1 & H2 & H3 & _); [constructor; cbn; lra|cbn; lra|].
  exists por, pors, porc, avp, settle, u, us, uc. split; [auto|]. split; [auto|]. apply H3.
Qed.

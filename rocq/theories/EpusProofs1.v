(** * EPUS: what one operation does to one group of pores *)
From Coq Require Import Reals List ZArith Bool Lia Lra.
From Verif Require Import Base ConstitutiveModel ConstitutiveProofs SwccModel EpusModel.
Import ListNotations.
Local Open Scope R_scope.

Ltac unbind H := repeat (match type of H with bind ?m _ = Ok _ => let E := fresh "Q" in destruct m eqn:E; [cbn [bind] in H|discriminate H] end).
Ltac casebool := repeat match goal with
  | |- context [if Rltb ?a ?b then _ else _] => unfold Rltb; destruct (Rlt_dec a b)
  | |- context [if Rleb ?a ?b then _ else _] => unfold Rleb; destruct (Rle_dec a b) end.

(** The volume of a group at yield stress y under the stress c. *)
Definition vol (p : par) (q : pore) (y c : R) : R := Rmax 0 (RV q - (log10 y - MinSuction p) * Ccp q + (log10 y - log10 c) * Csp q).
Lemma log10M_ok x v : log10M x = Ok v -> 0 < x /\ v = log10 x.
Proof. unfold log10M, Rltb. destruct (Rlt_dec 0 x); [|discriminate]. intros H. split; [auto|congruence]. Qed.
Lemma log10M_pos x : 0 < x -> log10M x = Ok (log10 x).
Proof. intros H. unfold log10M. rewrite Rltb_true; auto. Qed.
Lemma volume_ok p q y c v : volume p q y c = Ok v -> 0 < y /\ 0 < c /\ v = vol p q y c.
Proof.
  unfold volume, Changevolume. intros H. unbind H. apply log10M_ok in Q as [P1 ->]. apply log10M_ok in Q0 as [P2 ->]. injection H as <-.
  repeat split; auto. unfold vol, Rmax, Rltb. destruct (Rlt_dec _ _), (Rle_dec _ _); lra.
Qed.
Lemma volume_pos p q y c : 0 < y -> 0 < c -> volume p q y c = Ok (vol p q y c).
Proof.
  intros. unfold volume, Changevolume. rewrite !log10M_pos by auto. cbn [bind]. f_equal.
  unfold vol, Rmax, Rltb. destruct (Rlt_dec _ _), (Rle_dec _ _); lra.
Qed.
Lemma vol_nonneg p q y c : 0 <= vol p q y c. Proof. apply Rmax_l. Qed.
(** More yield stress or more stress: less volume. *)
Definition stiff (q : pore) : Prop := 0 <= Csp q <= Ccp q.
Lemma vol_mono p q y c y' c' : stiff q -> 0 < y <= y' -> 0 < c <= c' -> vol p q y' c' <= vol p q y c.
Proof.
  intros S H1 H2. unfold vol. apply Rle_max_compat_l. assert (A := log10_le y y' ltac:(tauto) ltac:(tauto)). assert (B := log10_le c c' ltac:(tauto) ltac:(tauto)).
  assert (0 <= (log10 y' - log10 y) * (Ccp q - Csp q)) by (apply Rmult_le_pos; [lra|unfold stiff in S; lra]).
  assert (0 <= (log10 c' - log10 c) * Csp q) by (apply Rmult_le_pos; [lra|unfold stiff in S; lra]). lra.
Qed.
(** What never changes. *)
Definition same_group (q q' : pore) : Prop := AEV q' = AEV q /\ WEV q' = WEV q /\ Ccp q' = Ccp q /\ Csp q' = Csp q /\ Ccd q' = Ccd q /\ RV q' = RV q.
Lemma vol_same p q q' y c : same_group q q' -> vol p q' y c = vol p q y c.
Proof. intros (_ & _ & A & B & _ & C). unfold vol. rewrite A, B, C. reflexivity. Qed.

(** A general step: the group keeps its identity, its yield stress does not fall, trapped air stays. *)
Definition stepped (q q' : pore) : Prop :=
  same_group q q' /\ YieldSt q <= YieldSt q' /\ (Filled q = true \/ 0 <= RVC q -> 0 <= RVC q') /\ (Airentrapped q = true -> Airentrapped q' = true).
Lemma same_refl q : same_group q q. Proof. repeat split. Qed.
Lemma stepped_refl q : Filled q = false -> stepped q q.
Proof. intros F. repeat split; try lra. intros [H|H]; [congruence|auto]. auto. Qed.
Ltac fin := unfold stepped, same_group, set_volume, set_flags; cbn [AEV WEV Ccp Csp Ccd RV YieldSt Filled RVC Airentrapped].

Lemma dry_stepped p Str ss q q' : dry_pore p Str ss q = Ok q' ->
  stepped q q' /\ (Filled q' = true -> Filled q = true /\ Airentrapped q' = Airentrapped q /\ Str + ss <= YieldSt q' /\ RVC q' = vol p q' (YieldSt q') (Str + ss) /\ 0 < Str + ss) /\
  (Filled q = false -> q' = q) /\
  (Filled q = true -> RVC q' = vol p q' (YieldSt q') (Str + ss) /\ 0 < Str + ss /\ 0 < YieldSt q').
Proof.
  unfold dry_pore. destruct (Filled q) eqn:F; intros H.
  2:{ injection H as <-. split; [apply stepped_refl; auto|]. split; [intros X; congruence|]. split; [auto|discriminate]. }
  unbind H. destruct (Rleb _ _) eqn:L.
  - unbind H. injection H as <-. apply volume_ok in Q2 as (P1 & P2 & ->). fin.
    assert (Y : YieldSt q <= (if Rltb (YieldSt q) (Str + pow10 (AEV q) / a0) then pow10 (AEV q) / a0 + Str else YieldSt q)) by (unfold Rltb; destruct (Rlt_dec _ _); lra).
    split; [|split; [discriminate|split; [discriminate|auto]]]. repeat split; auto. intros _. apply vol_nonneg.
  - unbind H. injection H as <-. apply volume_ok in Q0 as (P1 & P2 & ->). fin.
    assert (Y : YieldSt q <= (if Rltb (YieldSt q) (Str + ss) then Str + ss else YieldSt q)) by (unfold Rltb; destruct (Rlt_dec _ _); lra).
    assert (Y2 : Str + ss <= (if Rltb (YieldSt q) (Str + ss) then Str + ss else YieldSt q)) by (unfold Rltb; destruct (Rlt_dec _ _); lra).
    split; [|split; [|split; [discriminate|auto]]]; repeat split; auto. intros _. apply vol_nonneg.
Qed.
Lemma dry_yield_stepped p ref st b q q' : Filled q = false -> dry_yield p ref st b q = Ok q' -> stepped q q' /\ Filled q' = false /\ Airentrapped q' = Airentrapped q.
Proof.
  intros F. unfold dry_yield. destruct (_ && _)%bool; intros H.
  2:{ injection H as <-. split; [apply stepped_refl; auto|auto]. }
  unbind H. unfold Rltb in H. destruct (Rlt_dec _ _).
  - unbind H. injection H as <-. apply volume_ok in Q0 as (P1 & P2 & ->). fin. repeat split; auto; try lra. intros _. apply vol_nonneg.
  - injection H as <-. split; [apply stepped_refl; auto|auto].
Qed.
Lemma wet_stepped p Str ref ss q q' : wet_pore p Str ref ss q = Ok q' ->
  stepped q q' /\ (Filled q = true -> Filled q' = true) /\ Airentrapped q' = Airentrapped q /\
  (Filled q' = true -> Str + ss <= YieldSt q' /\ RVC q' = vol p q' (YieldSt q') (Str + ss) /\ 0 < Str + ss) /\
  (Filled q = true -> YieldSt q' = Rmax (YieldSt q) (Str + ss)).
Proof.
  unfold wet_pore. destruct (Filled q) eqn:F; cbn [negb]; intros H.
  - unbind H. injection H as <-. apply volume_ok in Q as (P1 & P2 & ->). fin.
    assert (Y : (if Rltb (YieldSt q) (Str + ss) then Str + ss else YieldSt q) = Rmax (YieldSt q) (Str + ss)) by (unfold Rltb, Rmax; destruct (Rlt_dec _ _), (Rle_dec _ _); lra).
    rewrite Y. assert (Z1 := Rmax_l (YieldSt q) (Str + ss)). assert (Z2 := Rmax_r (YieldSt q) (Str + ss)).
    split; [|split; [|split; [|split; [|]]]]; auto; repeat split; auto. intros _. apply vol_nonneg.
  - unbind H. unfold Rleb in H. destruct (Rle_dec _ _).
    + unbind H. injection H as <-. apply volume_ok in Q0 as (P1 & P2 & ->). fin.
      assert (Y : YieldSt q <= (if Rltb (YieldSt q) (pow10 (WEV q) / a + Str) then pow10 (WEV q) / a + Str else YieldSt q)) by (unfold Rltb; destruct (Rlt_dec _ _); lra).
      assert (Y2 : Str + ss <= (if Rltb (YieldSt q) (pow10 (WEV q) / a + Str) then pow10 (WEV q) / a + Str else YieldSt q)) by (unfold Rltb; destruct (Rlt_dec _ _); lra).
      split; [|split; [|split; [|split; [|]]]]; auto; try discriminate; repeat split; auto. intros _. apply vol_nonneg.
    + apply dry_yield_stepped in H as (S & F' & A); auto. split; auto. split; [discriminate|]. split; auto. split; [intros; congruence|discriminate].
Qed.
Lemma load_stepped p Str Suc ref st q q' : load_pore p Str Suc ref st q = Ok q' ->
  stepped q q' /\ (Filled q = true -> Filled q' = true) /\ Airentrapped q' = Airentrapped q /\
  (Filled q' = true -> RVC q' = vol p q' (YieldSt q') (Suc + st) /\ 0 < Suc + st /\ 0 < YieldSt q') /\
  (Filled q = true -> YieldSt q' = Rmax (YieldSt q) (Suc + st)).
Proof.
  unfold load_pore. destruct (Filled q) eqn:F; intros H.
  - unbind H. injection H as <-. apply volume_ok in Q as (P1 & P2 & ->). fin.
    assert (Y : (if Rltb (YieldSt q) (st + Suc) then st + Suc else YieldSt q) = Rmax (YieldSt q) (Suc + st)) by (unfold Rltb, Rmax; destruct (Rlt_dec _ _), (Rle_dec _ _); lra).
    rewrite Y in *. assert (Z1 := Rmax_l (YieldSt q) (Suc + st)).
    split; [|split; [|split; [|split; [|]]]]; auto; repeat split; auto. intros _. apply vol_nonneg.
  - unbind H. destruct (Rltb Suc (pow10 (WEV q) / a)).
    + unbind H. injection H as <-. apply volume_ok in Q0 as (P1 & P2 & ->). fin.
      assert (Y : YieldSt q <= (if Rltb (YieldSt q) (st + pow10 (WEV q)) then st + pow10 (WEV q) else YieldSt q)) by (unfold Rltb; destruct (Rlt_dec _ _); lra).
      split; [|split; [|split; [|split; [|]]]]; auto; try discriminate; repeat split; auto. intros _. apply vol_nonneg.
    + apply dry_yield_stepped in H as (S & F' & A); auto. split; auto. split; [discriminate|]. split; auto. split; [intros; congruence|discriminate].
Qed.
Lemma unload_stepped p Suc st q q' : unload_pore p Suc st q = Ok q' ->
  stepped q q' /\ Filled q' = Filled q /\ Airentrapped q' = Airentrapped q /\ YieldSt q' = YieldSt q /\ (Filled q = false -> q' = q) /\
  (Filled q' = true -> RVC q' = vol p q' (YieldSt q') (Suc + st) /\ 0 < Suc + st /\ 0 < YieldSt q').
Proof.
  unfold unload_pore. destruct (Filled q) eqn:F; intros H.
  - unbind H. injection H as <-. apply volume_ok in Q as (P1 & P2 & ->). fin.
    repeat (match goal with |- _ /\ _ => split end); auto; try lra; intros; try discriminate; try apply vol_nonneg.
  - injection H as <-. split; [apply stepped_refl; auto|]. repeat (match goal with |- _ /\ _ => split end); auto; intros; congruence.
Qed.

(** * C149: a case that meets the hypotheses (speed ratio 4/5, no damping) *)
From Coq Require Import Reals List Arith ZArith Bool Lia Lra.
From Coquelicot Require Import Coquelicot.
From Verif Require Import Base BeamModel PropsBeam PropsBeam3 PropsBeam4.
Import ListNotations.
Local Open Scope R_scope.

Definition ceqb (a b : C) : bool := Reqb (fst a) (fst b) && Reqb (snd a) (snd b).
Fixpoint leqb (u v : list C) : bool := match u, v with [], [] => true | a :: u, b :: v => ceqb a b && leqb u v | _, _ => false end.
Lemma leqb_eq u v : leqb u v = true <-> u = v.
Proof.
  revert v. induction u as [|a u IH]; intros [|b v]; cbn [leqb]; split; intros H; try discriminate; auto.
  - apply andb_prop in H. destruct H as [H1 H2]. apply IH in H2. apply andb_prop in H1. destruct H1 as [A B]. apply Reqb_true in A. apply Reqb_true in B. destruct a, b. cbn [fst snd] in *. congruence.
  - injection H as <- <-. assert (X : forall r, Reqb r r = true) by (intros r; apply Reqb_true; auto). unfold ceqb. rewrite !X. cbn [andb]. apply IH. auto.
Qed.
(** a solver that checks one candidate *)
Definition checking (x : list C) (M : list (list C)) (r : list C) : result (list C) := if (Nat.eqb (length x) (length r) && leqb (map (fun row => cdot row x) M) r)%bool then Ok x else Err ValueError.
Lemma checking_ok x : csolves (checking x).
Proof. intros M r y. unfold checking. destruct (_ && _)%bool eqn:E; [|discriminate]. intros H. injection H as <-. apply andb_prop in E. destruct E as [E1 E2]. apply Nat.eqb_eq in E1. apply leqb_eq in E2. auto. Qed.
Section W.
Variables p q : R.
Hypothesis (Hp : 0 < p) (Hq : 0 < q) (PQ : p * p + q * q = 2).
Definition four : list C := [(- p, q); (- p, - q); (p, q); (p, - q)].
Definition amps : list C := [(/ (2 * p), - / (2 * q)); (/ (2 * p), / (2 * q)); (/ (2 * p), / (2 * q)); (/ (2 * p), - / (2 * q))].
Lemma four_roots a : a ^ 2 = 1 - p * p -> roots_ok (fun _ => four) a 0.
Proof.
  intros Ha. split; auto. intros [x y]. replace (- 8 * a * 0) with 0 by ring. rewrite Ha. unfold four. cbn [map fold_right cpow]. unfold Cminus, Cmult, Cplus, Copp, RtoC. cbn [fst snd]. assert (Q2 : q * q = 2 - p * p) by lra.
  assert (X : forall z, q * (q * z) = (2 - p * p) * z) by (intros z; rewrite <- Q2; ring). apply f_equal2.
  - transitivity ((x * x - y * y) * (x * x - y * y) - 4 * x * x * y * y + 4 * (1 - p * p) * (x * x - y * y) + 4); [ring|].
    transitivity ((x * x - y * y) * (x * x - y * y) - 4 * x * x * y * y + 2 * (q * q - p * p) * (x * x - y * y) + (p * p + q * q) * (p * p + q * q)); [|ring]. rewrite Q2. ring.
  - transitivity (4 * x * y * (x * x - y * y) + 8 * (1 - p * p) * x * y); [ring|]. transitivity (4 * x * y * (x * x - y * y) + 4 * (q * q - p * p) * x * y); [|ring]. rewrite Q2. ring.
Qed.
Lemma amps_ok : checking amps (cmat four) [RtoC 0; RtoC 0; RtoC 0; RtoC 8] = Ok amps.
Proof.
  unfold checking. replace (leqb _ _) with true; auto. symmetry. apply leqb_eq. unfold cmat, cdot, amps, four, at4. cbn [map seq nth combine fold_right fst snd cpow]. unfold Cmult, Cplus, Copp, RtoC. cbn [fst snd].
  repeat (apply f_equal2; [apply f_equal2; try (field; lra)|]); auto.
  match goal with |- ?l = 8 => transitivity (4 * (p * p + q * q)); [field; lra|lra] end.
Qed.
End W.
Theorem C149_witness : let q := sqrt (41 / 25) in let roots := fun _ => four (3 / 5) q in let solve := checking (amps (3 / 5) q) in
  roots_ok roots (4 / 5) 0 /\ csolves solve /\ ordered (roots [1; 0; 4 * (4 / 5) ^ 2; - 8 * (4 / 5) * 0; 4]) /\
  exists s d, moving_load_on_beam_on_elastic_foundation roots solve (4 / 5) 0 (-3, 3) 7 = Ok (s, d) /\ In 0 s /\ In (RtoC (5 / 3)) d.
Proof.
  intros q roots solve. assert (Q0 : 0 < q) by (apply sqrt_lt_R0; lra). assert (QQ : q * q = 41 / 25) by (apply sqrt_sqrt; lra).
  split; [apply four_roots; lra|]. split; [apply checking_ok|]. split; [unfold ordered, roots, four, at4; cbn [nth fst]; lra|].
  unfold moving_load_on_beam_on_elastic_foundation. unfold solve at 1. unfold roots at 1. rewrite amps_ok by lra. cbn [bind]. eexists. eexists. split; [reflexivity|]. assert (I0 : In 0 (linspace (-3) 3 7)) by exact (zero_in 3 3 ltac:(lia)). split; [exact I0|].
  apply in_map_iff. exists 0. split; auto. unfold disp_at. destruct (Rltb 0 0) eqn:E; [apply Rltb_true in E; lra|]. fold (term (at4 (amps (3 / 5) q) 0) (at4 (roots [1; 0; 4 * (4 / 5) ^ 2; - 8 * (4 / 5) * 0; 4]) 0) 0). fold (term (at4 (amps (3 / 5) q) 1) (at4 (roots [1; 0; 4 * (4 / 5) ^ 2; - 8 * (4 / 5) * 0; 4]) 1) 0). rewrite !term_0. unfold at4, amps. cbn [nth]. unfold Cplus, RtoC. cbn [fst snd]. apply f_equal2; field; lra.
Qed.
(** standing still *)
Theorem C149_witness_static : let roots := fun _ => four 1 1 in let solve := checking (amps 1 1) in
  roots_ok roots 0 0 /\ csolves solve /\ ordered (roots [1; 0; 4 * 0 ^ 2; - 8 * 0 * 0; 4]) /\ exists s d, moving_load_on_beam_on_elastic_foundation roots solve 0 0 (-3, 3) 7 = Ok (s, d).
Proof.
  intros roots solve. split; [apply four_roots; lra|]. split; [apply checking_ok|]. split; [unfold ordered, roots, four, at4; cbn [nth fst]; lra|].
  unfold moving_load_on_beam_on_elastic_foundation. unfold solve at 1. unfold roots at 1. rewrite amps_ok by lra. cbn [bind]. eauto.
Qed.

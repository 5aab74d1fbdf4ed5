(** * C145, C147: times, and end conditions the class does not know *)
From Coq Require Import Reals List Arith ZArith Bool Lia Lra.
From Verif Require Import Base DingModel PropsDing.
Import ListNotations.
Local Open Scope R_scope.

(** the times given to odeint are those of the equations: at physical times t the solution is taken at t / L sqrt(E / rho), from rest *)
Theorem C145_times odeint n N E I rho A L k1 k3 mu Fz v roots solve o ts qs tn : init roots solve (physical n N E I rho A L k1 k3 mu Fz v) = Ok o ->
  calulate_qk odeint o (Some ts) None = Ok (tn, qs) -> tn = map (fun t => t / L * sqrt (E / rho)) ts /\ odeint (vectorfield o) (repeat 0 (2 * n)) tn = Ok qs.
Proof.
  intros HO H. destruct (init_SS roots solve (physical n N E I rho A L k1 k3 mu Fz v) o eq_refl HO) as (IN & _). unfold calulate_qk, times in H. rewrite IN in H. cbn [physical i_L i_E i_rho i_nterms need bind] in H.
  match type of H with bind ?m _ = _ => destruct m as [q|] eqn:EQ; [|discriminate] end. cbn [bind] in H. injection H as <- <-. split; [reflexivity|exact EQ].
Qed.
Theorem C145_times_witness : exists o, calulate_qk (fun _ y ts => Ok (map (fun _ => y) ts)) o (Some [0; 3]) None = Ok ([0; 3], [[0; 0]; [0; 0]]).
Proof.
  exists (mkD (physical 1 2 1 1 1 1 1 0 0 0 0 0) 0 0 0 0 0 0 phiSS [] 2 None). unfold calulate_qk, times. cbn -[sqrt]. replace (1 / 1) with 1 by field. rewrite sqrt_1. f_equal. apply f_equal2; [|reflexivity]. repeat (apply f_equal2; [lra|]). reflexivity.
Qed.
(** normalised times are taken as they are, and some times are needed *)
Theorem C145_given_times odeint o t l : times o t (Some l) = Ok l /\ times o None None = Err TypeError /\ calulate_qk odeint o None None = Err TypeError.
Proof. repeat split; reflexivity. Qed.
(** an end condition that is not SS, CC or FF raises ValueError *)
Theorem C147_unknown_ends roots solve i kf v F mu k1 k3 : i_kf i = Some kf -> i_v_norm i = Some v -> i_Fz_norm i = Some F -> i_mu_norm i = Some mu -> i_k1_norm i = Some k1 -> i_k3_norm i = Some k3 -> i_BC i = OtherBC -> init roots solve i = Err ValueError.
Proof. intros H1 H2 H3 H4 H5 H6 H7. unfold init. rewrite H1, H2, H3, H4, H5, H6, H7. reflexivity. Qed.

(** * C165, continued: the default water table; the path of loading of one depth *)
From Coq Require Import Reals List Arith Lia Lra Bool String.
From Verif Require Import Base ConstitutiveModel EpusModel EpusProfileModel PropsEpusProfile.
Import ListNotations.
Local Open Scope R_scope.
Local Open Scope list_scope.

(** no water table given: it is at the base, the suction at depth z is gamw (H - z) *)
Theorem C165_default_water_table a nz pr : blank_profile a nz = Ok pr -> zw_ a = None -> 0 < gamw_ a -> 0 < H_ a ->
  List.Forall (fun r => r_uw r = - gamw_ a * (H_ a - r_z r) /\ (r_z r <= H_ a -> r_ss r = gamw_ a * (H_ a - r_z r))) pr.
Proof.
  intros H Z G P. destruct (C165_hydrostatic a nz pr H) as [_ HF]. eapply Forall_impl; [|exact HF]. intros r [U S']. unfold zw in U. rewrite Z in U. split; [rewrite U; ring|].
  intros L. rewrite S', U. rewrite Rmax_right; [ring|]. assert (0 <= gamw_ a * (H_ a - r_z r)) by (apply Rmult_le_pos; lra). lra.
Qed.
Print Assumptions C165_default_water_table.
(** first the stress, at least a thousandth of the least suction, then, above the least suction, the suction *)
Theorem C165_point_path a n r :
  map (fun s => (ist s, vl s, npp s)) (point_path a n r) =
  (true, Rmax (r_st r) (Rpower 10 (MinSuc a) / 1000), n) :: (if Rle_dec (r_ss r) (Rpower 10 (MinSuc a)) then [] else [(false, r_ss r, n)]).
Proof.
  assert (E : pow10 (MinSuc a) = Rpower 10 (MinSuc a)) by (unfold pow10, Rpower; f_equal; ring).
  assert (X : floored a (r_st r) = Rmax (r_st r) (Rpower 10 (MinSuc a) / 1000)).
  { unfold floored. cbv zeta. rewrite E. destruct (Rltb (r_st r) (Rpower 10 (MinSuc a) / 1000)) eqn:D; [apply Base.Rltb_true in D; rewrite Rmax_right; lra|apply Base.Rltb_false in D; rewrite Rmax_left; lra]. }
  unfold point_path. rewrite E. destruct (Rleb (r_ss r) (Rpower 10 (MinSuc a))) eqn:D; [apply Base.Rleb_true in D|apply Base.Rleb_false in D]; destruct (Rle_dec (r_ss r) (Rpower 10 (MinSuc a))) as [K|K]; try lra; cbn [map ist vl npp stress_step suction_step]; rewrite X; reflexivity.
Qed.
Print Assumptions C165_point_path.

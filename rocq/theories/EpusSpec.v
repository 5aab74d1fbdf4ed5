(** * What is said about EPUS, independently of how it is computed *)
From Coq Require Import Reals List ZArith Bool.
From Verif Require Import Base ConstitutiveModel EpusModel.
Import ListNotations.
Local Open Scope R_scope.

(** The four public methods that change the soil. *)
Inductive method := Dry (ss : R) | Wet (ss : R) | Load (st : R) | Unload (st : R).
Definition call (p : par) (m : method) (o : state) : result state :=
  match m with Dry x => Drying p x o | Wet x => Wetting p x o | Load x => Loading p x o | Unload x => Unloading p x o end.
Fixpoint calls (p : par) (h : list method) (o : state) : result state :=
  match h with [] => Ok o | m :: t => o' <- call p m o ;; calls p t o' end.

(** Soil parameters that make sense for volume change: 0 <= Css <= Ccs, a and b positive, MinSuction <= MaxSuction. *)
Definition proper (p : par) : Prop :=
  0 < sw_a (swcc p) /\ 0 < sw_b (swcc p) /\ 0 <= Css p <= Ccs p /\ MinSuction p <= MaxSuction p.

(** n values from c to v at equal ratios: c, ..., v. *)
Definition geometric (c v : R) (n : nat) : list R := map (fun j => c * Rpower (v / c) (INR j / (INR n - 1))) (seq 0 n).
(** The suction and the stress from which the steps after [l] start: the last suction and the last stress asked for. *)
Definition at_suction (p : par) (l : list step) : R := fold_left (fun c s => if ist s then c else vl s) l (Rpower 10 (MinSuction p)).
Definition at_stress (p : par) (l : list step) : R := fold_left (fun c s => if ist s then vl s else c) l (Rpower 10 (MinSuction p) / 1000).
(** Suctions and stresses of 999999 and more are reported as 999998. *)
Definition reported (x : R) : R := if Rle_dec 999999 x then 999998 else x.

(** Saturated soil: the volume of a group that has seen at most the stress y and is under the stress c. *)
Definition group_volume (p : par) (q : pore) (y c : R) : R :=
  Rmax 0 (RV q - Ccp q * (ln y / ln 10 - MinSuction p) + Csp q * (ln y / ln 10 - ln c / ln 10)).
Definition total (l : list R) : R := fold_right Rplus 0 l.
(** The stresses of a path of stress changes only, each with "is it a loading step". *)
Fixpoint stresses (c : R) (l : list step) : list (bool * R) :=
  match l with
  | [] => []
  | s :: t => map (fun x => (if Rlt_dec c (vl s) then true else false, x)) (geometric c (vl s) (npp s)) ++ stresses (vl s) t
  end.
(** Highest suction + isotropic stress of the loading steps so far, at least 0.0001. *)
Definition highest (p : par) (h : list (bool * R)) : R :=
  fold_left (fun (y : R) (bx : bool * R) => if fst bx then Rmax y (Rpower 10 (MinSuction p) + snd bx * ((1 + 2 * K0 p) / 3)) else y) h (1 / 10000).

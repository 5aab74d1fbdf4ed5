(** * What swcc.py promises, stated without the code's own helpers *)
From Coq Require Import Reals List.
From Coquelicot Require Import Coquelicot.
Open Scope R_scope.

(** the documented correction factor, or the one the user gives *)
Definition doc_C (manual : option R) (psir psi : R) : R :=
  match manual with Some c => c | None => 1 - ln (1 + psi / psir) / ln (1 + 1000000 / psir) end.
(** w(psi) of Fredlund and Xing as documented *)
Definition doc_fx (a n m ws psir : R) (manual : option R) (psi : R) : R :=
  doc_C manual psir psi * (ws / Rpower (ln (exp 1 + Rpower (psi / a) n)) m).
(** w(psi) of Pham and Fredlund as documented *)
Definition doc_pf (ws a b wr s1 psir : R) (manual : option R) (psi : R) : R :=
  doc_C manual psir psi * ((ws - s1 * (ln psi / ln 10) - wr) * (a / (Rpower psi b + a)) + wr).
(** the suctions and correction factors meant: at most 10^6 with the computed factor, anything with a positive given one *)
Definition in_range (manual : option R) (psi : R) : Prop := match manual with Some c => 0 < c | None => psi <= 1000000 end.
(** the integral in the documented relative permeability *)
Definition doc_integral (w : R -> R) (w0 psi : R) : R :=
  RInt (fun y => (w (exp y) - w0) / exp y * Derive w (exp y)) (ln psi) (ln 1000000).
Definition doc_k (w : R -> R) (wsat aev psi : R) : R := doc_integral w (w psi) psi / doc_integral w wsat aev.

(** A curve given by points: suctions positive and increasing, water content never increasing, and lower at the end than at the second point. *)
Definition suction (c : list (R * R)) j := fst (nth j c (0, 0)).
Definition water (c : list (R * R)) j := snd (nth j c (0, 0)).
Definition proper_curve (c : list (R * R)) : Prop :=
  (2 < length c)%nat /\ 0 < suction c 0 /\ (forall j, (S j < length c)%nat -> suction c j < suction c (S j)) /\
  (forall j, (S j < length c)%nat -> water c (S j) <= water c j) /\ water c (length c - 1) < water c 1.
(** mean water content of segment j *)
Definition mean_water c j := (water c j + water c (S j)) / 2.
(** the sum from segment k on, geometric mean suction per segment *)
Definition seg_sum c (k : nat) : R :=
  fold_right Rplus 0 (map (fun j => (water c (S j) - water c j) * (mean_water c j - mean_water c k) / (suction c j * suction c (S j))) (seq k (length c - 1 - k))).

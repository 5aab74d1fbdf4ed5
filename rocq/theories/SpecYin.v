(** * Specification: the elastic visco-plastic soil of Yin and Graham *)
From Coq Require Import Reals List.
From Coquelicot Require Import Coquelicot.
From Verif Require Import Base YinModel.
Import ListNotations.
Local Open Scope R_scope.

(** compressibilities lam > kap > 0, creep psi > 0, reference point and time positive *)
Definition is_clay (m : clay) : Prop := 0 < y_kap m < y_lam m /\ 0 < y_psi m /\ 0 < y_siga m /\ 0 < y_ta m.
(** the void ratio on the reference time line *)
Definition on_reference (m : clay) (s : R) : R := y_ea m - y_lam m * ln (s / y_siga m).
(** A starting state: the instant time line through (s, e) meets the reference time line at p, and the
    state is also reached from the reference time line by creep at constant stress from ta to t. *)
Record consistent (m : clay) (c : initial) : Prop := {
  pos_s : 0 < i_s c; pos_p : 0 < i_p c; pos_t : 0 < i_t c;
  by_unloading : i_e c = on_reference m (i_p c) + y_kap m * ln (i_p c / i_s c);
  by_creep : i_e c = on_reference m (i_s c) - y_psi m * ln (i_t c / y_ta m) }.
(** The law: rate of change of the void ratio e at stress s changing at rate r: instant compression and
    creep, whose rate depends on the void ratio and stress only. *)
Definition law (m : clay) (s r e : R) : R :=
  - y_kap m * r / s - y_psi m / y_ta m * exp ((e - y_ea m) / y_psi m) * Rpower (s / y_siga m) (y_lam m / y_psi m).
(** e follows the law while the stress goes from s1 linearly to s2 in time dt *)
Definition follows (m : clay) (s1 s2 dt : R) (e : R -> R) : Prop :=
  forall t, 0 <= t <= dt -> is_derive e t (law m (s1 + (s2 - s1) / dt * t) ((s2 - s1) / dt) (e t)).
(** From void ratio e1 at stress s1 to e2 at s2 in time dt: e follows the law; in no time, instantly. *)
Definition step (m : clay) (s1 e1 dt s2 e2 : R) : Prop :=
  (0 < dt -> exists e, follows m s1 s2 dt e /\ e 0 = e1 /\ e dt = e2) /\
  (dt = 0 -> e2 = e1 - y_kap m * ln (s2 / s1)).
(** A history: (dt, stress, void ratio) one after the other from (s, e) *)
Fixpoint history (m : clay) (s e : R) (l : list (R * R * R)) : Prop :=
  match l with [] => True | (dt, s2, e2) :: rest => step m s e dt s2 e2 /\ history m s2 e2 rest end.
(** no step at constant stress, no step back in time, stresses positive *)
Fixpoint moving (s : R) (l : list (R * R)) : Prop :=
  match l with [] => True | (dt, s2) :: rest => 0 <= dt /\ 0 < s2 /\ s2 <> s /\ moving s2 rest end.
(** each larger than the one before *)
Fixpoint rising (l : list R) : Prop := match l with a :: ((b :: _) as t) => a < b /\ rising t | _ => True end.
(** the times and values of an exact solution x' = f x t from x0 at the first time *)
Definition solves (f : R -> R -> result R) (x0 : R) (ts xs : list R) : Prop :=
  exists x, (forall t, hd 0 ts <= t <= last ts 0 -> exists v, f (x t) t = Ok v /\ is_derive x t v) /\ x (hd 0 ts) = x0 /\ xs = map x ts.

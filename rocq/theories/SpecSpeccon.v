(** * Vocabulary for the properties of the spectral consolidation program *)
From Coq Require Import Reals List Arith ZArith.
From Verif Require Import Base PiecewiseModel SpecPiecewise SpecPiecewiseApi PolyLineModel SpecPolyLine SpecLoad.
Import ListNotations.
Open Scope R_scope.

(** A load may be modulated by cos(omega t + phase). *)
Definition modulation (om : option (R * R)) (t : R) : R :=
  match om with Some (omega, phase) => cos (omega * t + phase) | None => 1 end.
(** F is the course of the load: its value at time t, just after any jump at t; before the first
    point the table's first value is used. *)
Definition load_course (p : points) (om : option (R * R)) (F : R -> R) : Prop :=
  (forall k t, (S k < length p)%nat -> at_ (px p) k <= t < at_ (px p) (S k) ->
     F t = chord (px p) (py p) k t * modulation om t) /\
  (forall t, t < at_ (px p) 0 -> F t = at_ (py p) 0 * modulation om t).
(** A load table: times never decrease, no point listed twice. *)
Definition proper_load (p : points) : Prop :=
  nondecr (px p) /\ (2 <= length p)%nat /\ no_doubled_points (px p) (py p).
(** The load starts at T0, or later from zero. *)
Definition starts (T0 : R) (p : points) : Prop :=
  at_ (px p) 0 = T0 \/ (T0 < at_ (px p) 0 /\ at_ (py p) 0 = 0).
(** The value the load has at the first point of the table. *)
Definition initial (p : points) (om : option (R * R)) : R := at_ (py p) 0 * modulation om (at_ (px p) 0).
(** Times before the table ends. *)
Definition before_end (p : points) (t : R) : Prop := t < at_ (px p) (length p - 1).

(** omega_phase argument for n loads: None means no modulation at all. *)
Definition modulations (n : nat) (o : option (list (option (R * R)))) : list (option (R * R)) :=
  match o with None => repeat None n | Some l => l end.
Definition listed {T} (o : option (list T)) : list T := match o with None => [] | Some l => l end.
(** A load from T0 on: its table is proper, spans some time, and F is its course. *)
Definition is_load (T0 : R) (p : points) (om : option (R * R)) (F : R -> R) : Prop :=
  proper_load p /\ at_ (px p) 0 < at_ (px p) (length p - 1) /\ starts T0 p /\ load_course p om F.
(** One modulation per load, and Fs are the courses of the loads. *)
Definition are_loads (T0 : R) (l : list points) (o : option (list (option (R * R)))) (Fs : list (R -> R)) : Prop :=
  length (modulations (length l) o) = length l /\
  List.Forall2 (fun q F => is_load T0 (fst q) (snd q) F) (combine l (modulations (length l) o)) Fs.
Definition total (Fs : list (R -> R)) (t : R) : R := fold_right Rplus 0 (map (fun F => F t) Fs).
Definition before_ends (l : list points) (t : R) : Prop := forall p, In p l -> before_end p t.

(** The pore pressure: a sum of sine modes, plus the effect of the pressure T at the top (uniform over
    the depth for an undrained bottom, drn = 1; else falling linearly) and of the bottom pressure B. *)
Definition top_shape (drn : Z) (z : R) : R := if Z.eqb drn 1 then 1 else 1 - z.
Definition series (m : list R) (a : nat -> R -> R) (z t : R) : R :=
  fold_right Rplus 0 (map (fun j => a j t * sin (nth j m 0 * z)) (seq 0 (length m))).
Definition pressure (drn : Z) (m : list R) (a : nat -> R -> R) (T B : R -> R) (z t : R) : R :=
  series m a z t + T t * top_shape drn z + B t * z.
(** Row j of A lists a j at the times. *)
Definition tabulates (A : list (list R)) (n : nat) (tvals : list R) (a : nat -> R -> R) : Prop :=
  length A = n /\ (forall row, In row A -> length row = length tvals) /\
  forall j i, (j < n)%nat -> (i < length tvals)%nat -> nth i (nth j A []) 0 = a j (nth i tvals 0).

(** * Vocabulary for the consolidation equation solved by the spectral program *)
From Coq Require Import Reals List Arith ZArith.
From Coquelicot Require Import Coquelicot.
From Verif Require Import Base PiecewiseModel SpecPiecewise SpecPiecewiseApi PolyLineModel SpecPolyLine SpecWrap SpecLoad SpecSpeccon SpecconModel.
Import ListNotations.
Open Scope R_scope.

Definition sum (n : nat) (f : nat -> R) : R := fold_right Rplus 0 (map f (seq 0 n)).
Definition coef (A : list (list R)) (i j : nat) : R := nth j (nth i A []) 0.
Definition square (n : nat) (A : list (list R)) : Prop := length A = n /\ forall row, In row A -> length row = n.
(** What is expected of numpy.linalg.inv and numpy.linalg.eig, when they return. *)
Definition inverts (inv : list (list R) -> result (list (list R))) : Prop := forall A N, inv A = Ok N ->
  square (length A) N /\ forall i j, (i < length A)%nat -> (j < length A)%nat ->
    sum (length A) (fun k => coef A i k * coef N k j) = if Nat.eqb i j then 1 else 0.
Definition diagonalises (eig : list (list R) -> result (list R * list (list R))) : Prop := forall M w V, eig M = Ok (w, V) ->
  square (length M) V /\ length w = length M /\ forall i j, (i < length M)%nat -> (j < length M)%nat ->
    sum (length M) (fun k => coef M i k * coef V k j) = coef V i j * nth j w 0.

(** A load that varies with time and depth: amp(t) * mag(z); amp0 is the amplitude before the start. *)
Record depth_load := mkDepthLoad { amp : R -> R; amp0 : R; mag : R -> R }.
Definition applied (l : list depth_load) (z t : R) : R := fold_right Rplus 0 (map (fun d => amp d t * mag d z) l).
Definition applied0 (l : list depth_load) (z : R) : R := fold_right Rplus 0 (map (fun d => amp0 d * mag d z) l).

(** The soil and its loads, as functions of the depth z in [0,1] and the time. *)
Record physics := mkPhysics {
  f_mv : R -> R; f_kv : R -> R; f_kh : R -> R; f_et : R -> R; kv_bottom : R; d_v : R; d_h : R;
  p_top : R -> R; p_top0 : R; p_bot : R -> R; p_bot0 : R;
  f_surcharge : list depth_load; f_vacuum : list depth_load;
  f_fixed : list (R * R * (R -> R)); f_pumps : list (R * (R -> R)) }.

(** Times and depths of the loads listed in the tables, one after the other. *)
Definition are_depth_loads (T0 : R) (depths times : option (list points)) (o : om_arg) (L : list depth_load) : Prop :=
  match depths, times with
  | Some sz, Some st =>
      length sz = length st /\ length (modulations (length st) o) = length st /\
      List.Forall2 (fun q d => is_load T0 (fst (fst q)) (snd q) (amp d) /\ amp0 d = initial (fst (fst q)) (snd q) /\
                          depth_profile 0 1 (snd (fst q)) (mag d)) (combine (combine st sz) (modulations (length st) o)) L
  | _, _ => L = []
  end.
Definition total0 (l : list points) (o : om_arg) : R :=
  fold_right Rplus 0 (map (fun q => initial (fst q) (snd q)) (combine l (modulations (length l) o))).
(** The bottom load of an undrained bottom is a pressure gradient per length, so it counts H times. *)
Definition bottom_factor (P : problem) : R := if Z.eqb (drn P) 1 then Hh P else 1.

(** Every table of the problem P that describes a load. *)
Definition load_tables (P : problem) : list points :=
  listed (top_vs_time P) ++ listed (bot_vs_time P) ++ listed (surcharge_vs_time P) ++ listed (vacuum_vs_time P) ++
  flat_map (fun f => match snd f with Some p => [p] | None => [] end) (listed (fixed_ppress P)) ++ map snd (listed (pumping P)).
(** Every profile over the depth. *)
Definition profiles (P : problem) : list points :=
  [mv P] ++ listed (option_map (fun x => [x]) (kv P)) ++ listed (option_map (fun x => [x]) (kh P)) ++
  listed (option_map (fun x => [x]) (et P)) ++ listed (surcharge_vs_depth P) ++ listed (vacuum_vs_depth P).

(** ph says what the input P means, from time T0 on. *)
Definition represents (T0 : R) (P : problem) (ph : physics) : Prop :=
  well_separated (profiles P) /\
  depth_profile 0 1 (mv P) (f_mv ph) /\
  match kv P, dTv P with
  | Some k, Some d => depth_profile 0 1 k (f_kv ph) /\ kv_bottom ph = vleft k 1 /\ d_v ph = d
  | _, _ => f_kv ph = (fun _ => 0) /\ d_v ph = 0
  end /\
  match kh P, et P, dTh P with
  | Some k, Some e, Some d => depth_profile 0 1 k (f_kh ph) /\ depth_profile 0 1 e (f_et ph) /\ d_h ph = d
  | _, _, _ => f_kh ph = (fun _ => 0) /\ f_et ph = (fun _ => 0) /\ d_h ph = 0
  end /\
  (exists Ts, are_loads T0 (listed (top_vs_time P)) (top_omega_phase P) Ts /\ p_top ph = total Ts /\
     p_top0 ph = total0 (listed (top_vs_time P)) (top_omega_phase P)) /\
  (exists Bs, are_loads T0 (listed (bot_vs_time P)) (bot_omega_phase P) Bs /\ p_bot ph = (fun t => bottom_factor P * total Bs t) /\
     p_bot0 ph = bottom_factor P * total0 (listed (bot_vs_time P)) (bot_omega_phase P)) /\
  are_depth_loads T0 (surcharge_vs_depth P) (surcharge_vs_time P) (surcharge_omega_phase P) (f_surcharge ph) /\
  are_depth_loads T0 (vacuum_vs_depth P) (vacuum_vs_time P) (vacuum_omega_phase P) (f_vacuum ph) /\
  length (modulations (length (listed (fixed_ppress P))) (fixed_ppress_omega_phase P)) = length (listed (fixed_ppress P)) /\
  List.Forall2 (fun q f => fst (fst q) = fst f /\ match snd (fst q) with
                                             | Some p => is_load T0 p (snd q) (snd f)
                                             | None => snd f = (fun _ => 0)
                                             end)
    (combine (listed (fixed_ppress P)) (modulations (length (listed (fixed_ppress P))) (fixed_ppress_omega_phase P))) (f_fixed ph) /\
  length (modulations (length (listed (pumping P))) (pumping_omega_phase P)) = length (listed (pumping P)) /\
  List.Forall2 (fun q f => fst (fst q) = fst f /\ is_load T0 (snd (fst q)) (snd q) (snd f))
    (combine (listed (pumping P)) (modulations (length (listed (pumping P))) (pumping_omega_phase P))) (f_pumps ph).

Section Equation.
Variables (P : problem) (ph : physics) (T0 : R) (m : list R) (a : nat -> R -> R).
Let phi (i : nat) (z : R) : R := sin (nth i m 0 * z).
Let dphi (i : nat) (z : R) : R := nth i m 0 * cos (nth i m 0 * z).
(** The pore pressure and its derivative with respect to the depth. *)
Definition pore (z t : R) : R := pressure (drn P) m a (p_top ph) (p_bot ph) z t.
Definition pore_z (z t : R) : R :=
  sum (length m) (fun j => a j t * dphi j z) + p_top ph t * (if Z.eqb (drn P) 1 then 0 else -1) + p_bot ph t.
(** The pressure in equilibrium with the boundary loads before the start. *)
Definition pore0 (z : R) : R := p_top0 ph * top_shape (drn P) z + p_bot0 ph * z.
(** Change of the stored strain up to time t, tested with mode i. *)
Definition stored (i : nat) (t M : R) : Prop :=
  is_RInt (fun z => f_mv ph z * (pore z t - pore0 z - (applied (f_surcharge ph) z t - applied0 (f_surcharge ph) z)) * phi i z) 0 1 M.
(** Rate of outflow at time t, tested with mode i: vertical flow (with the flux through the bottom), flow
    to the drains, to the points with fixed pressure, less the inflow from the pumps. *)
Definition outflow (i : nat) (t r : R) : Prop := exists V X,
  is_RInt (fun z => f_kv ph z * pore_z z t * dphi i z) 0 1 V /\
  is_RInt (fun z => f_kh ph z * f_et ph z * (pore z t - applied (f_vacuum ph) z t) * phi i z) 0 1 X /\
  r = d_v ph * (V - kv_bottom ph * pore_z 1 t * phi i 1) + d_h ph * X
      + fold_right Rplus 0 (map (fun f => snd (fst f) * (pore (fst (fst f)) t - snd f t) * phi i (fst (fst f))) (f_fixed ph))
      - fold_right Rplus 0 (map (fun f => snd f t / (mvref P * Hh P) * phi i (fst f)) (f_pumps ph)).
(** Conservation of mass, tested with mode i, from T0 to t; r is the defect. *)
Definition balanced (i : nat) (t r : R) : Prop := exists M rate Q,
  stored i t M /\ (forall s, T0 <= s <= t -> outflow i s (rate s)) /\ is_RInt rate T0 t Q /\ M + Q = r.

(** Numbers that the program replaces by zero. *)
Definition neglected (exact d : R) : Prop := Rabs d < / 100000000 /\ (exact = 0 \/ / 100000000 <= Rabs exact -> d = 0).
(** The exact values of the two matrices. *)
Definition storage_entry (i j : nat) (x : R) : Prop := is_RInt (fun z => f_mv ph z * phi i z * phi j z) 0 1 x.
Definition outflow_entry (i j : nat) (x : R) : Prop := exists V X,
  is_RInt (fun z => f_kv ph z * dphi i z * dphi j z) 0 1 V /\ is_RInt (fun z => f_kh ph z * f_et ph z * phi i z * phi j z) 0 1 X /\
  dT P * x = d_v ph * V + d_h ph * X + fold_right Rplus 0 (map (fun f => snd (fst f) * phi i (fst (fst f)) * phi j (fst (fst f))) (f_fixed ph)).
(** a solves the equation with every mode as test function, up to the neglected matrix entries. *)
Definition galerkin_solution (n : nat) : Prop := exists dG dP : nat -> nat -> R,
  (forall i j, (i < n)%nat -> (j < n)%nat -> (exists x, storage_entry i j x /\ neglected x (dG i j)) /\ (exists x, outflow_entry i j x /\ neglected x (dP i j))) /\
  forall i t, (i < n)%nat -> T0 <= t -> before_ends (load_tables P) t -> exists J : nat -> R,
    (forall j, (j < n)%nat -> is_RInt (a j) T0 t (J j)) /\
    balanced i t (sum n (fun j => dG i j * a j t) + dT P * sum n (fun j => dP i j * J j)).
End Equation.

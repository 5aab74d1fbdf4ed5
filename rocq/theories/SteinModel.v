(** * Model of /repo/geotecha/consolidation/schiffmanandstein1970.py, over the reals.

    numpy.linalg.solve, numpy.linalg.det and scipy.optimize.fsolve are parameters.  The input is taken
    as already parsed into attributes (parsing and attribute checks are modelled in StemModel/AttrModel;
    of the checks only the equal lengths of h, kv, mv are repeated here); the time stamp, titles and
    plots are left out. *)
From Coq Require Import Reals List Arith ZArith Bool.
From Verif Require Import Base PiecewiseModel LoadModel RootModel ConstitutiveModel.
Import ListNotations.
Open Scope R_scope.

(** The attributes used by the calculation (:183): surcharge_vs_time is (s_tim, s_mag). *)
Record stein := mkStein { s_h : list R; s_kv : list R; s_mv : list R; s_bctop : Z; s_bcbot : Z; s_n : nat;
  s_tim : list R; s_mag : list R }.

(** np.cumsum *)
Fixpoint cumsum (acc : R) (l : list R) : list R :=
  match l with [] => [] | a :: t => (acc + a) :: cumsum (acc + a) t end.

Section Stein.
Variable solve : list (list R) -> list R -> result (list R).
Variable det : list (list R) -> R.
Variable fsolve : R -> R.
Variable P : stein.

Definition nlayers : nat := length (s_kv P).                          (* :230 *)
Definition zlayers : list R := cumsum 0 (s_h P).                      (* :232 *)
Definition zlayer (i : nat) : R := nth i zlayers 0.
Definition kv (i : nat) : R := nth i (s_kv P) 0.
Definition mv (i : nat) : R := nth i (s_mv P) 0.
Definition hh (i : nat) : R := nth i (s_h P) 0.
Definition cv (i : nat) : R := kv i / mv i.                           (* :238 *)

(** :242-252: (atop, btop).  In the branch 3 the names h, ktop, kv, htop are not defined; in the last
    branch the misspelt method foramt raises AttributeError before ValueError can be raised. *)
Definition bc_top : result (R * R) :=
  if Z.eqb (s_bctop P) 0 then Ok (0, -1)
  else if Z.eqb (s_bctop P) 1 then Ok (1, 0)
  else if Z.eqb (s_bctop P) 3 then Err NameError
  else Err AttributeError.
(** :254-264: (abot, bbot) *)
Definition bc_bot : result (R * R) :=
  if Z.eqb (s_bcbot P) 0 then Ok (0, 1)
  else if Z.eqb (s_bcbot P) 1 then Ok (1, 0)
  else if Z.eqb (s_bcbot P) 3 then Err NameError
  else Err ValueError.

(** :481-484: beta[i] for beta[0] = beta0 *)
Fixpoint beta (beta0 : R) (i : nat) : R :=
  match i with O => beta0 | S k => sqrt (cv k / cv (S k) * (beta beta0 k)^2) end.
(** :486 *)
Definition alpha (i : nat) : R := kv i / kv (S i).

(** :474-512 _make_BC: entry (r, c) of the matrix of size 2 nlayers.  Row 0 is the top condition, the
    last row the bottom condition, rows 2i+1 and 2i+2 the conditions between layers i and i+1. *)
Definition bc_entry (tb : (R * R) * (R * R)) (beta0 : R) (r c : nat) : R :=
  let '((atop, btop), (abot, bbot)) := tb in
  let bt := beta beta0 in
  let N := nlayers in
  if Nat.eqb r 0 then
    (if Nat.eqb c 0 then btop * -1                                    (* :488 *)
     else if Nat.eqb c 1 then atop * bt 0%nat                         (* :489 *)
     else 0)
  else if Nat.eqb r (2 * N - 1) then
    (let b := bt (N - 1)%nat in let z := zlayer (N - 1) in
     if Nat.eqb c (2 * N - 2) then bbot * cos (b * z) - abot * b * sin (b * z)        (* :491-492 *)
     else if Nat.eqb c (2 * N - 1) then bbot * sin (b * z) + abot * b * cos (b * z)   (* :493-494 *)
     else 0)
  else
    let i := ((r - 1) / 2)%nat in
    let z := zlayer i in
    if Nat.odd r then
      (if Nat.eqb c (2 * i) then cos (bt i * z)                       (* :500 *)
       else if Nat.eqb c (2 * i + 1) then sin (bt i * z)              (* :501 *)
       else if Nat.eqb c (2 * i + 2) then - cos (bt (i + 1)%nat * z)  (* :502 *)
       else if Nat.eqb c (2 * i + 3) then - sin (bt (i + 1)%nat * z)  (* :503 *)
       else 0)
    else
      (if Nat.eqb c (2 * i) then - alpha i * bt i * sin (bt i * z)                    (* :507 *)
       else if Nat.eqb c (2 * i + 1) then alpha i * bt i * cos (bt i * z)             (* :508 *)
       else if Nat.eqb c (2 * i + 2) then bt (i + 1)%nat * sin (bt (i + 1)%nat * z)   (* :509 *)
       else if Nat.eqb c (2 * i + 3) then - bt (i + 1)%nat * cos (bt (i + 1)%nat * z) (* :510 *)
       else 0).
Definition grid (rows cols : nat) (f : nat -> nat -> R) : list (list R) :=
  map (fun r => map (f r) (seq 0 cols)) (seq 0 rows).
(** :463-472 _characteristic_eqn *)
Definition characteristic tb (beta0 : R) : R := det (grid (2 * nlayers) (2 * nlayers) (bc_entry tb beta0)).

(** :441-452 _find_beta; max_iter, atol, rtol are the defaults of find_n_roots *)
Definition find_beta tb (fuel : nat) : option (result (list R)) :=
  let H := zlayer (nlayers - 1) in
  let x0 := / 10 / H^2 in
  find_n_roots (characteristic tb) fsolve (s_n P) (101 / 100) 2000 (/ 10^8) (/ 10^5) fuel x0 x0.

(** :557: entries below 1e-10 in size become zero *)
Definition chop (x : R) : R := if Rltb (Rabs x) (/ 10^10) then 0 else x.
(** One term of the series: beta[i], Bm[i], Cm[i] for each layer, and Am. *)
Record term := mkTerm { t_beta : nat -> R; t_B : nat -> R; t_C : nat -> R; t_A : R }.

(** :642-663: numerator and denominator of Am *)
Definition am_numer (b B C : nat -> R) : R :=
  sumn (map (fun i =>
    let z2 := zlayer i in let z1 := zlayer i - hh i in                (* :636-637 *)
    mv i * (- B i * sin (b i * z1) / b i + B i * sin (b i * z2) / b i +
            C i * cos (b i * z1) / b i - C i * cos (b i * z2) / b i)) (seq 0 nlayers)).
Definition am_denom (b B C : nat -> R) : R :=
  sumn (map (fun i =>
    let z2 := zlayer i in let z1 := zlayer i - hh i in
    mv i * (- (B i)^2 * z1 * (sin (b i * z1))^2 / 2 -
            (B i)^2 * z1 * (cos (b i * z1))^2 / 2 + (B i)^2 * z2 * (sin (b i * z2))^2 / 2 +
            (B i)^2 * z2 * (cos (b i * z2))^2 / 2 -
            (B i)^2 * sin (b i * z1) * cos (b i * z1) / (2 * b i) +
            (B i)^2 * sin (b i * z2) * cos (b i * z2) / (2 * b i) +
            B i * C i * (cos (b i * z1))^2 / b i - B i * C i * (cos (b i * z2))^2 / b i -
            (C i)^2 * z1 * (sin (b i * z1))^2 / 2 - (C i)^2 * z1 * (cos (b i * z1))^2 / 2 +
            (C i)^2 * z2 * (sin (b i * z2))^2 / 2 + (C i)^2 * z2 * (cos (b i * z2))^2 / 2 +
            (C i)^2 * sin (b i * z1) * cos (b i * z1) / (2 * b i) -
            (C i)^2 * sin (b i * z2) * cos (b i * z2) / (2 * b i))) (seq 0 nlayers)).

(** :547-565 _calc_Bm_and_Cm and :629-666 _calc_Am for one root *)
Definition calc_term tb (beta0 : R) : result term :=
  let N2 := (2 * nlayers)%nat in
  let m := fun r c => chop (bc_entry tb beta0 r c) in
  x <- solve (grid (N2 - 1) (N2 - 1) m) (map (fun r => - m r (N2 - 1)%nat) (seq 0 (N2 - 1))) ;;   (* :561-563 *)
  let B := fun i => nth (2 * i) x 0 in                                                             (* :564 *)
  let C := fun i => if Nat.eqb i (nlayers - 1) then 1 else nth (2 * i + 1) x 0 in                  (* :554, :565 *)
  let b := beta beta0 in
  Ok (mkTerm b B C (am_numer b B C / am_denom b B C)).

(** :668-715 _calc_Tm *)
Definition calc_Tm (c b t : R) : result R :=
  sets <- containing_also_less1 (s_tim P) (s_mag P) true false false t ;;
  let '(rl, _, sl, rc, _) := sets in
  x <- mapM (with3' (s_tim P) (s_mag P) (fun t1 sig1 sig2 => (sig2 - sig1) * exp (- c * b^2 * (t - t1)))) sl ;;
  y <- mapM (with4 (s_tim P) (s_mag P) (fun t1 t2 sig1 sig2 =>
         (- sig1 + sig2) / (b^2 * c * (- t1 + t2)) - (- sig1 + sig2) * exp (- b^2 * c * (t - t1)) / (b^2 * c * (- t1 + t2)))) rc ;;
  w <- mapM (with4 (s_tim P) (s_mag P) (fun t1 t2 sig1 sig2 =>
         - (- sig1 + sig2) * exp (- b^2 * c * (t - t1)) / (b^2 * c * (- t1 + t2)) +
         (- sig1 + sig2) * exp (- b^2 * c * (t - t2)) / (b^2 * c * (- t1 + t2)))) rl ;;
  Ok (sumn (x ++ y ++ w)).

(** :745 *)
Definition Zm_integral (T : term) (i : nat) : R :=
  let z2 := zlayer i in let z1 := zlayer i - hh i in                  (* :722-723 *)
  - t_B T i * sin (t_beta T i * z1) / t_beta T i + t_B T i * sin (t_beta T i * z2) / t_beta T i +
  t_C T i * cos (t_beta T i * z1) / t_beta T i - t_C T i * cos (t_beta T i * z2) / t_beta T i.
(** :717-756 calc_settle_and_avp for one time: (settlement, average pore pressure) *)
Definition settle_avp1 (terms : list term) (t : R) : result (R * R) :=
  q <- interp1 (s_tim P) (s_mag P) false t ;;                         (* :730 *)
  a <- mapM (fun i => mapM (fun T => Tm <- calc_Tm (cv i) (t_beta T i) t ;;
          Ok (Zm_integral T i * Tm * t_A T, mv i * Zm_integral T i * Tm * t_A T)) terms) (seq 0 nlayers) ;;
  let a := concat a in
  Ok (sumn (map (fun i => mv i * hh i) (seq 0 nlayers)) * q - sumn (map snd a),       (* :731, :750, :753 *)
      sumn (map fst a) / zlayer (nlayers - 1)).                                       (* :748, :754 *)
(** :761-787 calc_por: one cell.  np.searchsorted gives nlayers for a depth below the last layer. *)
Definition por1 (terms : list term) (z t : R) : result R :=
  let i := searchsorted zlayers z in                                  (* :770 *)
  a <- mapM (fun T => if Nat.ltb i nlayers then
          Tm <- calc_Tm (cv i) (t_beta T i) t ;;
          Ok (t_A T * (t_B T i * cos (t_beta T i * z) + t_C T i * sin (t_beta T i * z)) * Tm)
        else Err IndexError) terms ;;
  Ok (sumn a).

(** Results: the attributes por, avp, set, and the tables written to file (:395-427), by the end of
    their name; a one-dimensional array is a column. *)
Inductive table_name := data_por | data_avp | data_set.
Record output := mkOutput { out_por : option (list (list R)); out_avp : list R; out_set : list R;
  out_files : list (table_name * list (list R)) }.
Definition transpose (rows cols : nat) (A : list (list R)) : list (list R) := grid cols rows (fun j i => nth j (nth i A []) 0).
Definition column (l : list R) : list (list R) := map (fun v => [v]) l.

(** :375-439 make_output after the roots are found *)
Definition after_roots tb (roots zs ts : list R) (tpor : option (list R)) : result output :=
  terms <- mapM (calc_term tb) roots ;;
  por <- match tpor with
         | None => Ok None
         | Some tp => a <- mapM (fun z => mapM (por1 terms z) tp) zs ;; Ok (Some a)
         end ;;
  sa <- mapM (settle_avp1 terms) ts ;;
  let avp := map snd sa in
  let set := map fst sa in
  Ok (mkOutput por avp set
    ((match por, tpor with Some a, Some tp => [(data_por, transpose (length zs) (length tp) a)] | _, _ => [] end) ++  (* :400-406 *)
     [(data_avp, column avp); (data_set, column avp)])).              (* :412-418, :421-427 *)
(** make_output; [None]: the search for roots has not ended within the fuel *)
Definition make_output (fuel : nat) (zs ts : list R) (tpor : option (list R)) : option (result output) :=
  if negb (Nat.eqb (length (s_h P)) (length (s_kv P)) && Nat.eqb (length (s_kv P)) (length (s_mv P))) then Some (Err ValueError) else  (* :222 *)
  match bc_top with Err e => Some (Err e) | Ok tp =>
  match bc_bot with Err e => Some (Err e) | Ok bt =>
  if Nat.eqb nlayers 0 then Some (Err IndexError) else                (* :446 *)
  match find_beta (tp, bt) fuel with
  | None => None
  | Some (Err e) => Some (Err e)
  | Some (Ok roots) => Some (after_roots (tp, bt) roots zs ts tpor)
  end end end.
End Stein.

(** * Model of geotecha/consolidation/smear_zones.py (drain parameters [mu], radial
      pore pressure profiles [u], permeability profiles [k], drain spacing).

    Arithmetic is over the reals.  numpy arrays are lists; [np.any(c)] is [existsb].
    [None] in [option R] results stands for numpy's nan. *)
From Coq Require Import Reals List Bool Lra Ascii String.
From Verif Require Import Base.
Import ListNotations.
Local Open Scope list_scope.
Local Open Scope R_scope.

(** np.isclose(a, b) with the default rtol=1e-05, atol=1e-08. *)
Definition isclose (a b : R) : bool :=
  Rleb (Rabs (a - b)) (/ 100000000 + / 100000 * Rabs b).

Definition any (f : R -> bool) (l : list R) : bool := existsb f l.

(** [np.any(np.diff(s) <= 0)] / [np.any(np.diff(s) < 0)]. *)
Definition any_diff_nonpos (s : list R) : bool := existsb (fun d => Rleb d 0) (diff s).
Definition any_diff_neg (s : list R) : bool := existsb (fun d => Rltb d 0) (diff s).

(** smear_zones.py 81-83: the formula of mu_ideal for one n. *)
Definition mu_ideal_elem (n : R) : R :=
  let term1 := n^2 / (n^2 - 1) * (ln n - 3/4) in
  let term2 := 1 / (n^2 - 1) * (1 - 1 / (4 * n^2)) in
  term1 + term2.

(** smear_zones.py 45-84: mu_ideal(n), n a 1-d array. *)
Definition mu_ideal (n : list R) : result (list R) :=
  if any (fun v => Rleb v 1) n then Err ValueError else Ok (map mu_ideal_elem n).

(** smear_zones.py 166-169: the formula of mu_constant. *)
Definition mu_constant_elem (n s kap : R) : R :=
  let term1 := n^2 / (n^2 - 1) * (ln (n / s) + kap * ln s - 3/4) in
  let term2 := s^2 / (n^2 - 1) * (1 - s^2 / (4 * n^2)) in
  let term3 := kap / (n^2 - 1) * ((s^4 - 1) / (4 * n^2) - s^2 + 1) in
  term1 + term2 + term3.

(** smear_zones.py 87-170: mu_constant(n, s, kap), scalar arguments (array
    arguments are treated elementwise by numpy broadcasting; not modelled). *)
Definition mu_constant (n s kap : R) : result R :=
  if Rleb n 1 then Err ValueError else
  if Rltb s 1 then Err ValueError else
  if Rleb kap 0 then Err ValueError else
  if Rltb n s then Err ValueError else
  Ok (mu_constant_elem n s kap).

(** smear_zones.py 461-487: mu_linear's inner function mu_s_neq_kap. *)
Definition mu_s_neq_kap (n s kap : R) : R :=
  let A := (kap - 1) / (s - 1) in
  let B := (s - kap) / (s - 1) in
  let term1 := n^2 / (n^2 - 1) in
  let term2 := ln (n / s) + s^2 / (n^2) * (1 - s^2 / (4 * n^2)) - 3 / 4 in
  let term3 := kap * (1 - s^2 / n^2) in
  let term4 := 1 / B * ln (s / kap) - 1 / (n^2 * A^2) * (kap - 1 - B * ln kap) in
  let term5 := term2 + term3 * term4 in
  let term6 := 1 / (n^2 * B) in
  let term7 := s^2 * ln s - (s^2 - 1) / 2
               + 1 / A^2 * ((kap^2 - 1) / 2 - kap^2 * ln kap
                            + 2 * B * (kap * ln kap - (kap - 1))) in
  let term8 := - 1 / (n^4 * A^2) in
  let term9 := B / 3 * (s^2 - 1) + 2 / 3 * (s^2 * kap - 1) - (s^2 - 1)
               + B / A^2 * ((kap^2 - 1) / 2 - kap^2 * ln kap
                            + 2 * B * (kap * ln kap - (kap - 1))) in
  let term10 := kap * (term6 * term7 + term8 * term9) in
  term1 * (term5 + term10).

(** smear_zones.py 489-501: mu_linear's inner function mu_s_eq_kap. *)
Definition mu_s_eq_kap (n s : R) : R :=
  let term1 := n^2 / (n^2 - 1) in
  let term2 := ln (n / s) + s^2 / (n^2) * (1 - s^2 / (4 * n^2)) - 3 / 4 in
  let term3 := - s / n^2 * (1 - s^2 / n^2) * (s - 1) + (1 - s^2 / n^2) * (s - 1) in
  let term4 := s / n^4 * (s^2 - 1) - 2 * s / (3 * n^4) * (s^3 - 1)
               - (s / n^2 - s^2 / n^2) * (s - 1) in
  term1 * (term2 + term3 + term4).

(** smear_zones.py 542-549: which of the three formulas an element of mu_linear
    gets.  The three masks are disjoint and cover every element, so the masked
    assignments are one conditional per element. *)
Definition mu_linear_elem (n s kap : R) : R :=
  let ideal := isclose s 1 || isclose kap 1 in
  if ideal then mu_ideal_elem n
  else if isclose s kap then mu_s_eq_kap n s
  else mu_s_neq_kap n s kap.

(** Elementwise combination of three arrays of equal length. *)
Fixpoint map3 {A B C D} (f : A -> B -> C -> D) (l1 : list A) (l2 : list B) (l3 : list C)
  : list D :=
  match l1, l2, l3 with
  | a :: t1, b :: t2, c :: t3 => f a b c :: map3 f t1 t2 t3
  | _, _, _ => []
  end.

(** smear_zones.py 377-554: mu_linear(n, s, kap) on 1-d arrays.  The comparison of
    arrays of different lengths (line 518) is replaced by the test of the lengths
    (line 534): both raise ValueError. *)
Definition mu_linear (n s kap : list R) : result (list R) :=
  if any (fun v => Rleb v 1) n then Err ValueError else
  if any (fun v => Rltb v 1) s then Err ValueError else
  if any (fun v => Rleb v 0) kap then Err ValueError else
  if negb (Nat.eqb (List.length n) (List.length kap) && Nat.eqb (List.length s) (List.length kap))
  then Err ValueError else
  if existsb (fun p => Rleb (fst p) (snd p)) (combine n s) then Err ValueError else
  Ok (map3 mu_linear_elem n s kap).

(** smear_zones.py 172-205: _sx. *)
Definition _sx (n s : R) : R := 2 * n - s.

(** smear_zones.py 208-244: _kapx. *)
Definition _kapx (n s kap : R) : R := 1 + (kap - 1) / (s - 1) * (_sx n s - 1).

(** smear_zones.py 247-374: mu_overlapping_linear for scalar n, s, kap (arrays:
    the masks 358-361 are disjoint and the branches elementwise, so each element
    gets this value; an exception for any element is an exception for the call). *)
Definition mu_overlapping_linear (n s kap : R) : result R :=
  if Rleb n 1 then Err ValueError else
  if Rltb s 1 then Err ValueError else
  if Rleb kap 0 then Err ValueError else
  let ideal := isclose s 1 || isclose kap 1 in
  let normal := Rleb s n && negb ideal in
  let all_disturbed := Rleb (2 * n - s) 1 && negb ideal in
  let first (r : result (list R)) : result R :=
    match r with Ok (v :: _) => Ok v | Ok [] => Err IndexError | Err e => Err e end in
  if ideal then first (mu_ideal [n])
  else if normal then first (mu_linear [n] [s] [kap])
  else if all_disturbed then v <- first (mu_ideal [n]) ;; Ok (kap * v)
  else
    let sx := _sx n s in
    let kapx := _kapx n s kap in
    v <- first (mu_linear [n] [sx] [kapx]) ;; Ok (v * kap / kapx).

(** smear_zones.py 664-701: mu_parabolic's inner function mu_p.  [None] when numpy
    yields nan/inf: square root of a negative number (kap < 1) or division by
    A**2 - B**2 = 0. *)
Definition mu_p (n s kap : R) : option R :=
  let A := sqrt (kap / (kap - 1)) in
  let B := s / (s - 1) in
  let C := 1 / (s - 1) in
  if Rltb kap 1 then None else
  if Reqb (A^2 - B^2) 0 then None else
  let term1 := ln (n / s) - 3 / 4 + s^2 / n^2 * (1 - s^2 / (4 * n^2)) in
  let term2 := (1 - s^2 / n^2) * A^2 in
  let term3 := 1 / (A^2 - B^2) in
  let term4 := ln (s / sqrt kap) - (B / (2 * A) * ln ((A + 1) / (A - 1))) in
  let term5 := 1 / (n^2 * C^2) in
  let term6 := ln (sqrt kap) - (B / (2 * A) * ln ((A + 1) / (A - 1))) in
  let mu2 := term1 + term2 * ((term3 * term4) + (term5 * term6)) in
  let term7 := A^2 / n^2 * (1 / (A^2 - B^2)) * (s^2 * ln s - 1 / 2 * (s^2 - 1)) in
  let term8 := - 1 / (n^2 * C^2) * A^2 * (1 / (A^2 - B^2)) in
  let term9 := A^2 / 2 * ln kap + B * A / 2 * ln ((A + 1) / (A - 1))
               + 1 / 2 - B - (A^2 - B^2) * ln kap in
  let term10 := A^2 / (n^4 * C^4) in
  let term11 := - (A^2 / 2 + B^2) * ln kap
                + 3 / 2 * A * B * ln ((A + 1) / (A - 1)) + 1 / 2 - 3 * B in
  let mu1 := term7 + term8 * term9 + term10 * term11 in
  Some (n^2 / (n^2 - 1) * (mu1 + mu2)).

(** smear_zones.py 556-752: mu_parabolic for scalar n, s, kap. *)
Definition mu_parabolic (n s kap : R) : result (option R) :=
  if Rleb n 1 then Err ValueError else
  if Rltb s 1 then Err ValueError else
  if Rleb kap 0 then Err ValueError else
  if Rltb n s then Err ValueError else
  if isclose s 1 || isclose kap 1 then Ok (Some (mu_ideal_elem n))
  else Ok (mu_p n s kap).

(** Array element, after the bounds have been established by the caller. *)
Definition ix (l : list R) (i : nat) : R := nth i l 0.

(** smear_zones.py 841-855 (and 1039-1053, 2259-2273, 2461-2475): append n and the
    outer permeability ratio when n is given. *)
Definition with_outer (s kap : list R) (n kap_m : option R)
  : result (list R * list R) :=
  match n with
  | None => Ok (s, kap)
  | Some n' =>
      km <- match kap_m with Some k => Ok k | None => get_last kap end ;;
      Ok (s ++ [n'], kap ++ [km])
  end.

(** smear_zones.py 860-875: validation in mu_piecewise_constant. *)
Definition check_pwc (s kap : list R) : result unit :=
  if negb (Nat.eqb (List.length s) (List.length kap)) then Err ValueError else
  if any (fun v => Rleb v 1) s then Err ValueError else
  if any (fun v => Rleb v 0) kap then Err ValueError else
  if any_diff_nonpos s then Err ValueError else Ok tt.

(** smear_zones.py 886-887: one term of the inner sum of mu_piecewise_constant. *)
Definition pwc_psi_term (s s_ kap : list R) (n : R) (j : nat) : R :=
  ix kap j * (ln (ix s j / ix s_ j)
              - / 2 * (ix s j ^2 / n^2 - ix s_ j ^2 / n^2)).

(** smear_zones.py 882-895: the double loop of mu_piecewise_constant. *)
Definition mu_pwc_value (s kap : list R) : R :=
  let n := ix s (List.length s - 1) in
  let s_ := 1 :: removelast s in
  let sumi :=
    fold_left (fun sumi i =>
      let psi := fold_left (fun psi j => psi + pwc_psi_term s s_ kap n j) (seq 0 i) 0 in
      let psi := psi / ix kap i in
      sumi + ix kap i * (ix s i ^2 / n^2 * ln (ix s i / ix s_ i)
        + (psi - / 2) * (ix s i ^2 / n^2 - ix s_ i ^2 / n^2)
        - / 4 * (ix s i ^2 - ix s_ i ^2)^2 / n^4))
      (seq 0 (List.length s)) 0 in
  sumi * n^2 / (n^2 - 1).

(** smear_zones.py 755-896: mu_piecewise_constant(s, kap, n=None, kap_m=None). *)
Definition mu_piecewise_constant (s kap : list R) (n kap_m : option R) : result R :=
  p <- with_outer s kap n kap_m ;;
  let (s, kap) := p in
  _ <- check_pwc s kap ;;
  _ <- get_last s ;;
  Ok (mu_pwc_value s kap).

(** smear_zones.py 1058-1077: validation in mu_piecewise_linear. *)
Definition check_pwl (s kap : list R) : result unit :=
  if negb (Nat.eqb (List.length s) (List.length kap)) then Err ValueError else
  if any (fun v => Rltb v 1) s then Err ValueError else
  if any (fun v => Rleb v 0) kap then Err ValueError else
  if any_diff_neg s then Err ValueError else
  s0 <- get s 0 ;;
  if negb (isclose s0 1) then Err ValueError else Ok tt.

(** smear_zones.py 1089-1102: term1 of the inner loop of mu_piecewise_linear for
    the segment from (sa, ka) to (sb, kb). *)
Definition pwl_inner (n sa sb ka kb : R) : R :=
  if isclose sa sb then 0
  else if isclose ka kb then ln (sb / sa) - (sb^2 - sa^2) / 2 / n^2
  else if isclose (ka / kb) (sb / sa) then (sb - sa) * (n^2 - sa * sb) / sb / n^2
  else
    let A := (ka / kb - 1) / (sb - sa) in
    let B := (sb - ka / kb * sa) / (sb - sa) in
    1 / B * ln (sb / sa) + (B / A^2 / n^2 - 1 / B) * ln (ka / kb)
    - (sb - sa) / A / n^2.

(** smear_zones.py 1107-1128: term1 of the outer loop of mu_piecewise_linear. *)
Definition pwl_outer (n sa sb ka kb : R) : R :=
  if isclose sa sb then 0
  else if isclose ka kb then
    sb^2 / n^2 * ln (sb / sa) - (sb^2 - sa^2) / 2 / n^2 - (sb^2 - sa^2)^2 / 4 / n^4
  else if isclose (ka / kb) (sb / sa) then
    (sb - sa)^2 / 3 / n^4 * (3 * n^2 - sa^2 - 2 * sa * sb)
  else
    let A := (ka / kb - 1) / (sb - sa) in
    let B := (sb - ka / kb * sa) / (sb - sa) in
    sb^2 / B / n^2 * ln (kb * sb / ka / sa)
    - (sb - sa) / A / n^2 * (1 - B^2 / A^2 / n^2)
    - (sb - sa)^2 / 3 / A / n^4 * (sa + 2 * sb)
    + B / A^2 / n^2 * ln (ka / kb) * (1 - B^2 / A^2 / n^2)
    + B / 2 / A^2 / n^4 * (sb^2 * (2 * ln (ka / kb) - 1) + sa^2).

(** smear_zones.py 1082-1132: the double loop of mu_piecewise_linear. *)
Definition mu_pwl_value (s kap : list R) : R :=
  let n := ix s (List.length s - 1) in
  let sumi :=
    fold_left (fun sumi i =>
      let sumj :=
        fold_left (fun sumj j =>
          sumj + ix kap (j-1) * pwl_inner n (ix s (j-1)) (ix s j) (ix kap (j-1)) (ix kap j))
          (seq 1 (i - 1)) 0 in
      let term1 := pwl_outer n (ix s (i-1)) (ix s i) (ix kap (i-1)) (ix kap i) in
      sumi + (ix kap (i-1) * term1 + sumj * (ix s i ^2 - ix s (i-1) ^2) / n^2))
      (seq 1 (List.length s - 1)) 0 in
  sumi * n^2 / (n^2 - 1).

(** smear_zones.py 899-1134: mu_piecewise_linear(s, kap, n=None, kap_m=None). *)
Definition mu_piecewise_linear (s kap : list R) (n kap_m : option R) : result R :=
  p <- with_outer s kap n kap_m ;;
  let (s, kap) := p in
  _ <- check_pwl s kap ;;
  Ok (mu_pwl_value s kap).

(** smear_zones.py 1137-1204: mu_well_resistance(kh, qw, n, H, z=None). *)
Definition mu_well_resistance (kh qw n H : R) (z : option R) : result R :=
  if Rleb n 1 then Err ValueError else
  match z with
  | None => Ok (2 * kh * H^2 / 3 / qw * PI * (1 - 1 / n^2))
  | Some z => Ok (kh / qw * PI * z * (2 * H - z) * (1 - 1 / n^2))
  end.

(** The checks shared by the scalar functions (1277-1291, 1405-1419, 1741-1755,
    1930-1944, 2135-2149). *)
Definition check_nsk (n s kap : R) : result unit :=
  if Rleb n 1 then Err ValueError else
  if Rltb s 1 then Err ValueError else
  if Rleb kap 0 then Err ValueError else
  if Rltb n s then Err ValueError else Ok tt.

(** 1294-1296, 1421-1423, ...: [np.any((si < 1) | (si > n))]. *)
Definition check_si (n : R) (si : list R) : result unit :=
  if any (fun v => Rltb v 1 || Rltb n v) si then Err ValueError else Ok tt.

(** smear_zones.py 1301-1306: parabolic_part of k_parabolic. *)
Definition k_parabolic_part (s kap si : R) : option R :=
  if Rltb kap 1 then None else
  let A := sqrt (kap / (kap - 1)) in
  let B := s / (s - 1) in
  let C := 1 / (s - 1) in
  let k0 := 1 / kap in
  Some (k0 * (kap - 1) * (A - B + C * si) * (A + B - C * si)).

(** smear_zones.py 1206-1317: k_parabolic(n, s, kap, si). *)
Definition k_parabolic (n s kap : R) (si : list R) : result (list (option R)) :=
  _ <- check_nsk n s kap ;;
  _ <- check_si n si ;;
  if isclose s 1 || isclose kap 1 then Ok (map (fun _ => Some 1) si)
  else Ok (map (fun x => if Rltb x s then k_parabolic_part s kap x else Some 1) si).

(** smear_zones.py 1388-1397 / 1399-1403: the two parts of k_linear. *)
Definition k_linear_neq_part (s kap si : R) : R :=
  let A := (kap - 1) / (s - 1) in
  let B := (s - kap) / (s - 1) in
  let k0 := 1 / kap in
  k0 * (A * si + B).
Definition k_linear_eq_part (kap si : R) : R := let k0 := 1 / kap in k0 * si.

(** smear_zones.py 1320-1436: k_linear(n, s, kap, si). *)
Definition k_linear (n s kap : R) (si : list R) : result (list R) :=
  _ <- check_nsk n s kap ;;
  _ <- check_si n si ;;
  if isclose s 1 || isclose kap 1 then Ok (map (fun _ => 1) si)
  else Ok (map (fun x =>
         if Rltb x s then
           if isclose s kap then k_linear_eq_part kap x else k_linear_neq_part s kap x
         else 1) si).

(** smear_zones.py 1439-1568: k_overlapping_linear(n, s, kap, si). *)
Definition k_overlapping_linear (n s kap : R) (si : list R) : result (list R) :=
  if Rleb n 1 then Err ValueError else
  if Rltb s 1 then Err ValueError else
  if Rleb kap 0 then Err ValueError else
  _ <- check_si n si ;;
  if isclose s 1 || isclose kap 1 then Ok (map (fun _ => 1) si)
  else if Rleb (2 * n - s) 1 then Ok (map (fun _ => 1 / kap) si)
  else if Rleb s n then k_linear n s kap si
  else
    let sx := _sx n s in
    let kapx := _kapx n s kap in
    let A := (kap - 1) / (s - 1) in
    let B := (s - kap) / (s - 1) in
    Ok (map (fun x => if Rltb x sx then 1 / kap * (A * x + B) else 1 / kap * kapx) si).

(** smear_zones.py 1573-1641: u_ideal(n, si, uavg=1, uw=0, muw=0). *)
Definition u_ideal (n : R) (si : list R) (uavg uw muw : R) : result (list R) :=
  if Rleb n 1 then Err ValueError else
  _ <- check_si n si ;;
  let mu := mu_ideal_elem n in
  let term1 := (uavg - uw) / (mu + muw) in
  Ok (map (fun x => term1 * (ln x - 1 / (2 * n^2) * (x^2 - 1) + muw) + uw) si).

(** smear_zones.py 1723-1737: the two parts of u_constant. *)
Definition u_constant_part (n kap si : R) : R :=
  kap * (ln si - 1 / (2 * n^2) * (si^2 - 1)).
Definition u_constant_undisturbed (n s kap si : R) : R :=
  ln (si / s) - 1 / (2 * n^2) * (si^2 - s^2)
  + kap * (ln s - 1 / (2 * n^2) * (s^2 - 1)).

(** smear_zones.py 1643-1776: u_constant(n, s, kap, si, uavg=1, uw=0, muw=0). *)
Definition u_constant (n s kap : R) (si : list R) (uavg uw muw : R) : result (list R) :=
  _ <- check_nsk n s kap ;;
  _ <- check_si n si ;;
  if isclose s 1 || isclose kap 1 then u_ideal n si uavg uw muw
  else
    mu <- mu_constant n s kap ;;
    let term1 := (uavg - uw) / (mu + muw) in
    Ok (map (fun x =>
      term1 * ((if Rltb x s then u_constant_part n kap x
                else u_constant_undisturbed n s kap x) + muw) + uw) si).

(** smear_zones.py 1886-1904: linear_part of u_linear. *)
Definition u_linear_part (n s kap si : R) : R :=
  if isclose s kap then kap * (- 1 / si - 1 / n^2 * (si - 1) + 1)
  else
    let A := (kap - 1) / (s - 1) in
    let B := (s - kap) / (s - 1) in
    let term2 := ln si - ln (A * si + B) in
    let term3 := A * si + B - 1 - B * ln (A * si + B) in
    kap * (1 / B * term2 - 1 / (n^2 * A^2) * term3).

(** smear_zones.py 1906-1926: undisturbed_part of u_linear. *)
Definition u_linear_undisturbed (n s kap si : R) : R :=
  let term2 := ln (si / s) - 1 / (2 * n^2) * (si^2 - s^2) in
  if isclose s kap then
    let term3 := - 1 / s - 1 / n^2 * (s - 1) + 1 in
    term2 + kap * term3
  else
    let A := (kap - 1) / (s - 1) in
    let B := (s - kap) / (s - 1) in
    let term3 := 1 / B * ln (s / kap) - 1 / (n^2 * A^2) * (kap - 1 - B * ln kap) in
    term2 + kap * term3.

(** smear_zones.py 1780-1963: u_linear(n, s, kap, si, uavg=1, uw=0, muw=0). *)
Definition u_linear (n s kap : R) (si : list R) (uavg uw muw : R) : result (list R) :=
  _ <- check_nsk n s kap ;;
  _ <- check_si n si ;;
  if isclose s 1 || isclose kap 1 then u_ideal n si uavg uw muw
  else
    mus <- mu_linear [n] [s] [kap] ;;
    let mu := ix mus 0 in
    let term1 := (uavg - uw) / (mu + muw) in
    Ok (map (fun x =>
      term1 * ((if Rltb x s then u_linear_part n s kap x
                else u_linear_undisturbed n s kap x) + muw) + uw) si).

(** smear_zones.py 2086-2110: parabolic_part of u_parabolic. *)
Definition u_parabolic_part (n s kap si : R) : R :=
  let A := sqrt (kap / (kap - 1)) in
  let B := s / (s - 1) in
  let C := 1 / (s - 1) in
  let F := ln ((A + B - C * si) / (A + 1)) in
  let G := ln ((A - B + C * si) / (A - 1)) in
  let term1 := kap / (kap - 1) in
  let term2 := 1 / (A^2 - B^2) in
  let term3 := ln si in
  let term4 := - 1 / (2 * A) in
  let term5 := (A - B) * F + (A + B) * G in
  let term6 := term2 * (term3 + term4 * term5) in
  let term7 := 1 / (2 * n^2 * A * C^2) in
  let term8 := (A + B) * F + (A - B) * G in
  let term9 := term7 * term8 in
  term1 * (term6 + term9).

(** smear_zones.py 2112-2130: undisturbed_part of u_parabolic. *)
Definition u_parabolic_undisturbed (n s kap si : R) : R :=
  let A := sqrt (kap / (kap - 1)) in
  let B := s / (s - 1) in
  let C := 1 / (s - 1) in
  let E := ln ((A + 1) / (A - 1)) in
  let term1 := 1 in
  let term2 := ln (si / s) - 1 / (2 * n^2) * (si^2 - s^2) in
  let term3 := 1 / (A^2 - B^2) in
  let term4 := ln s - 1 / 2 * (ln kap + B / A * E) in
  let term5 := 1 / (2 * n^2 * C^2) in
  let term6 := ln kap - B / A * E in
  let term7 := kap / (kap - 1) * (term3 * term4 + term5 * term6) in
  term1 * (term2 + term7).

(** smear_zones.py 1966-2170: u_parabolic(n, s, kap, si, uavg=1, uw=0, muw=0).
    [None] is nan (see [mu_p]; the same divisions occur in both parts). *)
Definition u_parabolic (n s kap : R) (si : list R) (uavg uw muw : R)
  : result (list (option R)) :=
  _ <- check_nsk n s kap ;;
  _ <- check_si n si ;;
  if isclose s 1 || isclose kap 1 then rmap (map Some) (u_ideal n si uavg uw muw)
  else
    omu <- mu_parabolic n s kap ;;
    Ok (map (fun x =>
      match omu with
      | None => None
      | Some mu =>
          let term1 := (uavg - uw) / (mu + muw) in
          Some (term1 * ((if Rltb x s then u_parabolic_part n s kap x
                          else u_parabolic_undisturbed n s kap x) + muw) + uw)
      end) si).

(** np.searchsorted(s, x) (side='left'), s sorted: how many entries are < x. *)
Definition searchsorted (s : list R) (x : R) : nat :=
  List.length (filter (fun v => Rltb v x) s).

(** smear_zones.py 2314-2324: one entry of u_piecewise_constant before scaling. *)
Definition u_pwc_raw (s kap : list R) (muw x : R) : R :=
  let n := ix s (List.length s - 1) in
  let s_ := 1 :: removelast s in
  let i := searchsorted s x in
  let sumj := fold_left (fun sumj j => sumj + pwc_psi_term s s_ kap n j) (seq 0 i) 0 in
  let sumj := sumj / ix kap i in
  ix kap i * (ln (x / ix s_ i) - / 2 * (x^2 / n^2 - ix s_ i ^2 / n^2) + sumj) + muw.

(** smear_zones.py 2173-2328: u_piecewise_constant(s, kap, si, uavg=1, uw=0, muw=0,
    n=None, kap_m=None). *)
Definition u_piecewise_constant (s kap si : list R) (uavg uw muw : R)
  (n kap_m : option R) : result (list R) :=
  p <- with_outer s kap n kap_m ;;
  let (s, kap) := p in
  _ <- check_pwc s kap ;;
  nn <- get_last s ;;
  _ <- check_si nn si ;;
  mu <- mu_piecewise_constant s kap None None ;;
  let term1 := (uavg - uw) / (mu + muw) in
  Ok (map (fun x => u_pwc_raw s kap muw x * term1 + uw) si).

(** smear_zones.py 2517-2526: phi of u_piecewise_linear. *)
Definition pwl_phi (n sa sb ka kb x : R) : R :=
  if isclose (ka / kb) 1 then ln (x / sa) - (x^2 - sa^2) / (2 * n^2)
  else if isclose (ka / kb) (sb / sa) then (x - sa) * (n^2 - sa * x) / (x * n^2)
  else
    let A := (ka / kb - 1) / (sb - sa) in
    let B := (sb - sa * ka / kb) / (sb - sa) in
    1 / B * ln (x / sa) + (B / A^2 / n^2 - 1 / B) * ln (A * x + B)
    - (x - sa) / A / n^2.

(** smear_zones.py 2530-2541: the increment of psi in u_piecewise_linear. *)
Definition pwl_psi_term (n sa sb ka kb : R) : R :=
  if isclose sa sb then 0
  else if isclose (ka / kb) 1 then ka * (ln (sb / sa) - (sb^2 - sa^2) / (2 * n^2))
  else if isclose (ka / kb) (sb / sa) then
    ka * ((sb - sa) * (n^2 - sa * sb) / (sb * n^2))
  else
    let A := (ka / kb - 1) / (sb - sa) in
    let B := (sb - sa * ka / kb) / (sb - sa) in
    ka * (1 / B * ln (sb / sa) + (B / A^2 / n^2 - 1 / B) * ln (A * sb + B)
          - (sb - sa) / A / n^2).

(** smear_zones.py 2505-2506, 2512-2543: one entry of u_piecewise_linear before
    scaling. *)
Definition u_pwl_raw (s kap : list R) (muw x : R) : R :=
  let n := ix s (List.length s - 1) in
  let i := match searchsorted s x with O => 1%nat | S k => S k end in
  let phi := pwl_phi n (ix s (i-1)) (ix s i) (ix kap (i-1)) (ix kap i) x in
  let psi := fold_left (fun psi j =>
      psi + pwl_psi_term n (ix s (j-1)) (ix s j) (ix kap (j-1)) (ix kap j))
      (seq 1 (i - 1)) 0 in
  ix kap (i-1) * phi + psi + muw.

(** smear_zones.py 2331-2547: u_piecewise_linear(s, kap, si, uavg=1, uw=0, muw=0,
    n=None, kap_m=None), for lists s of at least two entries (with one entry,
    line 2517 is an IndexError). *)
Definition u_piecewise_linear (s kap si : list R) (uavg uw muw : R)
  (n kap_m : option R) : result (list R) :=
  p <- with_outer s kap n kap_m ;;
  let (s, kap) := p in
  if negb (Nat.eqb (List.length s) (List.length kap)) then Err ValueError else
  if any (fun v => Rltb v 1) s then Err ValueError else
  if any (fun v => Rleb v 0) kap then Err ValueError else
  if any_diff_neg s then Err ValueError else
  nn <- get_last s ;;
  _ <- check_si nn si ;;
  mu <- mu_piecewise_linear s kap None None ;;
  if Nat.ltb (List.length s) 2 && negb (Nat.eqb (List.length si) 0) then Err IndexError else
  let term1 := (uavg - uw) / (mu + muw) in
  Ok (map (fun x => u_pwl_raw s kap muw x * term1 + uw) si).

(** str.upper on one (ASCII) character. *)
Definition upper (c : Ascii.ascii) : Ascii.ascii :=
  let k := Ascii.nat_of_ascii c in
  if (Nat.leb 97 k && Nat.leb k 122)%bool then Ascii.ascii_of_nat (k - 32) else c.

(** smear_zones.py 2550-2601: re_from_drain_spacing(sp, pattern). *)
Definition re_from_drain_spacing (sp : list R) (pattern : string) : result (list R) :=
  if any (fun v => Rleb v 0) sp then Err ValueError else
  match pattern with
  | EmptyString => Err IndexError
  | String c _ =>
      if Ascii.eqb (upper c) "T"%char then
        Ok (map (fun v => 525037567904332 / 10^15 * v) sp)
      else if Ascii.eqb (upper c) "S"%char then
        Ok (map (fun v => 5641895835477563 / 10^16 * v) sp)
      else Err ValueError
  end.

(** smear_zones.py 2603-2648: drain_eta(re, mu_function, *args, muw=0), given the
    outcome of the call mu_fn( *args, **kwargs). *)
Definition drain_eta (re : R) (mu : result R) (muw : R) : result R :=
  m <- mu ;; Ok (2 / re^2 / (m + muw)).

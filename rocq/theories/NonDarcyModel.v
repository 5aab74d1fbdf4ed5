(** * Model of radial drainage under non-Darcian flow in /repo/geotecha/consolidation/smear_zones.py :2752-3770:
    _g, _gbar, non_darcy_beta_ideal, non_darcy_beta_constant, non_darcy_beta_piecewise_constant, non_darcy_u_piecewise_constant

    Reals for floats.  nflow and the number of terms are numbers, not arrays; array arguments are modelled one element at a time,
    arr saying which of the two branches :2881 (array) and :2897 (scalar) is taken. *)
From Coq Require Import Reals List Bool Arith.
From Verif Require Import Base.
Import ListNotations.
Local Open Scope R_scope.
Local Open Scope list_scope.

(** for j in range(m): total += f j *)
Fixpoint sum_to (m : nat) (f : nat -> R) : R := match m with 0%nat => 0 | S k => sum_to k f + f k end.
(** special.poch :2888 *)
Fixpoint poch (x : R) (j : nat) : R := match j with 0%nat => 1 | S k => poch x k * (x + INR k) end.
(** np.cumprod :2909; acc: the product so far *)
Fixpoint cumprod (acc : R) (l : list R) : list R := match l with [] => [] | x :: t => acc * x :: cumprod (acc * x) t end.
Definition total (l : list R) : R := fold_right Rplus 0 l.

(** :2884-2895 *)
Definition g_array (y N n : R) (m : nat) : R :=
  sum_to m (fun j => poch (- 1 / n) j / INR (fact j) / ((2 * INR j + 1) * n - 1) * (y / N) ^ (2 * j)) * (n * Rpower y (1 - 1 / n)).
(** :2900-2912; IndexError at a[0] if there are no terms *)
Definition g_scalar (y N n : R) (m : nat) : result R :=
  match m with
  | 0%nat => Err IndexError
  | S k => Ok (total (cumprod 1 (n / (n - 1) * Rpower y (1 - 1 / n) ::
      map (fun j => (y / N) ^ 2 * (INR j * n - n - 1) * (2 * INR j * n - n - 1) / (n * INR j * (2 * INR j * n + n - 1))) (seq 1 k))))
  end.
(** :3052-3064 *)
Definition gbar_array (y N n : R) (m : nat) : R :=
  sum_to m (fun j => poch (- 1 / n) j / INR (fact j) / ((2 * INR j + 1) * n - 1) / ((2 * INR j + 3) * n - 1) * (y / N) ^ (2 * j)) * (n ^ 2 * Rpower y (3 - 1 / n)).
(** :3068-3080 *)
Definition gbar_scalar (y N n : R) (m : nat) : result R :=
  match m with
  | 0%nat => Err IndexError
  | S k => Ok (total (cumprod 1 (n ^ 2 / (n - 1) / (3 * n - 1) * Rpower y (3 - 1 / n) ::
      map (fun j => (y / N) ^ 2 * (INR j * n - n - 1) * (2 * INR j * n - n - 1) / (n * INR j * (2 * INR j * n + 3 * n - 1))) (seq 1 k))))
  end.
(** the checks :2865-2876, :3033-3044 *)
Definition checks (y N n : R) : result unit := if Rltb y 1 then Err ValueError else if Rleb N 1 then Err ValueError else if Rleb n 1 then Err ValueError else Ok tt.
Definition g (arr : bool) (y N n : R) (m : nat) : result R := _ <- checks y N n ;; if arr then Ok (g_array y N n m) else g_scalar y N n m.
Definition gbar (arr : bool) (y N n : R) (m : nat) : result R := _ <- checks y N n ;; if arr then Ok (gbar_array y N n m) else gbar_scalar y N n m.

(** :3162-3197 *)
Definition non_darcy_beta_ideal (arr : bool) (N nflow : R) (m : nat) : result R :=
  if Rleb N 1 then Err ValueError else if Rleb nflow 1 then Err ValueError else
  g1 <- g arr 1 N nflow m ;;
  bN <- gbar arr N N nflow m ;;
  b1 <- gbar arr 1 N nflow m ;;
  Ok ((- g1 * (N ^ 2 - 1) + 2 * bN - 2 * b1) / (N ^ 2 - 1)).
(** :3302-3335 *)
Definition non_darcy_beta_constant (arr : bool) (N s kap nflow : R) (m : nat) : result R :=
  if Rleb N 1 then Err ValueError else if Rltb s 1 then Err ValueError else if Rltb kap 1 then Err ValueError else if Rleb nflow 1 then Err ValueError else
  bN <- gbar arr N N nflow m ;;
  b1 <- gbar arr 1 N nflow m ;;
  g1 <- g arr 1 N nflow m ;;
  bs <- gbar arr s N nflow m ;;
  gs <- g arr s N nflow m ;;
  Ok ((2 * bN - Rpower kap (1 / nflow) * (2 * b1 + g1 * (N ^ 2 - 1)) + (Rpower kap (1 / nflow) - 1) * (2 * bs + gs * (N ^ 2 - s ^ 2))) / (N ^ 2 - 1)).

Section Piecewise.
Variables (s kap : list R) (nflow : R) (m : nat).
(** :3465 *)
Definition outer : R := last s 0.
Definition hi (i : nat) : R := nth i s 0.
(** s_ :3466-3467 *)
Definition lo (i : nat) : R := match i with 0%nat => 1 | S k => nth k s 0 end.
Definition kx (i : nat) : R := Rpower (nth i kap 0) (1 / nflow).
(** the arguments of _g and _gbar have passed their checks here, so only the missing first term can make them raise *)
Definition gv (y : R) : R := match g_scalar y outer nflow m with Ok v => v | Err _ => 0 end.
Definition gbarv (y : R) : R := match gbar_scalar y outer nflow m with Ok v => v | Err _ => 0 end.
(** :3471-3477 *)
Definition psi (i : nat) : R := sum_to i (fun j => kx j * (gv (hi j) - gv (lo j))) / kx i.
(** :3469-3486 *)
Definition pw_beta : R :=
  sum_to (length s) (fun i => kx i * (2 * gbarv (hi i) - 2 * gbarv (lo i) + (psi i - gv (lo i)) * (hi i ^ 2 - lo i ^ 2))) / (outer ^ 2 - 1).
(** :3443-3463 *)
Definition pw_checks : result unit :=
  if negb (length s =? length kap)%nat then Err ValueError
  else if existsb (fun x => Rleb x 1) s then Err ValueError
  else if existsb (fun k => Rleb k 0) kap then Err ValueError
  else if existsb (fun ab => Rleb (snd ab - fst ab) 0) (combine s (tl s)) then Err ValueError
  else if Rleb nflow 1 then Err ValueError
  else match s with [] => Err IndexError | _ => match m with 0%nat => Err IndexError | _ => Ok tt end end.
(** np.searchsorted(s, v) :3653, s increasing *)
Definition segment (v : R) : nat := length (filter (fun x => Rltb x v) s).
End Piecewise.
(** n and kap_m :3430-3441 *)
Definition with_outer (s kap : list R) (n kap_m : option R) : result (list R * list R) :=
  match n with
  | None => Ok (s, kap)
  | Some n => k <- match kap_m with Some k => Ok k | None => match kap with [] => Err IndexError | _ => Ok (last kap 0) end end ;; Ok (s ++ [n], kap ++ [k])
  end.
(** :3427-3487 *)
Definition non_darcy_beta_piecewise_constant (s kap : list R) (n kap_m : option R) (nflow : R) (m : nat) : result R :=
  sk <- with_outer s kap n kap_m ;;
  _ <- pw_checks (fst sk) (snd sk) nflow m ;;
  Ok (pw_beta (fst sk) (snd sk) nflow m).
(** :3603-3689; an si outside :3645 is looked for before the number of terms matters *)
Definition non_darcy_u_piecewise_constant (s kap si : list R) (uavg uw muw : R) (n kap_m : option R) (nflow : R) (m : nat) : result (list R) :=
  sk <- with_outer s kap n kap_m ;;
  let s := fst sk in let kap := snd sk in
  _ <- pw_checks s kap nflow 1 ;;
  _ <- (if existsb (fun v => Rltb v 1 || Rltb (outer s) v) si then Err ValueError else Ok tt) ;;
  _ <- pw_checks s kap nflow m ;;
  let term1 := (uavg - uw) / (pw_beta s kap nflow m + muw) in
  Ok (map (fun v => let i := segment s v in
    (kx kap nflow i * (gv s nflow m v - gv s nflow m (lo s i) + psi s kap nflow m i) + muw) * term1 + uw) si).

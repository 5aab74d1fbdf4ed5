(** * Model of /repo/geotecha/beam_on_foundation/specbeam.py: shape functions, infinite beam, transitions, MovingPointLoads

    Exact arithmetic.  np.roots and np.linalg.solve are parameters.  Arrays are lists of floats; for arrays
    of integers np.empty_like would cut off the fraction (reverse_curve_transition), not modelled. *)
From Coq Require Import Reals List Arith ZArith Bool.
From Coquelicot Require Import Coquelicot.
From Verif Require Import Base.
Import ListNotations.
Local Open Scope R_scope.

(** static_point_load_shape :8837-8865 *)
Definition static_point_load_shape (x L : R) : R := exp (- Rabs x / L) * (cos (Rabs x / L) + sin (Rabs x / L)).
(** point_load_static_defl_shape_function :2230-2250 *)
Definition point_load_static_defl_shape_function (x L xc : R) : R := exp (- Rabs (x - xc) / L) * (cos (Rabs (x - xc) / L) + sin (Rabs (x - xc) / L)).
(** np.linspace(a, b, n) *)
Definition linspace (a b : R) (n : nat) : list R := map (fun k => match n with 1%nat => a | _ => a + INR k * ((b - a) / (INR n - 1)) end) (seq 0 n).
(** multi_static :2253-2286 *)
Definition multi_static (xc frel : list R) (wsingle : R) (xlim : R * R) (n : nat) (L : R) : list R * list R :=
  let x := linspace (fst xlim) (snd xlim) n in
  (x, map (fun x => fold_left (fun w p => w + snd p * point_load_static_defl_shape_function x L (fst p)) (combine xc frel) 0 * wsingle) x).

(** *** moving load on an infinite beam *)
Definition cexp (z : C) : C := (exp (fst z) * cos (snd z), exp (fst z) * sin (snd z)).
Fixpoint cpow (z : C) (n : nat) : C := match n with O => RtoC 1 | S k => Cmult z (cpow z k) end.
Section Infinite.
Variable roots : list R -> list C.
Variable solve : list (list C) -> list C -> result (list C).
Definition at4 (l : list C) (k : nat) : C := nth k l (RtoC 0).
(** the matrix :4418-4422 *)
Definition cmat (g : list C) : list (list C) := map (fun k => [cpow (at4 g 0) k; cpow (at4 g 1) k; Copp (cpow (at4 g 2) k); Copp (cpow (at4 g 3) k)]) (seq 0 4).
(** deflection at s :4437-4438 *)
Definition disp_at (g A : list C) (s : R) : C :=
  if Rltb s 0 then Cplus (Cmult (at4 A 2) (cexp (Cmult (RtoC s) (at4 g 2)))) (Cmult (at4 A 3) (cexp (Cmult (RtoC s) (at4 g 3))))
  else Cplus (Cmult (at4 A 0) (cexp (Cmult (RtoC s) (at4 g 0)))) (Cmult (at4 A 1) (cexp (Cmult (RtoC s) (at4 g 1)))).
(** moving_load_on_beam_on_elastic_foundation :4375-4438 *)
Definition moving_load_on_beam_on_elastic_foundation (alp bet : R) (slim : R * R) (npts : nat) : result (list R * list C) :=
  let g := roots [1; 0; 4 * alp ^ 2; - 8 * alp * bet; 4] in
  A <- solve (cmat g) [RtoC 0; RtoC 0; RtoC 0; RtoC 8] ;;
  let s := linspace (fst slim) (snd slim) npts in
  Ok (s, map (disp_at g A) s).
(** np.max of complex numbers: the first by real, then by imaginary part; ValueError for an empty array *)
Definition cle (a b : C) : bool := Rltb (fst a) (fst b) || (Reqb (fst a) (fst b) && Rleb (snd a) (snd b)).
Definition cmax (l : list C) : result C := match l with [] => Err ValueError | a :: t => Ok (fold_left (fun m z => if cle m z then z else m) t a) end.
(** DAFinfinite :7371-7402 *)
Definition DAFinfinite (alp bet kratio : R) : result R :=
  r <- moving_load_on_beam_on_elastic_foundation (alp / Rpower kratio (1 / 4)) (bet * Rpower (1 / kratio) (1 / 2)) (-6, 6) 1001 ;;
  m <- cmax (snd r) ;; Ok (fst m * Rpower (1 / kratio) (3 / 4)).
(** DAFrelative :2177-2227 (the same with s from -8 to 8) *)
Definition DAFrelative (alp bet k2_k1 : R) : result R :=
  r <- moving_load_on_beam_on_elastic_foundation (alp / Rpower k2_k1 (1 / 4)) (bet * Rpower (1 / k2_k1) (1 / 2)) (-8, 8) 1001 ;;
  m <- cmax (snd r) ;; Ok (fst m * Rpower (1 / k2_k1) (3 / 4)).
End Infinite.

(** *** transitions *)
(** np.arctanh, between -1 and 1 *)
Definition arctanh (u : R) : R := / 2 * ln ((1 + u) / (1 - u)).
(** tanhtran :8514-8543 *)
Definition tanhtran (x a b : R) : R := / 2 + / 2 * tanh ((x - / 2) / b).
(** tanhtrani :8546-8573 *)
Definition tanhtrani (y a b : R) : R := b * arctanh ((y - / 2) / / 2) + a.
(** tanhtranib :8576-8602 *)
Definition tanhtranib (x y a : R) : R := (x - a) / arctanh ((y - / 2) / / 2).
(** reverse_curve_transition :8983-9057, one x *)
Definition reverse_curve_transition (x1 y1 x2 y2 : R) : result (R -> R) :=
  if Reqb y1 y2 then Ok (fun _ => y1) else
  let xmid := (x2 + x1) / 2 in
  if Reqb x1 x2 then Err ValueError else
  let '(xa, xb, ya, yb) := if Rltb x1 x2 then (x1, x2, y1, y2) else (x2, x1, y2, y1) in
  let delta := 2 * atan (Rabs (yb - ya) / Rabs (xb - xa)) in
  let r := Rabs (xb - xa) / (2 * sin delta) in
  Ok (fun x =>
    if Rleb xb x then yb else if Rleb x xa then ya else
    if Rltb yb ya then (if Rltb x xmid then sqrt (r ^ 2 - (x - xa) ^ 2) + ya - r else - sqrt (r ^ 2 - (x - xb) ^ 2) + yb + r)
    else (if Rltb x xmid then - sqrt (r ^ 2 - (x - xa) ^ 2) + ya + r else sqrt (r ^ 2 - (x - xb) ^ 2) + yb - r)).

(** *** MovingPointLoads :1591-2075.  A velocity of exactly 0 (times inf or nan) is not modelled *)
Record mpl := mkM { mx : list R; mp : list R; moffset : R; mxt : list R; mL : option R; mt0 : R; mv_ : option R; mx0 : R;
  start_time : option (list R); end_time : option (list R); xnow : list R; pnow : list R }.
(** setv :1646-1663 *)
Definition setv (o : mpl) (v : option R) : result mpl :=
  match v with
  | None => Ok (mkM (mx o) (mp o) (moffset o) (mxt o) (mL o) (mt0 o) None (mx0 o) None None (xnow o) (pnow o))
  | Some v => match mL o with
              | None => Err TypeError
              | Some L =>
                  let s := if Rltb 0 v then map (fun x => mt0 o + (0 - x) / v) (mxt o) else map (fun x => mt0 o - (-1) * x / v) (mxt o) in
                  let e := if Rltb 0 v then map (fun x => mt0 o + (L - x) / v) (mxt o) else map (fun x => mt0 o - (L + (-1) * x) / v) (mxt o) in
                  Ok (mkM (mx o) (mp o) (moffset o) (mxt o) (mL o) (mt0 o) (Some v) (mx0 o) (Some s) (Some e) (xnow o) (pnow o))
              end
  end.
(** __init__ :1625-1643 *)
Definition mpl_init (x p : list R) (offset : R) (v L : option R) (t0 x0 : R) : result mpl :=
  let xt := map (fun a => a + offset) x in
  setv (mkM x p offset xt L t0 None x0 None None (map (fun _ => 0) xt) (map (fun _ => 0) xt)) v.
(** axle_positions :1849-1877: the new object and the positions (its own buffer) *)
Definition positions (o : mpl) (t v0 t0 x0 : R) : list R := map (fun a => (if Rltb v0 0 then -1 * a else a) + (x0 + v0 * (t - t0))) (mxt o).
Definition set_xnow (o : mpl) (l : list R) : mpl := mkM (mx o) (mp o) (moffset o) (mxt o) (mL o) (mt0 o) (mv_ o) (mx0 o) (start_time o) (end_time o) l (pnow o).
Definition axle_positions (o : mpl) (t v0 t0 x0 : R) : mpl := set_xnow o (positions o t v0 t0 x0).
(** point_loads_on_beam :1676-1706: positions in xnow, loads in pnow *)
Definition point_loads_on_beam (o : mpl) (t : R) : result mpl :=
  match mv_ o, mL o, start_time o, end_time o with
  | Some v, Some L, Some st, Some et =>
      p <- (if (length (mp o) =? length (pnow o))%nat then Ok (mp o) else match mp o with [a] => Ok (map (fun _ => a) (pnow o)) | _ => Err ValueError end) ;;
      let o1 := axle_positions o t v 0 (if Rleb 0 v then mx0 o else L) in
      Ok (mkM (mx o1) (mp o1) (moffset o1) (mxt o1) (mL o1) (mt0 o1) (mv_ o1) (mx0 o1) (start_time o1) (end_time o1) (xnow o1)
        (map (fun q => if Rltb t (fst (snd q)) || Rltb (snd (snd q)) t then 0 else fst q) (combine p (combine st et))))
  | _, _, _, _ => Err TypeError
  end.
(** convert_to_specbeam :1709-1808: for each axle the load against time, omega and phase *)
Definition convert_to_specbeam (o : mpl) (v L t0 x0 : option R) : result (list (list R * list R) * list (R * R)) :=
  match (match v with Some a => Some a | None => mv_ o end), (match L with Some a => Some a | None => mL o end) with
  | Some v, Some L =>
      let t0 := match t0 with Some a => a | None => mt0 o end in let x0 := match x0 with Some a => a | None => mx0 o end in
      if Reqb v 0 then Err ValueError else
      let one := fun q : R * R => let '(xi, p) := q in
        if Rltb 0 v then let s := t0 + (0 - xi) / v in let e := t0 + (L - xi) / v in (([s; s; e; e], [0; p; p; 0]), (v, xi + x0 - v * t0))
        else let xi := xi * -1 in let s := t0 - xi / v in let e := t0 - (L + xi) / v in (([s; s; e; e], [0; p; p; 0]), (v, x0 + L + xi - v * t0)) in
      Ok (split (map one (combine (mxt o) (mp o))))
  | _, _ => Err TypeError
  end.
(** time_axles_pass_point :2010-2042 *)
Definition time_axles_pass_point (o : mpl) (x v0 t0 x0 : R) : list R := map (fun a => (x - (if Rltb v0 0 then -1 * a else a) - x0) / v0 + t0) (mxt o).
(** time_axles_pass_beam_point :2044-2073 *)
Definition time_axles_pass_beam_point (o : mpl) (x : R) : result (list R) :=
  match mv_ o with
  | None => Err TypeError
  | Some v => if Rltb 0 v then Ok (time_axles_pass_point o x v (mt0 o) (mx0 o))
              else if Rltb v 0 then match mL o with Some L => Ok (time_axles_pass_point o x v (mt0 o) (L + mx0 o)) | None => Err TypeError end
              else Err ValueError
  end.

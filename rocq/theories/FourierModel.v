(** * Model of /repo/geotecha/mathematics/fourier.py and /repo/geotecha/mathematics/hankel.py

    Exact arithmetic.  The keyword args is modelled by closing the function over it.  Error estimates of
    FourierTransform are not modelled.  scipy.integrate.quad with weight='cos'/'sin' is a parameter; of a
    function with (python) complex values it is a TypeError. *)
From Coq Require Import Reals List Arith ZArith Bool.
From Coquelicot Require Import Coquelicot.
From Verif Require Import Base QuadratureModel SteinModel ConstitutiveModel.
Import ListNotations.
Local Open Scope R_scope.

(** a python function of x: returns floats, or complex numbers *)
Inductive pyfun := FReal (f : R -> R) | FComplex (fr fi : R -> R).
(** +np.real(func(x)), +np.imag(func(x)) (:40-123, :368-373) *)
Definition real_func (g : pyfun) : pyfun := FReal (match g with FReal f => f | FComplex fr _ => fr end).
Definition imag_func (g : pyfun) : pyfun := FReal (match g with FReal _ => fun _ => 0 | FComplex _ fi => fi end).
(** :126-168 +func(-x), :170-212 -func(-x) *)
Definition func_mirror_for_even_weight (g : pyfun) : pyfun :=
  match g with FReal f => FReal (fun x => f (- x)) | FComplex fr fi => FComplex (fun x => fr (- x)) (fun x => fi (- x)) end.
Definition func_mirror_for_odd_weight (g : pyfun) : pyfun :=
  match g with FReal f => FReal (fun x => - f (- x)) | FComplex fr fi => FComplex (fun x => - fr (- x)) (fun x => - fi (- x)) end.

(** FourierTransform :294-366 *)
Record transform := mkT { t_func : pyfun; t_inv : bool; t_is_real : bool; t_is_imag : bool; t_re_even : bool; t_re_odd : bool; t_im_even : bool; t_im_odd : bool }.
Section Fourier.
(** quad(f, a, b, weight='cos', wvar=w)[0] and with weight='sin' for the a and b of the object *)
Variables quad_cos quad_sin : (R -> R) -> R -> R.
Definition cosine_transform (g : pyfun) (w : R) : result R := match g with FReal f => Ok (quad_cos f w) | FComplex _ _ => Err TypeError end.   (* :215-251 *)
Definition sine_transform (g : pyfun) (w : R) : result R := match g with FReal f => Ok (quad_sin f w) | FComplex _ _ => Err TypeError end.     (* :253-289 *)
(** :350-355 *)
Definition inv_const (T : transform) : R := if t_inv T then / (2 * PI) else 1.
Definition inv_sign (T : transform) : R := if t_inv T then -1 else 1.
Definition fR (x : R) : C := (x, 0).
Definition fI (x : R) : C := (0, x).                                                  (* 1.j * x *)
(** __call__ :397-533 *)
Definition call (T : transform) (s : R) : result C :=
  let c := inv_const T in let sg := inv_sign T in let g := t_func T in
  let mfe := func_mirror_for_even_weight g in let mfo := func_mirror_for_odd_weight g in
  if t_is_real T then
    if t_re_even T then v <- cosine_transform g s ;; Ok (fR (2 * c * v))
    else if t_re_odd T then v <- sine_transform g s ;; Ok (- fI (2 * c * sg * v))%C
    else v1 <- cosine_transform mfe s ;; v2 <- cosine_transform g s ;; v3 <- sine_transform mfo s ;; v4 <- sine_transform g s ;;
         Ok (fR (c * v1) + fR (c * v2) - fI (c * sg * v3) - fI (c * sg * v4))%C
  else if t_is_imag T then
    if t_im_even T then v <- cosine_transform g s ;; Ok (fI (2 * c * v))
    else if t_im_odd T then v <- sine_transform g s ;; Ok (fR (2 * c * sg * v))
    else v1 <- cosine_transform mfe s ;; v2 <- cosine_transform g s ;; v3 <- sine_transform mfo s ;; v4 <- sine_transform g s ;;
         Ok (fI (c * v1) + fI (c * v2) - fR (c * sg * v3) - fR (c * sg * v4))%C
  else
    (* :476-504, (igral, ig) *)
    r <- (if t_re_even T then v <- cosine_transform (real_func g) s ;; Ok (fR (2 * c * v), fR (2 * c * v))
          else if t_re_odd T then v <- sine_transform (real_func g) s ;; Ok (- fI (2 * c * sg * v), fI (2 * c * sg * v))%C
          else v1 <- cosine_transform (real_func mfe) s ;; v2 <- cosine_transform (real_func g) s ;;
               v3 <- sine_transform (real_func mfo) s ;; v4 <- sine_transform (real_func g) s ;;
               Ok (fR (c * v1) + fR (c * v2) - fI (c * sg * v3) - fI (c * sg * v4), fI (c * sg * v4))%C) ;;
    (* :507-532 *)
    if t_im_even T then v <- cosine_transform g s ;; Ok (fI (2 * c * v) + snd r)%C
    else if t_re_odd T then v <- sine_transform g s ;; Ok (fR (2 * c * sg * v) + snd r)%C
    else v1 <- cosine_transform (imag_func mfe) s ;; v2 <- cosine_transform (imag_func g) s ;;
         v3 <- sine_transform (imag_func mfo) s ;; v4 <- sine_transform (imag_func g) s ;;
         Ok (fst r + fI (c * v1) + fI (c * v2) + fR (c * sg * v3) + fR (c * sg * v4))%C.
End Fourier.

(** ** The transforms by Gauss-Legendre quadrature between the zeros of the kernel *)
(** shanks on the rows of an array (quadrature.py:1119-1188): a zero divisor in any row ends it for all *)
Fixpoint shanks_rows_loop (fuel : nat) (i n : nat) (ls : list (list R)) : list (list R) :=
  match fuel with
  | O => ls
  | S k => if (i <? n - 2)%nat then
             if existsb (fun l => existsb (fun t => Reqb (denom t) 0) (triples (skipn i l))) ls then ls
             else shanks_rows_loop k (i + 2) n (map (fun l => firstn (i + 2) l ++ map shank (triples (skipn i l))) ls)
           else ls
  end.
(** n is the common length of the rows *)
Definition shanks_rows (n : nat) (ls : list (list R)) (ind : Z) : result (list R) :=
  let z := (if ind <? 0 then Z.of_nat n + ind else ind)%Z in
  mapM get_last (shanks_rows_loop n (Z.to_nat (Z.max z 0)) n ls).
(** zeros[0:-1] and zeros[1:] divided by s (:586-612; hankel.py:327-345) *)
Definition panels (zeros : list R) (s : R) : list (R * R) := map (fun p => (fst p / s, snd p / s)) (pairs zeros).
(** bma * sum(f(bma xk + bpa) wk) for each panel (:614-624) *)
Definition panel_sums (g : R -> R) (xw : list (R * R)) (ps : list (R * R)) : list R :=
  map (fun p => let bma := (snd p - fst p) / 2 in let bpa := (fst p + snd p) / 2 in bma * rsum (map (fun e => g (bma * fst e + bpa) * snd e) xw)) ps.
Definition vtransform (kernel : R -> R -> R) (zeros : list R) (f : R -> R) (si : list R) (ng : Z) (shanks_ind : option Z) : result (list R) :=
  xw <- gauss_legendre ng ;;
  let igral := map (fun s => panel_sums (fun x => f x * kernel s x) xw (panels zeros s)) si in
  match shanks_ind with
  | None => Ok (map rsum igral)                                                          (* :628-629 *)
  | Some i => shanks_rows (length zeros - 1) (map (cumsum 0) igral) i                     (* :632-633 *)
  end.
(** 0, pi/2, 3 pi/2, ... (:586-587) *)
Definition cos_zeros (m : nat) : list R := 0 :: map (fun k => (2 * INR k + 1) * (PI / 2)) (seq 0 m).
(** vcosine_transform :538-633 *)
Definition vcosine_transform (f : R -> R) (si : list R) (m : nat) (ng : Z) (shanks_ind : option Z) : result (list R) :=
  vtransform (fun s x => cos (s * x)) (cos_zeros m) f si ng shanks_ind.
(** v2dcosine_transform :635-764 with shanks_ind=None: the terms of the array in the order of its axes *)
Definition v2dcosine_transform (f : R -> R -> R) (s1 s2 : list R) (m : nat) (ng : Z) : result (list (list R)) :=
  xw <- gauss_legendre ng ;;
  Ok (map (fun s => map (fun t =>
        rsum (map (fun p => let bma := (snd p - fst p) / 2 in let bpa := (fst p + snd p) / 2 in
          rsum (map (fun e => let x := bma * fst e + bpa in
            rsum (map (fun q => let bmb := (snd q - fst q) / 2 in let bpb := (fst q + snd q) / 2 in
              rsum (map (fun h => let y := bmb * fst h + bpb in f x y * cos (s * x) * cos (t * y) * snd e * snd h * bma * bmb) xw)) (panels (cos_zeros m) t))) xw)) (panels (cos_zeros m) s))) s2) s1).

(** ** hankel.py.  scipy's jn (the given order) and jn_zeros (the first m of them) are parameters. *)
Section Hankel.
Variable jn : R -> R.
Variable jn_0 : list R.
Definition jn_0s : list R := 0 :: jn_0.                                                   (* :125-130 *)
(** vhankel_transform :253-366 *)
Definition vhankel_transform (f : R -> R) (ri : list R) (ng : Z) (shanks_ind : option Z) : result (list R) :=
  vtransform (fun r x => jn (r * x) * x) jn_0s f ri ng shanks_ind.

(** np.unique: sorted, without repetition *)
Fixpoint insert_unique (x : R) (l : list R) : list R :=
  match l with
  | [] => [x]
  | y :: t => if Rltb x y then x :: y :: t else if Reqb x y then y :: t else y :: insert_unique x t
  end.
Definition unique (l : list R) : list R := fold_right insert_unique [] l.
(** limits: b is None for np.inf *)
Definition clip (a : R) (b : option R) (x : R) : R :=
  let y := Rmax x a in match b with Some b => Rmin y b | None => y end.                 (* np.clip: minimum(maximum(x, a), b) *)
Definition is_inf (b : option R) : bool := match b with None => true | Some _ => false end.
(** HankelTransform :106-123 *)
Record hankel := mkH { h_func : R -> R; h_points : option (list R); h_ng : Z; h_ng0 : Z; h_shanks : option Z }.
(** :131-141 *)
Definition integrand (H : hankel) (s r : R) : R := h_func H r * r * jn (s * r).
(** the break points :174-183 *)
Definition breaks (H : hankel) (s a : R) (b : option R) : result (list R) :=
  let zeros := map (fun z => z / s) jn_0s in
  zl <- get_last zeros ;;
  let z1 := match h_points H with
            | None => zeros
            | Some ps => unique (zeros ++ filter (fun p => Rltb p zl && Rltb 0 p)%bool ps)
            end in
  Ok (if negb (Reqb a 0) || negb (is_inf b) then unique (map (clip a b) z1) else z1)%bool.
(** x ** 1.5 *)
Definition pow15 (x : R) : R := x * sqrt x.
(** __call__ :143-203: integral and error estimate *)
Definition hcall (H : hankel) (s a : R) (b : option R) : result (R * R) :=
  zs <- breaks H s a b ;;
  z0 <- get zs 0 ;; z1 <- get zs 1 ;;
  q0 <- gk_quad (integrand H s) [z0] [z1] (h_ng0 H) ;;
  i0 <- get (fst q0) 0 ;; e0 <- get (snd q0) 0 ;;
  if Nat.ltb 2 (length zs) then
    qm <- gk_quad (integrand H s) (removelast (tl zs)) (tl (tl zs)) (h_ng H) ;;
    let err := pow15 (200 * Rabs e0) + rsum (map (fun e => pow15 (200 * Rabs e)) (snd qm)) in
    match h_shanks H, b with
    | Some ind, None => sh <- shanks (cumsum 0 (fst qm)) (Some ind) ;; Ok (i0 + snd sh, err)   (* :199-200 *)
    | _, _ => Ok (i0 + rsum (fst qm), err)                                                     (* :197 *)
    end
  else Ok (i0, e0).
End Hankel.

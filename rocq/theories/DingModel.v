(** * Model of /repo/geotecha/beam_on_foundation/dingetal2012.py (DingEtAl2012)

    Exact arithmetic.  Numbers in, no arrays for the parameters.  find_n_roots, np.linalg.solve and odeint
    are parameters.  None in arithmetic is a TypeError.  tslice is all times; not the figure functions. *)
From Coq Require Import Reals List Arith ZArith Bool.
From Coquelicot Require Import Coquelicot.
From Verif Require Import Base.
Import ListNotations.
Local Open Scope R_scope.

Inductive bcs := SS | CC | FF | OtherBC.
(** __init__ :137-177 *)
Record ding_in := mkIn { i_BC : bcs; i_nterms : nat; i_E : option R; i_I : option R; i_rho : option R; i_A : option R; i_L : option R;
  i_k1 : option R; i_k3 : option R; i_mu : option R; i_Fz : option R; i_v : option R;
  i_v_norm : option R; i_kf : option R; i_Fz_norm : option R; i_mu_norm : option R; i_k1_norm : option R; i_k3_norm : option R; i_nquad : option nat }.
(** The object.  o_quad: xj and Ij, absent for nquad=None *)
Record ding := mkD { o_in : ding_in; o_v : R; o_kf : R; o_F : R; o_mu : R; o_k1 : R; o_k3 : R; o_phi : R -> R -> R; o_beta : list R; o_coeff : R; o_quad : option (list R * list R) }.
Definition need (o : option R) : result R := match o with Some x => Ok x | None => Err TypeError end.
Definition sumR (l : list R) : R := fold_right Rplus 0 l.
(** :243-244 *)
Definition phiSS (x beta : R) : R := sin (beta * x).
(** :247-255 *)
Definition xiCC (beta : R) : R := (cosh beta - cos beta) / (sinh beta - sin beta).
Definition phiCC (x beta : R) : R := cosh (beta * x) - cos (beta * x) + xiCC beta * (sin (beta * x) - sinh (beta * x)).
(** :258-267 *)
Definition xiFF (beta : R) : R := - (cos beta - cosh beta) / (sin beta - sinh beta).
Definition phiFF (x beta : R) : R := cos (beta * x) + cosh (beta * x) + xiFF beta * (sin (beta * x) + sinh (beta * x)).
(** :202 *)
Definition points_SS (n : nat) : list R := map (fun j => 1 / 2 * (1 - cos (PI * INR j / (INR n - 1)))) (seq 0 n).
(** x[i] = v, IndexError outside *)
Definition set_at (l : list R) (i : nat) (v : R) : result (list R) := if (i <? length l)%nat then Ok (firstn i l ++ v :: skipn (S i) l) else Err IndexError.
(** x[-k] = v *)
Definition set_back (l : list R) (k : nat) (v : R) : result (list R) := if (k <=? length l)%nat then set_at l (length l - k) v else Err IndexError.
(** :214-218 *)
Definition points_CC (n : nat) : result (list R) :=
  let x := map (fun j => 1 / 2 * (1 - cos (PI * INR j / (INR n - 3)))) (seq 0 n) in
  x1 <- set_at x 0 0 ;; x2 <- set_at x1 1 (1 / 10000) ;; x3 <- set_back x2 2 (1 / 10000) ;; set_back x3 1 0.
(** beta[1:] = beta[0:-1]; beta[0] = 0 (:226-227) *)
Definition shift_in (l : list R) : list R := match l with [] => [] | _ => 0 :: removelast l end.

Section Ding.
Variable find_n_roots : (R -> R) -> nat -> result (list R).
Variable solve : list (list R) -> list R -> result (list R).
Variable odeint : (list R -> R -> result (list R)) -> list R -> list R -> result (list (list R)).
(** :234-238 *)
Definition weights (xj : list R) : result (list R) :=
  let n := length xj in solve (map (fun k => map (fun x => x ^ k) xj) (seq 0 n)) (map (fun k => / (INR k + 1)) (seq 0 n)).
Definition init (i : ding_in) : result ding :=
  kf <- match i_kf i with Some x => Ok x | None => L <- need (i_L i) ;; Im <- need (i_I i) ;; A <- need (i_A i) ;; Ok (1 / L * sqrt (Im / A)) end ;;   (* :180-181 *)
  v <- match i_v_norm i with Some x => Ok x | None => v <- need (i_v i) ;; rho <- need (i_rho i) ;; E <- need (i_E i) ;; Ok (v * sqrt (rho / E)) end ;;  (* :182-183 *)
  F <- match i_Fz_norm i with Some x => Ok x | None => F <- need (i_Fz i) ;; E <- need (i_E i) ;; A <- need (i_A i) ;; Ok (F / (E * A)) end ;;          (* :186-187 *)
  mu <- match i_mu_norm i with Some x => Ok x | None => mu <- need (i_mu i) ;; A <- need (i_A i) ;; L <- need (i_L i) ;; rho <- need (i_rho i) ;; E <- need (i_E i) ;;
        Ok (mu / A * sqrt (L ^ 2 / (rho * E))) end ;;                                                                                              (* :189-190 *)
  k1 <- match i_k1_norm i with Some x => Ok x | None => k <- need (i_k1 i) ;; L <- need (i_L i) ;; E <- need (i_E i) ;; A <- need (i_A i) ;; Ok (k * L ^ 2 / (E * A)) end ;;   (* :191-192 *)
  k3 <- match i_k3_norm i with Some x => Ok x | None => k <- need (i_k3 i) ;; L <- need (i_L i) ;; E <- need (i_E i) ;; A <- need (i_A i) ;; Ok (k * L ^ 4 / (E * A)) end ;;   (* :193-194 *)
  r <- match i_BC i with
       | SS => Ok (phiSS, map (fun k => PI * (INR k + 1)) (seq 0 (i_nterms i)), option_map (fun n => Ok (points_SS n)) (i_nquad i), 2)                (* :197-204 *)
       | OtherBC => Err ValueError                                                                                                                (* :229-230 *)
       | bc => beta <- find_n_roots (fun b => 1 - cos b * cosh b) (i_nterms i) ;;                                                                   (* :206-211 *)
               Ok (match bc with FF => phiFF | _ => phiCC end, match bc with FF => shift_in beta | _ => beta end, option_map points_CC (i_nquad i), 1)
       end ;;
  let '(phi, beta, xs, c) := r in
  q <- match xs with
       | None => Ok None
       | Some rx => xj <- rx ;; Ij <- weights xj ;; Ok (Some (xj, Ij))
       end ;;
  Ok (mkD i v kf F mu k1 k3 phi beta c q).
(** w :270-286 *)
Definition w (o : ding) (qk : list R) (x : R) : R := sumR (map (fun p => fst p * o_phi o x (snd p)) (combine qk (o_beta o))).
(** vectorfield :289-334 *)
Definition vectorfield (o : ding) (vsv : list R) (tnow : R) : result (list R) :=
  let n := i_nterms (o_in o) in let q := firstn n vsv in let qd := skipn n vsv in
  match o_quad o, n with
  | _, O => Ok []
  | None, _ => Err AttributeError                                                          (* :322-324 uses self.xj whatever nquad is *)
  | Some (xj, Ij), _ =>
      let Fj := map (fun x => w o q x ^ 3) xj in
      Ok (qd ++ map (fun i => - o_mu o * nth i qd 0 - (o_k1 o + o_kf o ^ 2 * nth i (o_beta o) 0 ^ 4) * nth i q 0
                              + o_coeff o * o_F o * o_phi o (o_v o * tnow) (nth i (o_beta o) 0)
                              - o_coeff o * o_k3 o * sumR (map (fun p => fst (fst p) * snd (fst p) * o_phi o (snd p) (nth i (o_beta o) 0)) (combine (combine Ij Fj) xj))) (seq 0 n))
  end.
(** calulate_qk :343-375: t_norm and the solution *)
Definition times (o : ding) (t : option (list R)) (t_norm : option (list R)) : result (list R) :=
  match t_norm, t with
  | Some l, _ => Ok l
  | None, Some l => L <- need (i_L (o_in o)) ;; E <- need (i_E (o_in o)) ;; rho <- need (i_rho (o_in o)) ;; Ok (map (fun x => x / L * sqrt (E / rho)) l)
  | None, None => Err TypeError
  end.
Definition calulate_qk (o : ding) (t t_norm : option (list R)) : result (list R * list (list R)) :=
  tn <- times o t t_norm ;;
  qsol <- odeint (vectorfield o) (repeat 0 (2 * i_nterms (o_in o))) tn ;;
  Ok (tn, qsol).
(** wofx :378-421; the rows for the given x (one row alone is returned without the outer array) *)
Inductive rows := Row (l : list R) | Rows (l : list (list R)).
Definition wofx (o : ding) (qsol : list (list R)) (x x_norm : option (list R)) (normalise_w : option bool) : result rows :=
  xn <- match x_norm, x with
        | Some l, _ => Ok l
        | None, Some l => L <- need (i_L (o_in o)) ;; Ok (map (fun y => y / L) l)
        | None, None => Err TypeError
        end ;;
  let v := map (fun xx => map (fun qq => w o (firstn (i_nterms (o_in o)) qq) xx) qsol) xn in
  v2 <- match normalise_w with
        | Some _ => L <- need (i_L (o_in o)) ;; Ok (map (map (fun y => y * L)) v)           (* :415-416 *)
        | None => Ok v
        end ;;
  Ok (match v2 with [r] => Row r | _ => Rows v2 end).
End Ding.

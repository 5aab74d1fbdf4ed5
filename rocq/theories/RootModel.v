(** * Model of /repo/geotecha/mathematics/root_finding.py, over the reals.

    scipy.optimize.fsolve is a parameter: any function from the starting guess to a number (the
    function may be arbitrary, so nothing is assumed about its answers).  Debug printing is left out.
    The while loop is run with fuel; [None] means that it has not finished within the fuel. *)
From Coq Require Import Reals List Bool ZArith.
From Verif Require Import Base.
Import ListNotations.
Open Scope R_scope.

(** np.allclose(a, b, atol=atol, rtol=rtol) for scalars *)
Definition allclose (atol rtol a b : R) : bool := Rleb (Rabs (a - b)) (atol + rtol * Rabs b).

Section FindRoots.
Variables (func fsolve : R -> R) (n : nat) (p : R) (max_iter : Z) (atol rtol : R).

(** The local variables of the loop: roots[:root_number], iter_count, iter_same ([None]: not yet
    assigned), x00, x0, y0, dx (dx0 is never read). *)
Record st := mkSt { rts : list R; ic : Z; same : option Z; x00 : R; sx : R; sy : R; sdx : R }.
Inductive outcome := Done (r : result (list R)) | Next (s : st).

(** np.allclose(xr, roots[root_number-1]) is asked only when root_number == 0: roots[-1] is then the
    last entry of the array of zeros *)
Definition zero_entry : R := 0.

(** one evaluation of the loop condition and, if it holds, of the body :121-220 *)
Definition step (s : st) : outcome :=
  if (n <=? length (rts s))%nat then Done (Ok (rts s))                            (* :121, :223 *)
  else if (max_iter <? ic s)%Z then Done (Err ValueError)                         (* :122-136 *)
  else
    let iter_count := (ic s + 1)%Z in                                             (* :137 *)
    let x1 := sx s + sdx s in let y1 := func x1 in                                (* :138-139 *)
    if Rleb (sy s * y1) 0 then                                                    (* :143 *)
      if (iter_count <? 5)%Z then                                                 (* :147-158 *)
        Next (mkSt (rts s) 0 (same s) (x00 s) (x00 s) (func (x00 s)) (sdx s * 0.2))
      else
        let found (dx xguess : R) : outcome :=
          let xr := fsolve xguess in                                              (* :165 *)
          let again := match length (rts s) with                                  (* :167-190 *)
                       | O => if allclose atol rtol xr zero_entry then
                                Some (match same s with
                                      | None => Done (Err UnboundLocalError)
                                      | Some k => if (5 <? k + 1)%Z then Done (Err ValueError)
                                                  else Next (mkSt (rts s) (iter_count - 2) (Some (k + 1)%Z) (x00 s) (sx s) (sy s) (dx * 0.2))
                                      end)
                              else None
                       | _ => None
                       end in
          match again with
          | Some o => o
          | None =>
              let dx := dx * 0.5 in                                               (* :197 *)
              let x1 := if allclose atol rtol xr x1 then x1 else xr + (x1 - xr) * 0.1 in    (* :200-202 *)
              let y1 := func x1 in
              Next (mkSt (rts s ++ [xr]) 0 (Some 0%Z) x1 x1 y1 (dx * p))          (* :194-220 *)
          end in
        match length (rts s) with
        | O => if Reqb p 0 then Done (Err ZeroDivisionError) else found (sdx s / p) (sx s)   (* :159-161 *)
        | _ => if Reqb (y1 - sy s) 0 then Done (Err ZeroDivisionError)            (* :163 *)
               else found (sdx s) (sx s - sy s * (x1 - sx s) / (y1 - sy s))
        end
    else Next (mkSt (rts s) iter_count (same s) (x00 s) x1 y1 (sdx s * p)).       (* :217-220 *)

Fixpoint run (fuel : nat) (s : st) : option (result (list R)) :=
  match fuel with
  | O => None
  | S k => match step s with Done r => Some r | Next s' => run k s' end
  end.

(** find_n_roots :26-223 *)
Definition find_n_roots (fuel : nat) (x0 dx : R) : option (result (list R)) :=
  run fuel (mkSt [] 0 None x0 x0 (func x0) dx).
End FindRoots.

(** fixed_point_no_accel :226-312, scalar x0 (the branch :293-312).  p is unbound if maxiter is 0. *)
Definition fp_relerr (p0 p : R) : R := if Reqb p0 0 then p else (p - p0) / p0.
Fixpoint fixed_point_loop (func : R -> R) (xtol : R) (k : nat) (bound : bool) (p0 : R) : result R :=
  match k with
  | O => if bound then Err RuntimeError else Err UnboundLocalError
  | S k' => let p := func p0 in
            if Rltb (Rabs (fp_relerr p0 p)) xtol then Ok p else fixed_point_loop func xtol k' true p
  end.
Definition fixed_point_no_accel (func : R -> R) (x0 xtol : R) (maxiter : nat) : result R :=
  fixed_point_loop func xtol maxiter false x0.
(** vector x0 (the branch :280-292), func acting on the whole array *)
Fixpoint fixed_point_vloop (func : list R -> list R) (xtol : R) (k : nat) (bound : bool) (p0 : list R) : result (list R) :=
  match k with
  | O => if bound then Err RuntimeError else Err UnboundLocalError
  | S k' => let p := func p0 in
            if (length p =? length p0)%nat then
              if forallb (fun e => Rltb (Rabs (fp_relerr (fst e) (snd e))) xtol) (combine p0 p) then Ok p
              else fixed_point_vloop func xtol k' true p
            else Err ValueError
  end.
Definition fixed_point_vec (func : list R -> list R) (x0 : list R) (xtol : R) (maxiter : nat) : result (list R) :=
  fixed_point_vloop func xtol maxiter false x0.

(** * Model of /repo/geotecha/consolidation/cosenzaandkorosak2014.py (not plotting), over real and complex numbers.

    cpow s v stands for numpy's s**v with a complex s. *)
From Coq Require Import Reals List Arith Bool.
From Coquelicot Require Import Complex.
From Verif Require Import Base LaplaceModel TerzaghiModel.
Import ListNotations.
Open Scope R_scope.

Section Cosenza.
Variable cpow : C -> R -> C.
(** :145-152 *)
Definition co_F (v theta : list R) (lam : R) (s : C) : C :=
  let vt := combine v theta in
  let numer := fold_left (fun a p => a + RtoC (snd p) * cpow s (fst p - 1))%C vt (RtoC 1) in
  let denom := fold_left (fun a p => a + RtoC (snd p) * cpow s (fst p))%C vt (s + RtoC lam)%C in
  (numer / denom)%C.
Definition co_M (k : nat) : R := (2 * INR k + 1) * PI.                    (* :171 *)
(** the values of a call; a single number is spread over the column of Bn *)
Definition spread (a : answer) : list R := match a with Number x => [x] | Array l => l end.
(** :184-188: Bn, column by column *)
Definition co_Bn (v theta tpor : list R) (nterms : nat) : result (list (list R)) :=
  mapM (fun k => a <- call (Talbot (co_F v theta (co_M k)) 24 0 true) tpor ;; Ok (spread a)) (seq 0 nterms).
Definition row (B : list (list R)) (j : nat) : list R := map (fun c => nth j c 0) B.
(** :73-210: (por, doc).  tpor is replaced by t (:165-168), so that Bn serves for doc as well (:190, :200); dTv and
    lamda_n (:175-176) are not used. *)
Definition cosenzaandkorosak2014 (z t theta v : list R) (tpor : option (list R)) (L kv mv gamw ui : R) (nterms : nat) : result (list (list R) * list R) :=
  let tpor := match tpor with None => t | Some _ => t end in
  let Z := map (fun x => x / L) z in                                      (* :178 *)
  B <- co_Bn v theta tpor nterms ;;
  let por := map (fun Zi => map (fun j => np_sum (map (fun p => 2 / co_M (fst p) * sin (co_M (fst p) * Zi) * snd p) (combine (seq 0 nterms) (row B j))) * ui)
               (seq 0 (length tpor))) Z in                                (* :193-196 *)
  let doc := map (fun j => 1 - np_sum (map (fun p => 2 * 2^2 / (co_M (fst p))^2 * snd p) (combine (seq 0 nterms) (row B j)))) (seq 0 (length t)) in (* :199-207 *)
  Ok (por, doc).
End Cosenza.

(** * Model of /repo/geotecha/consolidation/zhuandyin2012.py, over the reals.

    scipy.special.jv, scipy.special.yv and scipy.optimize.fsolve are parameters.  alpha, p, q, H, kv0,
    mv0, gamw, ui are python numbers; x**y is modelled by exp (y ln x), which is right for x > 0 only.
    The plot of the characteristic curve (plot_eigs) and the printed 'got here' are left out. *)
From Coq Require Import Reals List Arith ZArith Bool.
From Verif Require Import Base RootModel.
Import ListNotations.
Open Scope R_scope.

(** The arguments (:38-39) other than z, t, tpor. *)
Record zhu := mkZhu { a_alpha : R; a_p : R; a_q : R; a_drn : Z; a_H : R; a_kv0 : R; a_mv0 : R; a_gamw : R;
  a_ui : R; a_nterms : nat }.
Definition pown (x y : R) : R := Rpower x y.

Section Zhu.
Variables (J Y : R -> R -> R) (fsolve : R -> R) (A : zhu).
Let alpha := a_alpha A. Let p := a_p A. Let q := a_q A. Let H := a_H A.
Let kv0 := a_kv0 A. Let mv0 := a_mv0 A. Let gamw := a_gamw A. Let ui := a_ui A.

Definition zn : R := p - q.                                           (* :156 *)
Definition zb : R := pown (1 + alpha) (1 - zn / 2).                   (* :157 *)
Definition znu : R := Rabs ((1 - p) / (2 - zn)).                      (* :159 *)
(** :125-129 *)
Definition Zmu (eta mu nu b : R) : R := Y nu eta * J mu (eta * b) - J nu eta * Y mu (eta * b).
(** :131-137 *)
Definition Zmu_ (eta mu nu b : R) : R :=
  (J (mu - 1) (eta * b) / 2 - J (mu + 1) (eta * b) / 2) * Y nu eta -
  (Y (mu - 1) (eta * b) / 2 - Y (mu + 1) (eta * b) / 2) * J nu eta.
(** :140-142 *)
Definition drn1root (eta mu nu b p n : R) : R := (1 - p) / (2 - n) * Zmu eta nu nu b + eta * b * Zmu_ eta nu nu b.
(** :169-170, :184-185: the function whose zeros are searched *)
Definition char_fn (eta : R) : R :=
  if Z.eqb (a_drn A) 0 then Zmu eta znu znu zb else drn1root eta znu znu zb p zn.

(** :224, :257: np.allclose(-nu, (p - 1) / (2 - n)) *)
Definition plain_case : bool := allclose (/ 10^8) (/ 10^5) (- znu) ((p - 1) / (2 - zn)).
(** :222-238 *)
Definition Cm_por (eta : R) : R :=
  if Z.eqb (a_drn A) 0 then
    if plain_case then
      2 * PI * (2 + PI * eta * pown zb (1 - znu) * Zmu eta (znu - 1) znu zb) / (4 - (zb * PI * eta * Zmu eta (1 + znu) znu zb)^2)
    else
      2 * PI * (2 - PI * eta * pown zb (1 + znu) * Zmu eta (1 + znu) znu zb) / (4 - (zb * PI * eta * Zmu eta (1 + znu) znu zb)^2)
  else 4 * PI / (4 - (zb * PI * eta * Zmu eta znu znu zb)^2).
(** :255-273 *)
Definition Cm_doc (eta : R) : R :=
  if Z.eqb (a_drn A) 0 then
    if plain_case then
      (2 + PI * eta * pown zb (1 - znu) * Zmu eta (znu - 1) znu zb)^2 / (eta^2 * ((zb * PI * eta * Zmu eta (1 + znu) znu zb)^2 - 4))
    else
      (2 - PI * eta * pown zb (1 + znu) * Zmu eta (1 + znu) znu zb)^2 / (eta^2 * ((zb * PI * eta * Zmu eta (1 + znu) znu zb)^2 - 4))
  else 1 / (eta^2 * ((zb * PI * eta * Zmu eta znu znu zb)^2 - 4)).

(** :204-205 *)
Definition dTv (eta0 : R) : R := let cv0 := kv0 / (mv0 * gamw) in cv0 * (2 - zn)^2 * alpha^2 * eta0^2 / (PI^2 * H^2).
(** :208 *)
Definition zy (z : R) : R := pown (1 + alpha * z / H) (1 - zn / 2).
(** :212-214, :250-253 *)
Definition Tm (eta0 eta t : R) : R := exp (- PI^2 * eta^2 / (4 * eta0^2) * (dTv eta0 * t)).
(** np.sum *)
Definition np_sum (l : list R) : R := fold_right Rplus 0 l.
(** :220, :240-242: one pore pressure *)
Definition por1 (eta0 : R) (etas : list R) (z t : R) : R :=
  np_sum (map (fun eta => Cm_por eta * Zmu eta znu znu (zy z) * Tm eta0 eta t * (ui * pown (zy z) ((1 - p) / (2 - zn)))) etas).
(** :275-290: one degree of consolidation *)
Definition doc_factor : R := (if Z.eqb (a_drn A) 0 then 4 * (1 + q) else 16 * (1 + q)) / ((2 - zn) * (pown (1 + alpha) (1 + q) - 1)).
Definition doc1 (eta0 : R) (etas : list R) (t : R) : R :=
  np_sum (map (fun eta => Cm_doc eta * Tm eta0 eta t) etas) * - doc_factor + 1.
(** :292 *)
Definition settle1 (eta0 : R) (etas : list R) (t : R) : R :=
  doc1 eta0 etas t * ui * mv0 * (pown (1 + alpha) (1 + q) - 1) / (1 + q) * H / alpha.

(** zhuandyin2012 :38-295: (por, doc, settle). *)
Definition zhuandyin2012 (fuel : nat) (z t : list R) (tpor : option (list R)) :
    option (result (list (list R) * list R * list R)) :=
  let tpor := match tpor with None => t | Some l => l end in          (* :150-153 *)
  if Reqb (2 - zn) 0 then Some (Err ZeroDivisionError)                (* :159 *)
  else if negb (Z.eqb (a_drn A) 0 || Z.eqb (a_drn A) 1)%bool then Some (Err UnboundLocalError)   (* :199 *)
  else match find_n_roots char_fn fsolve (a_nterms A) (101 / 100) 2000 (/ 10^8) (/ 10^5) fuel (/ 1000) (/ 1000) with
  | None => None
  | Some (Err e) => Some (Err e)
  | Some (Ok etam) => Some (
      eta0 <- get etam 0 ;;                                           (* :199 *)
      if Reqb (mv0 * gamw) 0 then Err ZeroDivisionError else          (* :204 *)
      let por := map (fun zi => map (fun ti => por1 eta0 etam zi ti) tpor) z in
      if Reqb ((2 - zn) * (pown (1 + alpha) (1 + q) - 1)) 0 then Err ZeroDivisionError else   (* :288 *)
      let doc := map (doc1 eta0 etam) t in
      let settle := map (settle1 eta0 etam) t in
      Ok (por, doc, settle))
  end.
End Zhu.

(** * Model of /repo/geotecha/consolidation/shanetal2012.py, over the reals.

    z and t are one-dimensional arrays (:300, :303 index them with None: a float or a list, which the
    documentation allows, raises).  A division by zero of arrays gives inf or nan, not an exception, and is not modelled.
    numpy.linalg.eig is a parameter that gives real eigenvalues and eigenvectors. *)
From Coq Require Import Reals List Arith ZArith Bool String.
From Verif Require Import Base TerzaghiModel.
Import ListNotations.
Open Scope R_scope.

(** numpy.linalg.LinAlgError: singular matrix *)
Definition LinAlgError : exn := UserError 2.

(** two by two matrices, pairs *)
Record m22 := M22 { m11 : R; m12 : R; m21 : R; m22_ : R }.
Definition apply2 (A : m22) (x : R * R) : R * R :=
  (m11 A * fst x + m12 A * snd x, m21 A * fst x + m22_ A * snd x).
Definition dot2 (A B : m22) : m22 :=
  M22 (m11 A * m11 B + m12 A * m21 B) (m11 A * m12 B + m12 A * m22_ B)
      (m21 A * m11 B + m22_ A * m21 B) (m21 A * m12 B + m22_ A * m22_ B).
Definition det2 (A : m22) : R := m11 A * m22_ A - m12 A * m21 A.
(** numpy.linalg.inv *)
Definition inv2 (A : m22) : result m22 :=
  if Reqb (det2 A) 0 then Err LinAlgError
  else Ok (M22 (m22_ A / det2 A) (- m12 A / det2 A) (- m21 A / det2 A) (m11 A / det2 A)).
Definition add2 (x y : R * R) : R * R := (fst x + fst y, snd x + snd y).
Definition scal2 (c : R) (x : R * R) : R * R := (c * fst x, c * snd x).

(** The dictionary of a load: the keys 'type', 'q0', 'b', 'omega' (other keys are not looked at). *)
Record load_dict := mkDict { d_type : option string; d_q0 : option R; d_b : option R; d_omega : option R }.
Inductive load := LExp (q0 b : R) | LSin (q0 omega : R).
(** :233-247, with the look-ups of :321, :328 and their like *)
Definition check_load (d : option load_dict) : result (option load) :=
  match d with
  | None => Ok None
  | Some d => match d_type d with
    | None => Err KeyError                                               (* :239 ff['type'] *)
    | Some ty =>
      if String.eqb ty "exp" then match d_q0 d, d_b d with Some q, Some b => Ok (Some (LExp q b)) | _, _ => Err ValueError end
      else if String.eqb ty "sin" then match d_q0 d, d_omega d with Some q, Some w => Ok (Some (LSin q w)) | _, _ => Err ValueError end
      else Err ValueError
    end
  end.

(** The arguments (:119-121) apart from z, t and the loads. *)
Record shan := mkShan { s_H : R; s_Cw : R; s_Cvw : R; s_Ca : R; s_Cva : R; s_drn : Z; s_Csw : R; s_Csa : R;
  s_uwi : R * R; s_uai : R * R; s_nterms : nat }.

(** :212-220 *)
Definition E_exp_load_dt (q0 b t M eigs : R) : R := - (b * q0 * (exp (- b * t) - exp (eigs * M^2 * t))) / (b + eigs * M^2).
Definition E_sin_load_dt (q0 omega t M eigs : R) : R :=
  (omega * q0 * (- eigs * M^2 * cos (omega * t) + eigs * M^2 * exp (eigs * M^2 * t) + omega * sin (omega * t))) / (eigs^2 * M^4 + omega^2).
(** :320-333 and its like: the entry of E *)
Definition E_load (l : load) (t M eigs : R) : R :=
  match l with LExp q0 b => E_exp_load_dt q0 b t M eigs | LSin q0 w => E_sin_load_dt q0 w t M eigs end.
(** :359, :362, :372, :374: the load itself *)
Definition l_value (l : load) (t : R) : R :=
  match l with LExp q0 b => q0 * (1 - exp (- b * t)) | LSin q0 w => q0 * sin (w * t) end.

Section Shan.
Variable eig : m22 -> (R * R) * m22.
Variable P : shan.
Notation H := (s_H P).
(** :259-262; drn is 0 or 1 *)
Definition s_M (k : nat) : R := if Z.eqb (s_drn P) 1 then (2 * INR k + 1) / 2 * PI else INR (k + 1) * PI.
Definition Cmat : m22 := M22 1 (s_Cw P) (s_Ca P) 1.                      (* :250 *)
Definition Kmat : m22 := M22 (s_Cvw P) 0 0 (s_Cva P).                    (* :251 *)
(** :284-287 *)
Definition g_coef (ui : R * R) (k : nat) : R :=
  let M := s_M k in
  2 / H * (- H * snd ui * cos M / M + H * fst ui / M + H * snd ui * sin M / M^2 - H * fst ui * sin M / M^2).
(** einsum('lp,ijkp', v, E * einsum('lp,ijkp', Iv, X)) *)
Definition response (eigs : R * R) (v Iv : m22) (E : R -> R) (X : R * R) : R * R :=
  let a := apply2 Iv X in apply2 v (E (fst eigs) * fst a, E (snd eigs) * snd a).
(** np.sum(S * ..., axis=2), with :303 *)
Definition sum_S (X : nat -> R * R) (z : R) : R * R :=
  let s (p : R * R -> R) := np_sum (map (fun k => sin (s_M k * z / H) * p (X k)) (seq 0 (s_nterms P))) in (s fst, s snd).
(** :345-347, :426-428 *)
Definition igral_top (k : nat) : R := let M := s_M k in
  if Z.eqb (s_drn P) 0 then 2 * (M - sin M) / M^2 else 2 * (1 - cos M) / M.
Definition igral_bot (k : nat) : R := let M := s_M k in
  if Z.eqb (s_drn P) 0 then 2 * (sin M - M * cos M) / M^2 else 2 * H * (sin M - M * cos M) / M^2.
Definition lift_top (z : R) : R := if Z.eqb (s_drn P) 0 then 1 - z / H else 1.
Definition lift_bot (z : R) : R := if Z.eqb (s_drn P) 0 then z / H else z.

Section Cell.
Variables (eigs : R * R) (v Iv IC : m22) (z t : R).
(** :289-306 *)
Definition initial_part : R * R :=
  sum_S (fun k => response eigs v Iv (fun e => exp ((s_M k)^2 / H^2 * e * t)) (g_coef (s_uwi P) k, g_coef (s_uai P) k)) z.
(** :312-336 and its like *)
Definition load_part (l : load) (igral : nat -> R) (Csig : R * R) : R * R :=
  sum_S (fun k => response eigs v Iv (E_load l t (s_M k / H)) (scal2 (igral k) (apply2 IC Csig))) z.
Definition with_load (l : option load) (f : load -> R * R) (u : R * R) : R * R :=
  match l with None => u | Some l => add2 u (f l) end.
(** :306-498 *)
Definition cell (f f1 f2 f3 f4 : option load) : R * R :=
  let u := initial_part in
  let u := with_load f (fun l => load_part l (fun k => 2 * (1 - cos (s_M k)) / s_M k) (s_Csw P, s_Csa P)) u in       (* :311-336 *)
  let u := with_load f1 (fun l => add2 (l_value l t * lift_top z, 0) (load_part l igral_top (-1, - s_Ca P))) u in    (* :340-376 *)
  let u := with_load f2 (fun l => add2 (0, l_value l t * lift_top z) (load_part l igral_top (- s_Cw P, -1))) u in    (* :380-416 *)
  let u := with_load f3 (fun l => add2 (l_value l t * lift_bot z, 0) (load_part l igral_bot (-1, - s_Ca P))) u in    (* :421-457 *)
  let u := with_load f4 (fun l => add2 (0, l_value l t * lift_bot z) (load_part l igral_bot (- s_Cw P, -1))) u in    (* :461-498 *)
  u.
End Cell.

(** :119-503 *)
Definition shanetal2012 (z t : list R) (f f1 f2 f3 f4 : option load_dict) : result (list (list R) * list (list R)) :=
  f <- check_load f ;; f1 <- check_load f1 ;; f2 <- check_load f2 ;; f3 <- check_load f3 ;; f4 <- check_load f4 ;;
  IC <- inv2 Cmat ;;                                                     (* :264 *)
  let (eigs, v) := eig (dot2 IC Kmat) in                                 (* :265-268 *)
  if negb (Z.eqb (s_drn P) 0 || Z.eqb (s_drn P) 1) then Err UnboundLocalError   (* :284: M *)
  else
  Iv <- inv2 v ;;                                                        (* :294 *)
  let u zi ti := cell eigs v Iv IC zi ti f f1 f2 f3 f4 in
  Ok (map (fun zi => map (fun ti => fst (u zi ti)) t) z, map (fun zi => map (fun ti => snd (u zi ti)) t) z).  (* :501-503 *)
End Shan.

(** * Model of SpecBeam with use_analytical=True, /repo/geotecha/beam_on_foundation/specbeam.py:908-1143, and of
    dim1sin_E_Igamv_the_mvpl and dim1sin_E_Igamv_the_deltamag_linear, /repo/geotecha/speccon/speccon1d.py:2165-2286, 1510-1653

    Exact arithmetic.  inv and cinv: numpy.linalg.inv of a real and of a complex matrix; eig: numpy.linalg.eig, whose result is
    complex (real eigenvalues are those with imaginary part 0).  cos_E: pEload_coslinear with complex eigenvalues, left open (its
    vectorized code cannot store complex numbers).  All vehicles are converted before the first integral. *)
From Coq Require Import Reals List Arith Bool.
From Coquelicot Require Import Coquelicot.
From Verif Require Import Base PolyLineModel SpectralModel LoadModel BeamModel DingModel LoadComplexModel SpecBeamModel.
Import ListNotations.
Local Open Scope R_scope.

Definition table {A} (n m : nat) (f : nat -> nat -> A) : list (list A) := map (fun i => map (f i) (seq 0 m)) (seq 0 n).
Definition rat (A : list (list R)) (i j : nat) : R := nth j (nth i A []) 0.
Definition cat (A : list (list C)) (i j : nat) : C := nth j (nth i A []) (RtoC 0).
Definition isum (l : list nat) (f : nat -> C) : C := sumC (map f l).
(** np.dot of real matrices, of a real and a complex one, of complex ones; n rows, m terms, p columns *)
Definition mdot (n m p : nat) (A B : list (list R)) : list (list R) := table n p (fun i j => sumR (map (fun k => rat A i k * rat B k j) (seq 0 m))).
Definition rcdot (n m p : nat) (A : list (list R)) (B : list (list C)) : list (list C) := table n p (fun i j => isum (seq 0 m) (fun k => Cmult (RtoC (rat A i k)) (cat B k j))).
Definition cdot (n m p : nat) (A B : list (list C)) : list (list C) := table n p (fun i j => isum (seq 0 m) (fun k => Cmult (cat A i k) (cat B k j))).

Section Modal.
Variable inv : list (list R) -> result (list (list R)).
Variable cinv : list (list C) -> result (list (list C)).
Variable eig : list (list R) -> result (list C * list (list C)).
Variable cos_E : impl -> list R -> list R -> R -> R -> list C -> list R -> result (list (list C)).

(** _make_gam :949-978 *)
Definition make_gam (n : nat) (lam : list (list R)) : list (list R) :=
  table (2 * n) (2 * n) (fun i j => if (i <? n)%nat then (if (i =? j)%nat then 1 else 0) else if (j <? n)%nat then 0 else rat lam (i - n) (j - n)).
(** psi_q *= -1, psi_qdot *= -1 :922-923 and _make_psi :980-994 *)
Definition make_psi (n : nat) (pq pqd : list (list R)) : list (list R) :=
  table (2 * n) (2 * n) (fun i j => if (i <? n)%nat then (if (j <? n)%nat then 0 else if (i =? j - n)%nat then -1 else 0)
    else if (j <? n)%nat then rat pq (i - n) j * -1 else rat pqd (i - n) (j - n) * -1).
(** _make_eigs_and_v :996-1022: eigs, v, Igamv *)
Definition eigs_and_v (n : nat) (M : mats) : result (list C * list (list C) * list (list C)) :=
  let gam := make_gam n (lam_qdotdot M) in
  ig <- inv gam ;;
  ev <- eig (mdot (2 * n) (2 * n) (2 * n) ig (make_psi n (psi_q M) (psi_qdot M))) ;;
  Igamv <- cinv (rcdot (2 * n) (2 * n) (2 * n) gam (snd ev)) ;;
  Ok (fst ev, snd ev, Igamv).
(** every axle: load against time, omega, phase; speccon1d.py:2242-2246 *)
Definition axle_loads (l : list mpl) : result (list ((list R * list R) * (R * R))) :=
  r <- mapM (fun v => lo <- convert_to_specbeam v None None None None ;; Ok (combine (fst lo) (snd lo))) l ;; Ok (concat r).
(** speccon1d.py:2165-2286 with theta_zero_indexes=slice(None, n): rows i < n of beta_block are left out, the others are beta_(i-n) *)
Definition E_Igamv_the_mvpl (im : impl) (n : nat) (beta : list R) (eigs : list C) (tvals : list R) (Igamv : list (list C)) (l : list mpl) : result (list (list C)) :=
  q <- axle_loads l ;;
  E <- mapM (fun i => mapM (fun a => CEload_sinlinear im (fst (fst a)) (snd (fst a)) (fst (snd a) * nth i beta 0) (snd (snd a) * nth i beta 0) eigs tvals 1) q) (seq 0 n) ;;
  Ok (table (2 * n) (length tvals) (fun e t => isum (seq 0 n) (fun i => Cmult (sumC (map (fun A => cat A t e) (nth i E []))) (cat Igamv e (n + i))))).
(** speccon1d.py:1510-1653 with pseudo_k all 1, dT=1, theta_zero_indexes=slice(None, n) *)
Definition E_Igamv_the_stationary (im : impl) (n : nat) (beta : list R) (eigs : list C) (tvals : list R) (Igamv : list (list C))
  (st : list R * list points * list (option (R * R))) : result (list (list C)) :=
  let '(xs, Ps, ops) := st in
  E <- mapM (fun q => let '(x, P, op) := q in
         A <- match op with
              | Some (om, ph) => cos_E im (px P) (py P) om ph eigs tvals
              | None => CEload_linear im (px P) (py P) eigs tvals 1
              end ;; Ok (x, A)) (combine (combine xs Ps) ops) ;;
  Ok (table (2 * n) (length tvals) (fun e t => sumC (map (fun q => Cmult (cat (snd q) t e)
        (isum (seq 0 n) (fun i => Cmult (cat Igamv e (n + i)) (RtoC (sin (fst q * nth i beta 0)))))) E))).
(** make_E_Igamv_the :1042-1069 *)
Definition E_Igamv_the (o : sb) (eigs : list C) (Igamv : list (list C)) : result (list (list C)) :=
  let n := b_nterms (s_in o) in let im := b_impl (s_in o) in
  A <- match s_moving o with None => Ok [] | Some l => E_Igamv_the_mvpl im n (s_beta o) eigs (s_t o) Igamv l end ;;
  B <- match s_stat o with None => Ok [] | Some st => E_Igamv_the_stationary im n (s_beta o) eigs (s_t o) Igamv st end ;;
  Ok (table (2 * n) (length (s_t o)) (fun e t => Cplus (cat A e t) (cat B e t))).
(** runme :913-936 up to v_E_Igamv_the :1038 *)
Definition v_E_Igamv_the (o : sb) : result (list (list C)) :=
  let n := b_nterms (s_in o) in
  M <- time_independant_matrices o ;;
  ev <- eigs_and_v n M ;;
  let '(eigs, v, Igamv) := ev in
  E <- E_Igamv_the o eigs Igamv ;;
  Ok (cdot (2 * n) (2 * n) (length (s_t o)) v E).
(** dim1sin_f, speccon1d.py:155-156, of the first n rows; _make_defl :1119-1135: defl_norm before its imaginary part is dropped, and after *)
Definition complex_defl (o : sb) (vE : list (list C)) : list (list C) :=
  map (fun x => map (fun t => isum (seq 0 (b_nterms (s_in o))) (fun k => Cmult (RtoC (sin (nth k (s_beta o) 0 * x))) (cat vE k t))) (seq 0 (length (s_t o)))) (s_x o).
Definition small_imag (A : list (list C)) : bool := forallb (forallb (fun z => Rleb (Rabs (snd z)) (1 / 10 ^ 12))) A.
Definition make_defl (o : sb) (vE : list (list C)) : result (list (list R)) :=
  let d := complex_defl o vE in if small_imag d then Ok (map (map fst) d) else Err ValueError.
(** runme :908-946 with use_analytical: defl_norm and defl *)
Definition runme_analytical (o : sb) (disk earlier : option (list (list R))) : result (list (list R) * option (list (list R))) :=
  d <- match b_force (s_in o), earlier, disk with
       | false, Some d, _ => Ok d
       | false, None, Some d => Ok d
       | _, _, _ => vE <- v_E_Igamv_the o ;; make_defl o vE
       end ;;
  Ok (d, match b_L (s_in o) with Some L => Some (map (map (fun y => y * L)) d) | None => None end).
End Modal.

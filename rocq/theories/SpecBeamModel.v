(** * Model of /repo/geotecha/beam_on_foundation/specbeam.py, class SpecBeam: constructor, equations for odeint, output

    Exact arithmetic.  np.linalg.solve and odeint are parameters.  Vehicles are those of BeamModel, profile integrals those of
    WrapModel, interpolation that of PiecewiseModel.  A missing scalar that is needed is a TypeError even where the list it would
    scale is empty.  The quadrature points and weights (:620, :660-664) are those of DingEtAl2012 (:202, :234-238 there). *)
From Coq Require Import Reals List Arith ZArith Bool.
From Coquelicot Require Import Coquelicot.
From Verif Require Import Base PiecewiseModel PolyLineModel SpectralModel WrapModel BeamModel DingModel.
Import ListNotations.
Local Open Scope R_scope.

(** the order of the constructor's arguments :314-372 *)
Record sb_in := mkB { b_BC : bcs; b_nterms : nat; b_E : option R; b_I : option R; b_rho : option R; b_A : option R; b_L : option R;
  b_k1 : option R; b_k3 : option R; b_mu : option R;
  (* moving_loads_x, Fz, v, offset, t0, x0, L *)
  b_mx : option (list (list R)); b_mF : option (list (list R)); b_mv : option (list R); b_moff : option (list R); b_mt0 : option (list R); b_mx0 : option (list R); b_mL : option (list R);
  b_tvals : option (list R); b_xvals : option (list R);
  b_mxn : option (list (list R)); b_mFn : option (list (list R)); b_mvn : option (list R); b_moffn : option (list R); b_mt0n : option (list R); b_mx0n : option (list R); b_mLn : option (list R);
  b_tvalsn : option (list R); b_xvalsn : option (list R);
  (* stationary_loads_x, vs_t, omega_phase *)
  b_sx : option (list R); b_sP : option (list points); b_sop : option (list (option (R * R)));
  b_sxn : option (list R); b_sPn : option (list points); b_sopn : option (list (option (R * R)));
  b_kf : option R; b_mun : option R; b_k1n : option R; b_k3n : option R; b_nquad : option nat;
  b_Ebar : points; b_rhobar : points; b_Ibar : points; b_Abar : points; b_k1bar : points; b_k3bar : points; b_mubar : points;
  b_impl : impl; b_analytical : bool; b_force : bool }.
(** what later code reads *)
Record sb := mkS { s_in : sb_in; s_kf : R; s_mu : R; s_k1 : R; s_k3 : R; s_beta : list R;
  s_moving : option (list mpl);                 (* moving_loads_norm if has_moving_loads *)
  s_raw : option (list mpl);                    (* moving_loads *)
  s_stat : option (list R * list points * list (option (R * R)));   (* stationary_loads_..._norm if has_stationary_loads *)
  s_t : list R; s_x : list R; s_quad : option (list R * list R) }.

Definition scaled {A B} (norm : option B) (raw : option A) (f : A -> result B) : result B :=
  match norm with Some x => Ok x | None => match raw with Some y => f y | None => Err TypeError end end.
Definition is_none {A} (o : option A) : bool := match o with None => true | Some _ => false end.
(** an optional variable of the moving loads (offset :482-490, t0 :492-500, x0 :502-510, L :512-520) *)
Definition optional_var (raw norm : option (list R)) (mx mxn : option (list (list R))) (dflt : result R) (dn : R) (f : R -> result R) : result (list R) :=
  match norm with
  | Some l => Ok l
  | None => match raw, mx with
            | Some l, _ => mapM f l
            | None, Some x => d <- dflt ;; v <- f d ;; Ok (map (fun _ => v) x)
            | None, None => match mxn with Some x => Ok (map (fun _ => dn) x) | None => Err TypeError end
            end
  end.
Definition isz (o : option R) : bool := match o with Some x => Reqb x 0 | None => false end.

Section Beam.
Variable solve : list (list R) -> list R -> result (list R).
Variable odeint : (list R -> R -> result (list R)) -> list R -> list R -> result (list (list R)).

(** self.L, self.E ... : TypeError in arithmetic with None *)
Definition divL (i : sb_in) (x : R) : result R := L <- need (b_L i) ;; Ok (x / L).
Definition tscale (i : sb_in) (t : R) : result R := L <- need (b_L i) ;; E <- need (b_E i) ;; rho <- need (b_rho i) ;; Ok (t / L * sqrt (E / rho)).
Definition divEA (i : sb_in) (p : R) : result R := E <- need (b_E i) ;; A <- need (b_A i) ;; Ok (p / (E * A)).
Definition vscale (i : sb_in) (v : R) : result R := rho <- need (b_rho i) ;; E <- need (b_E i) ;; Ok (v * sqrt (rho / E)).
(** zip of up to seven sequences *)
Fixpoint zip7 (xs ps : list (list R)) (os vs ts Ls x0s : list R) : list (list R * list R * R * R * R * R * R) :=
  match xs, ps, os, vs, ts, Ls, x0s with
  | x :: xs, p :: ps, o :: os, v :: vs, t :: ts, L :: Ls, x0 :: x0s => (x, p, o, v, t, L, x0) :: zip7 xs ps os vs ts Ls x0s
  | _, _, _, _, _, _, _ => []
  end.
(** :457-555 *)
Definition moving (i : sb_in) : result (option (list mpl) * option (list mpl)) :=
  if is_none (b_mxn i) && is_none (b_mFn i) && is_none (b_mvn i) && is_none (b_mx i) && is_none (b_mF i) && is_none (b_mv i) then Ok (None, None) else
  xs <- scaled (b_mxn i) (b_mx i) (mapM (mapM (divL i))) ;;
  ps <- scaled (b_mFn i) (b_mF i) (mapM (mapM (divEA i))) ;;
  vs <- scaled (b_mvn i) (b_mv i) (mapM (vscale i)) ;;
  os <- optional_var (b_moff i) (b_moffn i) (b_mx i) (Some xs) (Ok 0) 0 (divL i) ;;
  ts <- optional_var (b_mt0 i) (b_mt0n i) (b_mx i) (Some xs) (Ok 0) 0 (tscale i) ;;
  x0s <- optional_var (b_mx0 i) (b_mx0n i) (b_mx i) (Some xs) (Ok 0) 0 (divL i) ;;
  Ls <- optional_var (b_mL i) (b_mLn i) (b_mx i) (Some xs) (need (b_L i)) 1 (divL i) ;;
  m <- mapM (fun q => let '(x, p, o, v, t, L, x0) := q in mpl_init x p o (Some v) (Some L) t x0) (zip7 xs ps os vs ts Ls x0s) ;;
  raw <- match b_mx i with
         | None => Ok None
         | Some x => match b_mF i, b_mv i with
                     | Some F, Some v =>
                         L <- need (b_L i) ;;
                         let z := map (fun _ => 0) x in
                         r <- mapM (fun q => let '(x, p, o, v, t, _, _) := q in mpl_init x p o (Some v) (Some L) t 0)
                                (zip7 x F (match b_moff i with Some l => l | None => z end) v (match b_mt0 i with Some l => l | None => z end) z z) ;;
                         Ok (Some r)
                     | _, _ => Err TypeError
                     end
         end ;;
  Ok (Some m, raw).
(** :567-606 *)
Definition stationary (i : sb_in) : result (option (list R * list points * list (option (R * R)))) :=
  if is_none (b_sxn i) && is_none (b_sopn i) && is_none (b_sPn i) && is_none (b_sx i) && is_none (b_sop i) then Ok None else
  let op := match b_sop i with Some l => Some l | None => match b_sx i with Some x => Some (map (fun _ => None) x) | None => None end end in
  xs <- scaled (b_sxn i) (b_sx i) (mapM (divL i)) ;;
  Ps <- scaled (b_sPn i) (b_sP i) (mapM (mapM (fun q => t <- tscale i (fst q) ;; p <- divEA i (snd q) ;; Ok (t, p)))) ;;
  ops <- match b_sopn i with
         | Some l => Ok l
         | None => match op with
                   | None => Ok (map (fun _ => None) xs)
                   | Some l => mapM (fun q => match q with
                                              | None => Ok None
                                              | Some (om, ph) => L <- need (b_L i) ;; E <- need (b_E i) ;; rho <- need (b_rho i) ;; p <- divEA i ph ;;
                                                                 Ok (Some (om * L / sqrt (E / rho), p))                     (* :604 *)
                                              end) l
                   end
         end ;;
  Ok (Some (xs, Ps, ops)).
(** :436-664 *)
Definition sb_init (i : sb_in) : result sb :=
  let both := is_none (b_k3n i) && is_none (b_k3 i) in                                    (* :436-438 *)
  let k3 := if both then Some 0 else b_k3 i in let k3n := if both then Some 0 else b_k3n i in
  if (match b_BC i with CC | FF => true | _ => false end || negb (isz k3 && isz k3n)) && b_analytical i then Err ValueError else      (* :440-443 *)
  kf <- match b_kf i with Some x => Ok x | None => L <- need (b_L i) ;; Im <- need (b_I i) ;; A <- need (b_A i) ;; Ok (1 / L * sqrt (Im / A)) end ;;
  mv <- moving i ;;
  t <- scaled (b_tvalsn i) (b_tvals i) (mapM (tscale i)) ;;                              (* :561-562 *)
  x <- scaled (b_xvalsn i) (b_xvals i) (mapM (divL i)) ;;                                (* :563-564 *)
  st <- stationary i ;;
  mu <- scaled (b_mun i) (b_mu i) (fun m => A <- need (b_A i) ;; L <- need (b_L i) ;; rho <- need (b_rho i) ;; E <- need (b_E i) ;; Ok (m / A * sqrt (L ^ 2 / (rho * E)))) ;;
  k1 <- scaled (b_k1n i) (b_k1 i) (fun k => L <- need (b_L i) ;; E <- need (b_E i) ;; A <- need (b_A i) ;; Ok (k * L ^ 2 / (E * A))) ;;
  k3 <- scaled k3n k3 (fun k => L <- need (b_L i) ;; E <- need (b_E i) ;; A <- need (b_A i) ;; Ok (k * L ^ 4 / (E * A))) ;;
  match b_BC i with
  | SS => q <- match b_nquad i with None => Ok None | Some n => Ij <- weights solve (points_SS n) ;; Ok (Some (points_SS n, Ij)) end ;;
          Ok (mkS i kf mu k1 k3 (map (fun k => PI * (INR k + 1)) (seq 0 (b_nterms i))) (fst mv) (snd mv) st t x q)
  | _ => Err ValueError                                                                  (* :629, :656 *)
  end.

(** *** the equations *)
Definition dot (u v : list R) : R := sumR (map (fun p => fst p * snd p) (combine u v)).
Record mats := mkMats { lam_qdotdot : list (list R); psi_q : list (list R); psi_qdot : list (list R); k3barj : list R }.
Definition mscal (c : R) (M : list (list R)) : list (list R) := map (map (fun x => c * x)) M.
Definition msub (M N : list (list R)) : list (list R) := map (fun p => map (fun q => fst q - snd q) (combine (fst p) (snd p))) (combine M N).
(** time_independant_matrices :836-859 *)
Definition time_independant_matrices (o : sb) : result mats :=
  let i := s_in o in let m := s_beta o in let im := b_impl i in
  lam <- pdim1sin_abf_linear im m (b_rhobar i) (b_Abar i) ;;
  bend <- pdim1sin_DD_abDDf_linear im m (b_Ebar i) (b_Ibar i) ;;
  match s_quad o with
  | None => Err AttributeError                                                           (* :859 self.xj *)
  | Some (xj, _) =>
      kj <- interp_x_y (px (b_k1bar i)) (py (b_k1bar i)) xj false ;;
      Ok (mkMats lam (msub (mscal (- s_kf o ^ 2) bend) (mscal (s_k1 o) (pdim1sin_af_linear im m (b_k1bar i)))) (mscal (- s_mu o) (pdim1sin_af_linear im m (b_mubar i))) kj)
  end.
(** the sum over the loads of one vehicle :760-763 *)
Definition vehicle_load (beta : R) (t : R) (v : mpl) : result R :=
  r <- point_loads_on_beam v t ;; Ok (sumR (map (fun p => snd p * sin (beta * fst p)) (combine (xnow r) (pnow r)))).
(** one stationary load :766-777 *)
Definition stationary_load (beta : R) (t : R) (xs : list R) (Ps : list points) (ops : list (option (R * R))) (j : nat) : result R :=
  x <- get xs j ;; P <- get Ps j ;; mag <- interp_x_y (px P) (py P) [t] false ;; op <- get ops j ;;
  let m := nth 0 mag 0 in
  match op with None => Ok (m * sin (x * beta)) | Some (om, ph) => Ok (m * sin (x * beta) * cos (om * t + ph)) end.
Definition loads (o : sb) (beta t : R) : result R :=
  a <- match s_moving o with None => Ok 0 | Some l => r <- mapM (vehicle_load beta t) l ;; Ok (sumR r) end ;;
  b <- match s_stat o with None => Ok 0 | Some (xs, Ps, ops) => r <- mapM (stationary_load beta t xs Ps ops) (seq 0 (length xs)) ;; Ok (sumR r) end ;;
  Ok (a + b).
(** w :700-716 *)
Definition sb_w (o : sb) (qk : list R) (x : R) : R := sumR (map (fun p => fst p * sin (snd p * x)) (combine qk (s_beta o))).
(** vectorfield :719-790 *)
Definition sb_field (o : sb) (M : mats) (vsv : list R) (t : R) : result (list R) :=
  let n := b_nterms (s_in o) in let q := firstn n vsv in let qd := skipn n vsv in
  match s_quad o with
  | None => Err AttributeError
  | Some (xj, Ij) =>
      rhs <- mapM (fun k =>
        let beta := nth k (s_beta o) 0 in
        f <- loads o beta t ;;
        let y := sumR (map (fun p => let '(w, kj, x) := p in w * sb_w o q x ^ 3 * kj * sin (beta * x)) (combine (combine Ij (k3barj M)) xj)) in
        Ok (dot (nth k (psi_q M) []) q + dot (nth k (psi_qdot M) []) qd + f - s_k3 o * y)) (seq 0 n) ;;
      acc <- solve (lam_qdotdot M) rhs ;;
      Ok (qd ++ acc)
  end.
(** calulate_qk :799-834 at the object's own times *)
Definition sb_qk (o : sb) : result (list (list R)) :=
  M <- time_independant_matrices o ;; odeint (sb_field o M) (repeat 0 (2 * b_nterms (s_in o))) (s_t o).
(** wofx :862-905, all times, before the single row is taken out of its array *)
Definition sb_wofx (o : sb) (qsol : list (list R)) (xn : list R) (normalise : bool) : result (list (list R)) :=
  let v := map (fun xx => map (fun qq => sb_w o (firstn (b_nterms (s_in o)) qq) xx) qsol) xn in
  if normalise then Ok v else L <- need (b_L (s_in o)) ;; Ok (map (map (fun y => y * L)) v).
(** runme :908-946, numerical; disk: what is in file_stem_defl_norm.csv; earlier: defl_norm from before.  Gives defl_norm and defl *)
Definition runme (o : sb) (disk earlier : option (list (list R))) : result (list (list R) * option (list (list R))) :=
  d <- match b_force (s_in o), earlier, disk with
       | false, Some d, _ => Ok d
       | false, None, Some d => Ok d
       | _, _, _ => q <- sb_qk o ;; sb_wofx o q (s_x o) true
       end ;;
  Ok (d, match b_L (s_in o) with Some L => Some (map (map (fun y => y * L)) d) | None => None end).
End Beam.

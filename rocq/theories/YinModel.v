(** * Model of /repo/geotecha/constitutive_models/void_ratio_stress.py, class YinAndGrahamSoilModel (:1383-2042).

    numpy applies the formulas elementwise; one element is modelled, in exact arithmetic.  np.log x and
    x ** y are modelled for positive x, np.sqrt and nan are not needed except as written below.  The
    solver scipy.optimize.fixed_point evaluates the function it is given at points of its choice; what the
    object keeps of this is the last evaluation, so the solver is a parameter giving the last point (or
    the exception).  The keywords just_before and logx of the simulations are not modelled. *)
From Coq Require Import Reals List Arith ZArith Bool.
From Verif Require Import Base PiecewiseModel ConstitutiveModel MeshModel SteinModel.
Import ListNotations.
Local Open Scope R_scope.

(** parameters (:1385-1390) *)
Record clay := mkClay { y_lam : R; y_kap : R; y_psi : R; y_siga : R; y_ea : R; y_ta : R }.
Definition y_alpha (m : clay) : R := (y_lam m - y_kap m) / y_psi m.                       (* :1392 *)
(** x ** y *)
Definition ppow (x y : R) : R := Rpower x y.
(** e0, estress0, pstress0, t0 *)
Record initial := mkInit { i_e : R; i_s : R; i_p : R; i_t : R }.

(** :1408-1530 *)
Definition initial_conditions (m : clay) (e0 s0 p0 t0 : option R) : result (option initial) :=
  let ea := y_ea m in let siga := y_siga m in let lam := y_lam m in let kap := y_kap m in let ta := y_ta m in let alpha := y_alpha m in
  match e0, s0, p0, t0 with
  | None, None, None, None => Ok None                                                     (* :1467-1469 *)
  | Some e, Some s, None, None =>                                                         (* :1483-1487 *)
      let p := exp ((ea - e - kap * ln s + lam * ln siga) / (lam - kap)) in
      Ok (Some (mkInit e s p (ppow (p / s) alpha * ta)))
  | Some e, None, Some p, None =>                                                         (* :1488-1492 *)
      let s := exp ((ea - e - (lam - kap) * ln p + lam * ln siga) / kap) in
      Ok (Some (mkInit e s p (ppow (p / s) alpha * ta)))
  | Some e, None, None, Some t =>                                                         (* :1493-1498 *)
      let OCR := ppow (t / ta) (1 / alpha) in
      let p := exp ((ea - e + lam * ln siga + kap * ln OCR) / lam) in
      Ok (Some (mkInit e (p / OCR) p t))
  | None, Some s, Some p, None =>                                                         (* :1499-1503 *)
      let OCR := p / s in
      Ok (Some (mkInit (ea - lam * ln (p / siga) + kap * ln OCR) s p (ppow OCR alpha * ta)))
  | None, Some s, None, Some t =>                                                         (* :1504-1507 *)
      let OCR := ppow (t / ta) (1 / alpha) in
      let p := OCR * s in
      Ok (Some (mkInit (ea - lam * ln (p / siga) + kap * ln OCR) s p t))
  | None, None, Some p, Some t =>                                                         (* :1508-1512 *)
      let OCR := ppow (t / ta) (1 / alpha) in
      Ok (Some (mkInit (ea - lam * ln (p / siga) + kap * ln OCR) (p / OCR) p t))
  | _, _, _, _ => Err ValueError                                                          (* :1525-1530 *)
  end.

(** The object: (e0, estress0, pstress0, t0), _igral and _estress.  _inc and _es are overwritten before
    they are read.  _estress exists only if the initial conditions do. *)
Record yobject := mkY { y_ic : option initial; y_igral : R; y_estress : R }.
(** :1383-1404 *)
Definition y_new (m : clay) (e0 s0 p0 t0 : option R) : result yobject :=
  ic <- initial_conditions m e0 s0 p0 t0 ;;
  Ok (mkY ic 0 (match ic with Some c => i_s c | None => 0 end)).

(** :1604-1664.  If estress = _estress the quotient is nan; then the entry is replaced by
    _estress / estress0 / t0: np.power writes into a copy (:1657) and dt does not occur. *)
Definition y_inc (m : clay) (c : initial) (old estress dt : R) : R :=
  if Reqb estress old then old / i_s c / i_t c
  else dt / (y_alpha m + 1) * i_s c / i_t c / (estress - old) *
       (ppow (estress / i_s c) (y_alpha m + 1) - ppow (old / i_s c) (y_alpha m + 1)).

(** :1535-1597 *)
Definition y_e_from_stress (m : clay) (o : yobject) (estress : R) (dt pstress : option R) : result (R * yobject) :=
  match dt with
  | None =>
      ic <- initial_conditions m None (Some estress) (Some (get_pstress pstress estress)) None ;;   (* :1574 *)
      match ic with Some c => Ok (i_e c, mkY (Some c) (y_igral o) (i_s c)) | None => Err ValueError end
  | Some d =>
      match y_ic o with
      | None => Err AttributeError                                                        (* :1633, no _inc *)
      | Some c =>
          let igral := y_igral o + y_inc m c (y_estress o) estress d in                   (* :1587-1588 *)
          Ok (i_e c - y_kap m * ln (estress / i_s c) - y_psi m * ln (igral + 1), mkY (Some c) igral estress)
      end
  end.
(** :1599-1602 *)
Definition y_reset (o : yobject) : result yobject :=
  match y_ic o with Some c => Ok (mkY (Some c) 0 (i_s c)) | None => Err AttributeError end.

(** :1706-1722 the function iterated *)
Definition y_fn (m : clay) (c : initial) (igral old e dt estress : R) : R :=
  exp ((- (ln (1 + y_inc m c old estress dt + igral) * y_psi m) + i_e c - e) / y_kap m) * i_s c.
Section Solver.
(** the last point at which fixed_point(fn, x0, xtol=1e-3, maxiter=500) evaluates fn, or its RuntimeError *)
Variable last_point : (R -> R) -> R -> result R.
(** :1668-1731 *)
Definition y_stress_from_e (m : clay) (o : yobject) (e : R) (dt : option R) : result (R * yobject) :=
  match y_ic o with
  | None =>
      ic <- initial_conditions m (Some e) None None (Some (y_ta m)) ;;                    (* :1697-1702 *)
      match ic with Some c => Ok (i_s c, mkY (Some c) (y_igral o) (i_s c)) | None => Err ValueError end
  | Some c =>
      let d := match dt with Some d => d | None => 0 end in                               (* :1705 *)
      let fn := y_fn m c (y_igral o) (y_estress o) e d in
      x <- last_point fn (y_estress o) ;;
      Ok (fn x, mkY (Some c) (y_igral o + y_inc m c (y_estress o) x d) (fn x))            (* :1728-1731 *)
  end.

(** :1768-1819 *)
Definition y_av_from_stress (m : clay) (o : yobject) (estress : R) (estressdot : option R) : result R :=
  match estressdot with
  | None => Ok (y_kap m / estress)
  | Some r => match y_ic o with
      | None => Err TypeError
      | Some c => Ok (y_kap m / estress + y_psi m / i_t c / Rabs r / (y_igral o + 1) * ppow (estress / i_s c) (y_alpha m))
      end
  end.

(** piecewise_linear_1d.py:2775-2875 subdivide_x_into_segments with logx=False, just_before=None; as
    subdivide_x_y_into_segments *)
Definition subdivide_x_into_segments (x : list R) (dx : option R) (min_segments : nat) : result (list R) :=
  xy <- subdivide_x_y_into_segments x x dx min_segments None ;; Ok (fst xy).
(** :1875-1878: the keywords dx and min_segments with their defaults *)
Definition y_times (tvals : list R) (dx : option R) (min_segments : option nat) : result (list R) :=
  t0 <- get tvals 0 ;; te <- get_last tvals ;;
  subdivide_x_into_segments tvals (Some (match dx with Some d => d | None => (te - t0) / 200 end)) (match min_segments with Some n => n | None => 50%nat end).
(** np.interp on a list; the lengths must agree *)
Definition y_interp (ts tvals rate : list R) : result (list R) :=
  if negb (Nat.eqb (length tvals) (length rate)) then Err ValueError else mapM (fun t => np_interp t tvals rate) ts.

(** one after the other: f at each (value, dt), keeping the object *)
Fixpoint y_steps (f : yobject -> R -> R -> result (R * yobject)) (o : yobject) (l : list (R * R)) : result (list R * yobject) :=
  match l with
  | [] => Ok ([], o)
  | (v, dt) :: rest => r <- f o v dt ;; s <- y_steps f (snd r) rest ;; Ok (fst r :: fst s, snd s)
  end.
Record simulation := mkSim { sim_t : list R; sim_stress : list R; sim_e : list R; sim_rate : list R }.
(** increments rate[0:-1] * diff(tvals_), summed from a (:1925-1926, :2035-2036) *)
Definition y_path (a : R) (rate dts : list R) : list R := cumsum a (map (fun p => fst p * snd p) (combine rate dts)).
(** CRSS :1935-2042, method='step'; _igral is put back (:2040) *)
Definition y_CRSS (m : clay) (o : yobject) (tvals rate : list R) (dx : option R) (min_segments : option nat) : result (simulation * yobject) :=
  ts <- y_times tvals dx min_segments ;;
  match y_ic o with
  | None => Err TypeError                                                                 (* :2028 *)
  | Some c =>
      rs <- y_interp ts tvals rate ;;
      let stress := y_path (i_s c) rs (diff ts) in
      es <- y_steps (fun o s dt => y_e_from_stress m o s (Some dt) None) o (combine stress (diff ts)) ;;
      Ok (mkSim ts (i_s c :: stress) (i_e c :: fst es) rs, mkY (y_ic (snd es)) (y_igral o) (y_estress (snd es)))
  end.
(** CRSN :1821-1932, method='step' *)
Definition y_CRSN (m : clay) (o : yobject) (tvals rate : list R) (dx : option R) (min_segments : option nat) : result (simulation * yobject) :=
  ts <- y_times tvals dx min_segments ;;
  match y_ic o with
  | None => Err TypeError                                                                 (* :1918 *)
  | Some c =>
      rs <- y_interp ts tvals rate ;;
      let es := y_path (i_e c) rs (diff ts) in
      ss <- y_steps (fun o e dt => y_stress_from_e m o e (Some dt)) o (combine es (diff ts)) ;;
      Ok (mkSim ts (i_s c :: fst ss) (i_e c :: es) rs, mkY (y_ic (snd ss)) (y_igral o) (y_estress (snd ss)))
  end.
End Solver.

(** The rates given to odeint (:1882-1909, :1994-2019), with the current interpolated rate and integral. *)
Definition ode_CRSN (m : clay) (erate evalue x : R) : R :=
  - x / y_kap m * (erate + y_psi m / y_ta m * exp ((evalue - y_ea m) / y_psi m) * ppow (x / y_siga m) (y_lam m / y_psi m)).
Definition ode_CRSS (m : clay) (srate svalue x : R) : R :=
  - y_kap m * srate / svalue - y_psi m / y_ta m * exp ((x - y_ea m) / y_psi m) * ppow (svalue / y_siga m) (y_lam m / y_psi m).
Section Ode.
(** scipy.integrate.odeint: the rate function of (value, time), the first value, the times *)
Variable odeint : (R -> R -> result R) -> R -> list R -> result (list R).
Definition one {A} (l : result (list A)) : result A := x <- l ;; get x 0.
(** :2014-2015 *)
Definition y_rate (tvals rate : list R) (tt : R) : result R := one (y_interp [tt] tvals rate).
Definition y_upto (a : R) (tvals rate : list R) (tt : R) : result R :=
  v <- one (integrate_x_y_between_xi_xj tvals rate [0] [tt]) ;; Ok (a + v).
(** method='odeint' :1992-2024: (times, stress, e, rate) *)
Definition y_CRSS_ode (m : clay) (o : yobject) (tvals rate : list R) (dx : option R) (min_segments : option nat) : result simulation :=
  ts <- y_times tvals dx min_segments ;;
  match y_ic o with
  | None => Err TypeError
  | Some c =>
      es <- odeint (fun x tt => r <- y_rate tvals rate tt ;; s <- y_upto (i_s c) tvals rate tt ;; Ok (ode_CRSS m r s x)) (i_e c) ts ;;
      rs <- y_interp ts tvals rate ;;
      ss <- mapM (y_upto (i_s c) tvals rate) ts ;;
      Ok (mkSim ts ss es rs)
  end.
(** :1880-1914 *)
Definition y_CRSN_ode (m : clay) (o : yobject) (tvals rate : list R) (dx : option R) (min_segments : option nat) : result simulation :=
  ts <- y_times tvals dx min_segments ;;
  match y_ic o with
  | None => Err TypeError
  | Some c =>
      ss <- odeint (fun x tt => r <- y_rate tvals rate tt ;; e <- y_upto (i_e c) tvals rate tt ;; Ok (ode_CRSN m r e x)) (i_s c) ts ;;
      rs <- y_interp ts tvals rate ;;
      es <- mapM (y_upto (i_e c) tvals rate) ts ;;
      Ok (mkSim ts ss es rs)
  end.
End Ode.

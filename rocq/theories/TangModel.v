(** * Model of /repo/geotecha/consolidation/tangandonitsuka2000.py, over the reals.

    Division by zero is not modelled (meaningful input has nonzero properties). *)
From Coq Require Import Reals List Arith ZArith Bool.
From Verif Require Import Base PiecewiseModel LoadModel RootModel ConstitutiveModel.
Import ListNotations.
Open Scope R_scope.

(** The arguments (:33-35): surcharge_vs_time is (t_tim, t_mag). *)
Record tang := mkTang { t_kv : R; t_kh : R; t_ks : R; t_kw : R; t_mv : R; t_gamw : R; t_rw : R; t_rs : R; t_re : R;
  t_H : R; t_drn : Z; t_tim : list R; t_mag : list R; t_nterms : nat }.

(** math.log and math.sqrt *)
Definition math_log (x : R) : result R := if Rleb x 0 then Err ValueError else Ok (ln x).
Definition math_sqrt (x : R) : result R := if Rltb x 0 then Err ValueError else Ok (sqrt x).
(** conversion to an integer: towards zero *)
Definition to_int (x : R) : R := if Rleb 0 x then IZR (Int_part x) else - IZR (Int_part (- x)).

(** :103-107 *)
Definition F_func (n s kap : R) : result R :=
  l1 <- math_log (n / s) ;; l2 <- math_log s ;;
  let term1 := (l1 + kap * l2 - 75/100) * n^2 / (n^2 - 1) in
  let term2 := s^2 / (n^2 - 1) * (1 - kap) * (1 - s^2 / 4 / n^2) in
  let term3 := kap / (n^2 - 1) * (1 - 1 / 4 / n^2) in
  Ok (term1 + term2 + term3).

Section Tang.
Variable P : tang.

(** :110-160 _calc_Tm, with cv = 1 *)
Definition t_calc_Tm (alp t : R) : result R :=
  sets <- containing_also_less1 (t_tim P) (t_mag P) true false false t ;;
  let '(rl, _, sl, rc, _) := sets in
  x <- mapM (with3' (t_tim P) (t_mag P) (fun t1 sig1 sig2 => (sig2 - sig1) * exp (- (1) * alp^2 * (t - t1)))) sl ;;
  y <- mapM (with4 (t_tim P) (t_mag P) (fun t1 t2 sig1 sig2 =>
         (- sig1 + sig2) / (alp^2 * 1 * (- t1 + t2)) - (- sig1 + sig2) * exp (- alp^2 * 1 * (t - t1)) / (alp^2 * 1 * (- t1 + t2)))) rc ;;
  w <- mapM (with4 (t_tim P) (t_mag P) (fun t1 t2 sig1 sig2 =>
         - (- sig1 + sig2) * exp (- alp^2 * 1 * (t - t1)) / (alp^2 * 1 * (- t1 + t2)) +
         (- sig1 + sig2) * exp (- alp^2 * 1 * (t - t2)) / (alp^2 * 1 * (- t1 + t2)))) rl ;;
  Ok (sumn (x ++ y ++ w)).

(** :174-186: drainage length *)
Definition t_H_ : R := if Z.eqb (t_drn P) 0 then t_H P / 2 else t_H P.
(** :176-182: depths in the lower half are mirrored; an array of integers stays one *)
Definition fold_z (ints : bool) (z : R) : R :=
  if Z.eqb (t_drn P) 0 then (if Rltb (t_H_) z then (if ints then to_int (t_H P - z) else t_H P - z) else z) else z.

Definition M_k (k : nat) : R := (2 * INR k + 1) * PI / 2.               (* :198 *)
(** :190-204 bm[k], given F *)
Definition b_k (F : R) (k : nat) : R :=
  let n := t_re P / t_rw P in
  let G := t_kh P / t_kw P * (t_H_ / 2 / t_rw P)^2 in                  (* :196 *)
  let Dm := 8 / (M_k k)^2 * (n^2 - 1) / n^2 * G in                     (* :200 *)
  let bzm := t_kv P / t_mv P / t_gamw P * (M_k k)^2 / t_H_^2 in        (* :202 *)
  let brm := t_kh P / t_mv P / t_gamw P * 2 / (t_re P)^2 / (F + Dm) in (* :203 *)
  bzm + brm.
(** :209-213, :223-227: one row of Tm *)
Definition Tm_row (F t : R) : result (list R) :=
  mapM (fun k => a <- math_sqrt (b_k F k) ;; t_calc_Tm a t) (seq 0 (t_nterms P)).
(** :220 one cell of por *)
Definition t_por1 (F z t : R) : result R :=
  T <- Tm_row F t ;; Ok (sumn (map (fun p => 2 / M_k (fst p) * sin (M_k (fst p) * z / t_H_) * snd p) (combine (seq 0 (t_nterms P)) T))).
(** :232 one entry of avp *)
Definition t_avp1 (F t : R) : result R :=
  T <- Tm_row F t ;; Ok (sumn (map (fun p => 2 / (M_k (fst p))^2 * snd p) (combine (seq 0 (t_nterms P)) T))).

(** :33-239: (por, avp, settle); ints: z is an array (list) of integers *)
Definition tangandonitsuka2000 (ints : bool) (zs ts : list R) (tpor : option (list R)) : result (list (list R) * list R * list R) :=
  let tp := match tpor with None => ts | Some tp => tp end in            (* :167-170 *)
  let zs' := map (fold_z ints) zs in
  F <- F_func (t_re P / t_rw P) (t_rs P / t_rw P) (t_kh P / t_ks P) ;;   (* :190-194 *)
  por <- mapM (fun z => mapM (t_por1 F z) tp) zs' ;;
  avp <- mapM (t_avp1 F) ts ;;
  load <- interp_x_y (t_tim P) (t_mag P) ts false ;;                     (* :236 *)
  Ok (por, avp, map (fun p => t_H P * t_mv P * (fst p - snd p)) (combine load avp)).   (* :237 *)
End Tang.

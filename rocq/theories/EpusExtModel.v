(** * Model of /repo/geotecha/constitutive_models/epus_ext.f95: the Fortran implementation of EPUS.Calresults, the default one

    Arithmetic is exact (the 0.0001 of line 384 is a single-precision literal in the source).  The subroutines
    DryPoreSize, SlurryPoreSize, ChangeSuction, ChangeWetSuction, Changevolume, Loading and Unloading (300-509, 654-734)
    are line for line those of epus.py and are shared with EpusModel; Drying, Wetting, RfSr_value and what calls them
    are not.  Memory: SrDry and SrWet are allocated, not set (207-217), so their first content [m1], [m2] is arbitrary;
    a subscript outside 1..NumSr is not checked: [outside] is what is read there. *)
From Coq Require Import Reals List ZArith Bool.
From Verif Require Import Base ConstitutiveModel SwccModel EpusModel.
Import ListNotations.
Open Scope R_scope.

(** 780-798; the subscript counted from 0. *)
Definition fRfSr_index (p : par) (ssvalue : R) : result Z :=
  l <- log10M ssvalue ;; h <- fdiv (MaxSuction p - MinSuction p) (INR (NumSr p)) ;; x <- fdiv (l - MinSuction p) h ;; Ok (py_int x).
Definition fread (outside : Z -> R) (a : list R) (i : Z) : R :=
  if Z.ltb i 0 then outside i else match nth_error a (Z.to_nat i) with Some v => v | None => outside i end.
Definition fRfSr (p : par) (outside : Z -> R) (a : list R) (ssvalue : R) : result R :=
  i <- fRfSr_index p ssvalue ;; Ok (fread outside a i).

(** ** Drying, 511-574 *)
(** 520-541 *)
Definition fdry_reference (p : par) (outside : Z -> R) (o : state) (ss_new : R) : result (Z * R) :=
  if Z.eqb (Curveon o) 1 then r <- fRfSr p outside (Srdry o) ss_new ;; Ok (1%Z, r)
  else if (Z.eqb (Curveon o) 2 || Z.eqb (Curveon o) 3)%bool
  then r <- fRfSr p outside (Srdry o) ss_new ;; Ok (if Rleb (RefSr o) r then (2%Z, RefSr o) else (1%Z, r))
  else Ok (Curveon o, RefSr o).
(** 542-572: the volume of a group that drains is that at its air entry. *)
Definition fdry_pore (p : par) (Str ss_new : R) (q : pore) : result pore :=
  let s := pow10 (AEV q) in
  let ys := if Rltb (YieldSt q) (Str + s) then Str + s else YieldSt q in
  if Filled q then
    c0 <- ChangeSuction p Str (YieldSt q) s ;;
    if Rleb (s / c0) ss_new then
      c1 <- ChangeSuction p Str ys s ;;
      let y := if Rltb (YieldSt q) (Str + s / c1) then s / c1 + Str else YieldSt q in
      v <- volume p q y (s / c1 + Str) ;;
      Ok (set_flags (set_volume q y v) false true)
    else
      let y := if Rltb (YieldSt q) (Str + ss_new) then Str + ss_new else YieldSt q in
      v <- volume p q y (Str + ss_new) ;;
      Ok (set_volume q y v)
  else Ok q.
Definition FDrying (p : par) (outside : Z -> R) (ss_new : R) (o : state) : result state :=
  cr <- fdry_reference p outside o ss_new ;;
  f <- mapM (fdry_pore p (Stress o) ss_new) (pores o) ;;
  Ok (mkState f ss_new (Stress o) (fst cr) (snd cr) (Srdry o) (Srwet o)).

(** ** Wetting, 576-652: RefSr is the new one *)
Definition fwet_reference (p : par) (outside : Z -> R) (o : state) (ss_new : R) : result (Z * R) :=
  if (Z.eqb (Curveon o) 1 || Z.eqb (Curveon o) 2)%bool
  then r <- fRfSr p outside (Srwet o) ss_new ;; Ok (if Rleb r (RefSr o) then (2%Z, RefSr o) else (3%Z, r))
  else if Z.eqb (Curveon o) 3 then r <- fRfSr p outside (Srwet o) ss_new ;; Ok (3%Z, r)
  else Ok (Curveon o, RefSr o).
Definition FWetting (p : par) (outside : Z -> R) (ss_new : R) (o : state) : result state :=
  cr <- fwet_reference p outside o ss_new ;;
  f <- mapM (wet_pore p (Stress o) (snd cr) ss_new) (pores o) ;;
  Ok (mkState f ss_new (Stress o) (fst cr) (snd cr) (Srdry o) (Srwet o)).

(** ** DegreeofsaturationSWCC, 737-778 *)
Definition fsr_dry_step (p : par) (outside : Z -> R) (intv : R) (i : nat) (o : state) : result state :=
  o' <- FDrying p outside (pow10 (intv * INR i + MinSuction p)) o ;;
  v <- fdiv (wet_volume (pores o')) (void_ratio (pores o')) ;;
  Ok (put_dry o' i v).
Definition fsr_wet_step (p : par) (outside : Z -> R) (intv : R) (i : nat) (o : state) : result state :=
  o' <- FWetting p outside (pow10 (MaxSuction p - intv * INR i)) o ;;
  v <- fdiv (wet_volume_over_Gs p (pores o') * Gs p) (void_ratio (pores o')) ;;
  Ok (put_wet o' (NumSr p - 1 - i) v).
Definition FDegreeofsaturationSWCC (p : par) (outside : Z -> R) (o : state) : result state :=
  o0 <- SlurryPoreSize p o ;;
  intv <- fdiv (MaxSuction p - MinSuction p) (INR (NumSr p)) ;;
  o1 <- loop (fsr_dry_step p outside intv) (seq 0 (NumSr p)) o0 ;;
  loop (fsr_wet_step p outside intv) (seq 0 (NumSr p)) o1.

(** ** Calresults, 801-914, and _Calresults_fortran, epus.py 931-978 *)
Definition frun_step (p : par) (outside : Z -> R) (s : step) (cs ct : R) (o : state) : result (state * DataResults * (R * R)) :=
  if ist s then
    intv <- interval (vl s) ct (npp s) ;;
    r <- run_points p (fun j =>
           let st := pow10 (INR j * intv + log10 ct) in
           (if Rltb 0 intv then Loading p (st * CVStress p) else Unloading p (st * CVStress p), cs, st)) (seq 0 (npp s)) o ;;
    Ok (fst r, snd r, (cs, vl s))
  else
    intv <- interval (vl s) cs (npp s) ;;
    r <- run_points p (fun j =>
           let ss := pow10 (INR j * intv + log10 cs) in
           (if Rltb 0 intv then FDrying p outside ss else FWetting p outside ss, ss, ct)) (seq 0 (npp s)) o ;;
    Ok (fst r, snd r, (vl s, ct)).
Fixpoint frun_steps (p : par) (outside : Z -> R) (l : list step) (cs ct : R) (o : state) : result (list DataResults) :=
  match l with
  | [] => Ok []
  | s :: t =>
      r <- frun_step p outside s cs ct o ;;
      let '(o', d, (cs', ct')) := r in
      r' <- frun_steps p outside t cs' ct' o' ;;
      Ok (d :: r')
  end.
Definition FCalresults (p : par) (l : list step) (m1 m2 : list R) (outside : Z -> R) : result (list DataResults) :=
  let o := mkState [] 0 0 1 1 m1 m2 in
  o1 <- (if Z.eqb (Assumption p) 1 then FDegreeofsaturationSWCC p outside o else Ok o) ;;
  o2 <- SlurryPoreSize p o1 ;;
  frun_steps p outside l (Suction o2) (Stress o2) o2.

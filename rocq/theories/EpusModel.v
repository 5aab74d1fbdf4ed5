(** * Model of /repo/geotecha/constitutive_models/epus.py: EPUS, PoresizeDistribution, CurveFittingSWCC, StressPath, DataResults

    Arithmetic is exact.  math.log10 of a non-positive number raises ValueError; division by zero is an error
    (numpy gives inf or nan with a warning in some of these places); a > 0 is assumed where a ** (1 / b) is taken.
    Not modelled: the flag errocc, which only decides whether a message is printed; AEVC and WEVC, which are
    written and never read; soilname and username. *)
From Coq Require Import Reals List ZArith Bool String.
From Verif Require Import Base ConstitutiveModel SwccModel.
Import ListNotations.
Open Scope R_scope.

(** math.log10 *)
Definition log10M (x : R) : result R := if Rltb 0 x then Ok (log10 x) else Err ValueError.
(** int(x) of a float: towards zero. *)
Definition py_int (x : R) : Z := if Rltb x 0 then (- Int_part (- x))%Z else Int_part x.

(** ** CurveFittingSWCC, 1064-1197 *)
Record SWCC := mkSWCC { sw_wsat : R; sw_a : R; sw_b : R; sw_wr : R; sw_sl : R }.
(** 1116-1151 *)
Definition sw_Wc (c : SWCC) (Gs s : R) : R :=
  let wsat1 := sw_wsat c in let wr1 := sw_wr c in let b1 := sw_b c in let a1 := sw_a c in let sl1 := sw_sl c in
  (wsat1 - sl1 * log10 s / Gs - wr1) * a1 * (1 - Rpower s b1 / Rpower 10 (6 * b1)) / (Rpower s b1 + a1).
(** 1154-1195 *)
Definition sw_DWc (c : SWCC) (Gs s : R) : R :=
  let wsat1 := sw_wsat c in let wr1 := sw_wr c in let b1 := sw_b c in let a1 := sw_a c in let sl1 := sw_sl c in
  let temp1 := wsat1 - sl1 * ln s / (ln 10 * Gs) - wr1 in
  let temp2 := - a1 * b1 * Rpower s b1 * (Rpower 10 (- 6 * b1) * a1 + 1) / (s * (Rpower s b1 + a1) ^ 2) in
  let temp3 := (a1 - a1 * Rpower s b1 / Rpower 10 (6 * b1)) / (Rpower s b1 + a1) in
  let temp4 := sl1 / (s * ln 10 * Gs) in
  let temp5 := 1 - ln (1 + s / Rpower a1 (1 / b1)) / ln (1 + million / Rpower a1 (1 / b1)) in
  let temp6 := Rpower a1 (1 / b1) * (1 + s / Rpower a1 (1 / b1)) * ln (1 + million / Rpower a1 (1 / b1)) in
  (temp1 * temp2 - temp3 * temp4) * temp5 - (temp3 * temp1 + wr1) / temp6.

(** ** The parameters of an EPUS object, 149-196; Ccs=None and Css=None are resolved by [make_par] (175-182) *)
Record par := mkPar {
  swcc : SWCC; logDS : R; logRS : R; Ccs : R; Css : R; CcdAll : R; Gs : R; Assumption : Z; beta : R; pm : R;
  Pore_shape : R; K0 : R; Npoint : nat; NumSr : nat; MaxSuction : R; MinSuction : R }.
Definition make_par (c : SWCC) (lds lrs : R) (ccs css : option R) (ccd gs : R) (asm : Z) (bet pm_ ps k0 : R) (np ns : nat) (mx mn : R) : par :=
  let ccs' := match ccs with None => sw_sl c | Some v => v end in
  mkPar c lds lrs ccs' (match css with None => ccs' * (1 / 10) | Some v => v end) ccd gs asm bet pm_ ps k0 np ns mx mn.
(** EPUS(SimpleSWCC, stp) with nothing else given: the defaults of 152-168. *)
Definition default_par (c : SWCC) : par := make_par c 0 0 None None 0 (27 / 10) 1 0 1 1 1 1000 400 6 (-3).

(** 202-211 *)
Definition CVStress (p : par) : R := (2 * K0 p + 1) / 3.

(** ** PoresizeDistribution, 1000-1060: one group of pores *)
Record pore := mkPore {
  AEV : R; WEV : R; Ccp : R; Csp : R; Ccd : R; RV : R; YieldSt : R; Filled : bool; RVC : R; Airentrapped : bool }.
Definition set_volume (q : pore) (y v : R) : pore := mkPore (AEV q) (WEV q) (Ccp q) (Csp q) (Ccd q) (RV q) y (Filled q) v (Airentrapped q).
Definition set_flags (q : pore) (fl air : bool) : pore := mkPore (AEV q) (WEV q) (Ccp q) (Csp q) (Ccd q) (RV q) (YieldSt q) fl (RVC q) air.

(** 328-357: the i-th group as DryPoreSize leaves it (Filled False, YieldSt 0: np.zeros of 1047-1060). *)
Definition dry_pore_size (p : par) (i : nat) : result pore :=
  let b1 := sw_b (swcc p) in let a1 := sw_a (swcc p) in
  let Interval := (MaxSuction p - MinSuction p) / INR (Npoint p) in
  let aev := INR i * Interval + MinSuction p in
  let s := pow10 aev in
  ib <- fdiv 1 b1 ;;
  let temp := (a1 - a1 * Rpower s b1 / Rpower 10 (6 * b1)) / (Rpower s b1 + a1) in
  let rv := (- Gs p * sw_DWc (swcc p) (Gs p) s * s * ln 10 - temp * Ccs p) * Interval in
  let temp' := - a1 * b1 * Rpower s b1 * (a1 * Rpower 10 (- 6 * b1) + 1) / (s * (Rpower s b1 + a1) ^ 2) in
  let ccp := - temp' * Ccs p * (pow10 (aev + Interval) - pow10 aev) in
  let csp := - temp' * Css p * (pow10 (aev + Interval) - pow10 aev) in
  ratio <- fdiv (CcdAll p) (Ccs p) ;;
  let ccd := ccp * ratio in
  irs <- fdiv 1 (logRS p) ;;
  let bwt := Rpower (a1 / Rpower (pow10 (logDS p)) b1) irs in
  dwt <- fdiv b1 (logRS p) ;;
  idwt <- fdiv 1 dwt ;;
  let L := log10 (Rpower (27 / 10 * a1) ib) in
  wev <- (if Rltb L aev
          then t <- fdiv ((L - log10 (Rpower (27 / 10 * bwt) idwt)) * (6 - aev)) (6 - L) ;; Ok (aev - t)
          else Ok (idwt * (log10 bwt + b1 * aev - log10 a1))) ;;
  Ok (mkPore aev wev ccp csp ccd rv 0 false rv false).

(** 406-415: the i-th group in the slurry. *)
Definition slurry_pore (p : par) (i : nat) : result pore :=
  q <- dry_pore_size p i ;;
  let rv := RV q + (AEV q - MinSuction p) * Ccp q in
  Ok (mkPore (AEV q) (WEV q) (Ccp q) (Csp q) (Ccd q) rv (1 / 10000) true rv false).

(** ** The attributes an EPUS object changes *)
Record state := mkState {
  pores : list pore; Suction : R; Stress : R; Curveon : Z; RefSr : R; Srdry : list R; Srwet : list R }.
(** 404-424 *)
Definition SlurryPoreSize (p : par) (o : state) : result state :=
  f <- mapM (slurry_pore p) (seq 0 (Npoint p)) ;;
  Ok (mkState f (pow10 (MinSuction p)) (pow10 (MinSuction p) / 1000) 1 1 (Srdry o) (Srwet o)).
(** A new object (198-199): everything but Srdry and Srwet is set by SlurryPoreSize before it is used. *)
Definition new_object (p : par) : state := mkState [] 0 0 1 1 (repeat 0 (NumSr p)) (repeat 0 (NumSr p)).

(** 446-475 *)
Definition ChangeSuction (p : par) (Str MaxSumStress Initialsuction : R) : result R :=
  if Rleb (1 * MaxSumStress) Initialsuction then Ok 1
  else ib <- fdiv 1 (sw_b (swcc p)) ;;
  if Rleb (Rpower (10 * sw_a (swcc p)) ib) Initialsuction then Ok 1
  else li <- log10M Initialsuction ;;
  let temp2 := sw_wsat (swcc p) * Gs p - Ccs p * li - sw_wr (swcc p) * Gs p in
  if Rleb temp2 0 then Ok 1
  else lm <- log10M MaxSumStress ;; ls <- log10M (Initialsuction + Str) ;;
  let temp1 := (Ccs p - Css p) * lm + Css p * ls - Ccs p * li in
  if Rleb (1 - Pore_shape p * (temp1 / (3 * temp2))) 0 then Ok 1
  else Ok (1 - Pore_shape p * (temp1 / (3 * temp2))).
(** 499-525 *)
Definition ChangeWetSuction (p : par) (Str MaxSumStress Airentryvalue Waterentryvalue : R) : result R :=
  if Rleb (1 * MaxSumStress) Airentryvalue then Ok 1
  else ib <- fdiv 1 (sw_b (swcc p)) ;;
  if Rleb (Rpower (10 * sw_a (swcc p)) ib) Airentryvalue then Ok 1
  else la <- log10M Airentryvalue ;;
  let temp2 := sw_wsat (swcc p) * Gs p - Ccs p * la - sw_wr (swcc p) * Gs p in
  if Rltb temp2 0 then Ok 1
  else lm <- log10M MaxSumStress ;; lw <- log10M (Waterentryvalue + Str) ;;
  let temp1 := (Ccs p - Css p) * lm + Css p * lw - Ccs p * la in
  t <- fdiv temp1 (3 * temp2) ;;
  if Rleb (1 - Pore_shape p * t) 0 then Ok 1 else Ok (1 - Pore_shape p * t).
(** 528-537 *)
Definition Changevolume (p : par) (InitialVolume Yieldstress CurrentStress CompIndex UnloadIndex : R) : result R :=
  ly <- log10M Yieldstress ;; lc <- log10M CurrentStress ;;
  let temp := InitialVolume - (ly - MinSuction p) * CompIndex + (ly - lc) * UnloadIndex in
  Ok (if Rltb 0 temp then temp else 0).
(** The calls Changevolume(f.RV[i], y, c, f.Ccp[i], f.Csp[i]). *)
Definition volume (p : par) (q : pore) (y c : R) : result R := Changevolume p (RV q) y c (Ccp q) (Csp q).

(** 792-817 *)
Definition RfSr_index (p : par) (ssvalue : R) : result Z :=
  l <- log10M ssvalue ;; h <- fdiv (MaxSuction p - MinSuction p) (INR (NumSr p) - 1) ;; x <- fdiv (l - MinSuction p) h ;; Ok (py_int x).
Definition RfSr_dry (p : par) (o : state) (ssvalue : R) : result R := i <- RfSr_index p ssvalue ;; np_index (Srdry o) i.
Definition RfSr_wet (p : par) (o : state) (ssvalue : R) : result R := i <- RfSr_index p ssvalue ;; np_index (Srwet o) i.

(** ** Drying, 539-602 *)
(** 554-568: the new Curveon and RefSr. *)
Definition dry_reference (p : par) (o : state) (ss_new : R) : result (Z * R) :=
  if Z.eqb (Curveon o) 1 then r <- RfSr_dry p o ss_new ;; Ok (1%Z, r)
  else if (Z.eqb (Curveon o) 2 || Z.eqb (Curveon o) 3)%bool
  then r <- RfSr_dry p o ss_new ;; Ok (if Rleb (RefSr o) r then (2%Z, RefSr o) else (1%Z, r))
  else Ok (Curveon o, RefSr o).
(** 574-601, one group.  The volume of 589 is overwritten at 597, which belongs to the [if f.Filled[i]] of 580. *)
Definition dry_pore (p : par) (Str ss_new : R) (q : pore) : result pore :=
  let s := pow10 (AEV q) in
  let ys := if Rltb (YieldSt q) (Str + s) then Str + s else YieldSt q in
  if Filled q then
    c0 <- ChangeSuction p Str (YieldSt q) s ;;
    if Rleb (s / c0) ss_new then
      c1 <- ChangeSuction p Str ys s ;;
      let y := if Rltb (YieldSt q) (Str + s / c1) then s / c1 + Str else YieldSt q in
      v0 <- volume p q y (s / c1 + Str) ;;
      v <- volume p q y (Str + ss_new) ;;
      Ok (set_flags (set_volume q y v) false true)
    else
      let y := if Rltb (YieldSt q) (Str + ss_new) then Str + ss_new else YieldSt q in
      v <- volume p q y (Str + ss_new) ;;
      Ok (set_volume q y v)
  else Ok q.
Definition Drying (p : par) (ss_new : R) (o : state) : result state :=
  cr <- dry_reference p o ss_new ;;
  f <- mapM (dry_pore p (Stress o) ss_new) (pores o) ;;
  Ok (mkState f ss_new (Stress o) (fst cr) (snd cr) (Srdry o) (Srwet o)).

(** ** Wetting, 605-670 *)
(** 622-636 *)
Definition wet_reference (p : par) (o : state) (ss_new : R) : result (Z * R) :=
  if (Z.eqb (Curveon o) 1 || Z.eqb (Curveon o) 2)%bool
  then r <- RfSr_wet p o ss_new ;; Ok (if Rleb r (RefSr o) then (2%Z, RefSr o) else (3%Z, r))
  else if Z.eqb (Curveon o) 3 then r <- RfSr_wet p o ss_new ;; Ok (3%Z, r)
  else Ok (Curveon o, RefSr o).
(** 655-662 and 711-720: the yield stress of a group that stays dry; [above] is the test of 657 or 713, [st] the
    stress in the logarithm (Stress at 658, st_new at 714). *)
Definition dry_yield (p : par) (ref st : R) (above : bool) (q : pore) : result pore :=
  if (Z.eqb (Assumption p) 1 && Rltb 0 (Ccp q))%bool then
    tmp <- (if above
            then l <- log10M (st / pow10 (AEV q)) ;; r <- power ref (pm p) ;;
                 Ok (CVStress p * pow10 (l * (r * (Ccp q - Ccd q) + Ccd q) / Ccp q + AEV q))
            else Ok (pow10 (AEV q))) ;;
    if Rltb (YieldSt q) tmp then v <- volume p q tmp tmp ;; Ok (set_volume q tmp v) else Ok q
  else Ok q.
(** 638-669, one group.  [ref] is the local RefSr of 619, read before 622-636 change self.RefSr. *)
Definition wet_pore (p : par) (Str ref ss_new : R) (q : pore) : result pore :=
  let s := pow10 (WEV q) in
  if negb (Filled q) then
    let ys := if Rltb (YieldSt q) (Str + s) then Str + s else YieldSt q in
    c <- ChangeWetSuction p Str ys (pow10 (AEV q)) (pow10 (WEV q)) ;;
    if Rleb ss_new (s / c) then
      let y := if Rltb (YieldSt q) (s / c + Str) then s / c + Str else YieldSt q in
      v <- volume p q y (Str + ss_new) ;;
      Ok (set_flags (set_volume q y v) true (Airentrapped q))
    else dry_yield p ref Str (Rltb (pow10 (AEV q)) Str) q
  else
    let y := if Rltb (YieldSt q) (Str + ss_new) then Str + ss_new else YieldSt q in
    v <- volume p q y (Str + ss_new) ;;
    Ok (set_volume q y v).
Definition Wetting (p : par) (ss_new : R) (o : state) : result state :=
  cr <- wet_reference p o ss_new ;;
  f <- mapM (wet_pore p (Stress o) (RefSr o) ss_new) (pores o) ;;
  Ok (mkState f ss_new (Stress o) (fst cr) (snd cr) (Srdry o) (Srwet o)).

(** ** Loading, 673-726, and Unloading, 728-745 *)
Definition load_pore (p : par) (Str Suc ref st_new : R) (q : pore) : result pore :=
  let s := pow10 (WEV q) in
  let ys := if Rltb (YieldSt q) (st_new + s) then st_new + s else YieldSt q in
  if Filled q then
    let y := if Rltb (YieldSt q) (st_new + Suc) then st_new + Suc else YieldSt q in
    v <- volume p q y (Suc + st_new) ;;
    Ok (set_volume q y v)
  else
    c <- ChangeWetSuction p Str ys (pow10 (AEV q)) s ;;
    if Rltb Suc (s / c) then
      v <- volume p q ys (Suc + st_new) ;;
      Ok (set_flags (set_volume q ys v) true (Airentrapped q))
    else dry_yield p ref st_new (Rltb (pow10 (AEV q)) Str) q.
Definition Loading (p : par) (st_new : R) (o : state) : result state :=
  f <- mapM (load_pore p (Stress o) (Suction o) (RefSr o) st_new) (pores o) ;;
  Ok (mkState f (Suction o) st_new (Curveon o) (RefSr o) (Srdry o) (Srwet o)).
Definition unload_pore (p : par) (Suc st_new : R) (q : pore) : result pore :=
  if Filled q then v <- volume p q (YieldSt q) (Suc + st_new) ;; Ok (set_volume q (YieldSt q) v) else Ok q.
Definition Unloading (p : par) (st_new : R) (o : state) : result state :=
  f <- mapM (unload_pore p (Suction o) st_new) (pores o) ;;
  Ok (mkState f (Suction o) st_new (Curveon o) (RefSr o) (Srdry o) (Srwet o)).

(** ** DegreeofsaturationSWCC, 747-790 *)
Definition rsuml (l : list R) : R := fold_left Rplus l 0.
(** 768-771, 864-867, 899-902: tmp1 *)
Definition void_ratio (f : list pore) : R := rsuml (map RVC f).
(** 769-773 *)
Definition wet_volume (f : list pore) : R := rsuml (map RVC (filter Filled f)).
(** 783-787 *)
Definition wet_volume_over_Gs (p : par) (f : list pore) : R := rsuml (map (fun q => RVC q / Gs p) (filter Filled f)).
(** l[i] = v *)
Fixpoint set_nth (l : list R) (i : nat) (v : R) : list R :=
  match l, i with
  | [], _ => []
  | _ :: t, O => v :: t
  | a :: t, S j => a :: set_nth t j v
  end.
(** A loop over range(n) that changes the object. *)
Fixpoint loop {A} (f : nat -> A -> result A) (is_ : list nat) (o : A) : result A :=
  match is_ with [] => Ok o | i :: t => o' <- f i o ;; loop f t o' end.
Definition put_dry (o : state) (i : nat) (v : R) : state := mkState (pores o) (Suction o) (Stress o) (Curveon o) (RefSr o) (set_nth (Srdry o) i v) (Srwet o).
Definition put_wet (o : state) (i : nat) (v : R) : state := mkState (pores o) (Suction o) (Stress o) (Curveon o) (RefSr o) (Srdry o) (set_nth (Srwet o) i v).
(** 765-774 *)
Definition sr_dry_step (p : par) (intv : R) (i : nat) (o : state) : result state :=
  o' <- Drying p (pow10 (intv * INR i + MinSuction p)) o ;;
  v <- fdiv (wet_volume (pores o')) (void_ratio (pores o')) ;;
  Ok (put_dry o' i v).
(** 779-788 *)
Definition sr_wet_step (p : par) (intv : R) (i : nat) (o : state) : result state :=
  o' <- Wetting p (pow10 (MaxSuction p - intv * INR i)) o ;;
  v <- fdiv (wet_volume_over_Gs p (pores o') * Gs p) (void_ratio (pores o')) ;;
  Ok (put_wet o' (NumSr p - 1 - i) v).
Definition DegreeofsaturationSWCC (p : par) (o : state) : result state :=
  o0 <- SlurryPoreSize p o ;;
  intv <- fdiv (MaxSuction p - MinSuction p) (INR (NumSr p)) ;;
  o1 <- loop (sr_dry_step p intv) (seq 0 (NumSr p)) o0 ;;
  loop (sr_wet_step p intv) (seq 0 (NumSr p)) o1.

(** ** StressPath, 1198-1280 *)
(** One dict of path_dicts: a missing key is None. *)
Record path_dict := mkDict { d_ist : option bool; d_vl : option R; d_npp : option nat; d_name : option string }.
Record step := mkStep { ist : bool; vl : R; npp : nat; name : string }.
(** 1257-1275: str[i] in the default name subscripts the type str. *)
Definition make_step (d : path_dict) : result step :=
  let i := match d_ist d with Some b => b | None => true end in
  v <- match d_vl d with Some v => Ok v | None => Err KeyError end ;;
  let n := match d_npp d with Some n => n | None => 100%nat end in
  nm <- match d_name d with Some s => Ok s | None => Err TypeError end ;;
  Ok (mkStep i v n nm).
Definition StressPath (path_dicts : list path_dict) : result (list step) := mapM make_step path_dicts.

(** ** DataResults, 1287-1362: the arrays ss, st, e, w, Sr, vw entry by entry; Sr is None where numpy gives nan (e = 0) *)
Record datum := mkDatum { d_ss : R; d_st : R; d_e : R; d_w : R; d_Sr : option R; d_vw : option R }.
Definition DataResults := list datum.
(** 1342-1350 *)
Definition add_results (a b : DataResults) : DataResults := a ++ b.
(** 1352-1357 and sum() of 1286: sum([]) is 0, here None; 0 + d is d. *)
Fixpoint sum_results (acc : option DataResults) (l : list DataResults) : option DataResults :=
  match l with
  | [] => acc
  | d :: t => sum_results (Some (match acc with None => d | Some a => add_results a d end)) t
  end.
Definition combine_datapoints (l : list DataResults) : option DataResults := sum_results None l.

(** ** _Calresults_scalar, 820-929 *)
(** 866-872 and 901-909: tmp2 *)
Definition water_content (p : par) (f : list pore) : R :=
  rsuml (map (fun q => if Airentrapped q then RVC q / Gs p * (1 - beta p) else RVC q / Gs p) (filter Filled f)).
(** 920-923 *)
Definition capped (x : R) : R := if Rleb 999999 x then 999998 else x.
Definition finish (p : par) (ss st e w : R) : datum :=
  let sr := if Reqb e 0 then None else Some (w * Gs p / e) in
  mkDatum (capped ss) (capped st) e w sr (match sr with None => None | Some x => Some (x * e / (e + 1)) end).
(** 853-875 and 887-912: the points of one step; [go j] gives the operation and the reported suction and stress. *)
Fixpoint run_points (p : par) (go : nat -> (state -> result state) * R * R) (js : list nat) (o : state) : result (state * DataResults) :=
  match js with
  | [] => Ok (o, [])
  | j :: t =>
      let '(op, ss, st) := go j in
      o' <- op o ;;
      r <- run_points p go t o' ;;
      Ok (fst r, finish p ss st (void_ratio (pores o')) (water_content p (pores o')) :: snd r)
  end.
(** (log10(vl) - log10(c)) / (npp - 1), 849 and 881: npp = 1 gives inf or nan in numpy, an error here. *)
Definition interval (v c : R) (n : nat) : result R := lv <- log10M v ;; lc <- log10M c ;; fdiv (lv - lc) (INR n - 1).
(** 846-913, one step; [cs], [ct] are the local variables. *)
Definition run_step (p : par) (s : step) (cs ct : R) (o : state) : result (state * DataResults * (R * R)) :=
  if ist s then
    intv <- interval (vl s) ct (npp s) ;;
    r <- run_points p (fun j =>
           let st := pow10 (INR j * intv + log10 ct) in
           (if Rltb 0 intv then Loading p (st * CVStress p) else Unloading p (st * CVStress p), cs, st)) (seq 0 (npp s)) o ;;
    Ok (fst r, snd r, (cs, vl s))
  else
    intv <- interval (vl s) cs (npp s) ;;
    r <- run_points p (fun j =>
           let ss := pow10 (INR j * intv + log10 cs) in
           (if Rltb 0 intv then Drying p ss else Wetting p ss, ss, ct)) (seq 0 (npp s)) o ;;
    Ok (fst r, snd r, (vl s, ct)).
Fixpoint run_steps (p : par) (l : list step) (cs ct : R) (o : state) : result (state * list DataResults) :=
  match l with
  | [] => Ok (o, [])
  | s :: t =>
      r <- run_step p s cs ct o ;;
      let '(o', d, (cs', ct')) := r in
      r' <- run_steps p t cs' ct' o' ;;
      Ok (fst r', d :: snd r')
  end.
(** 820-929.  The object keeps its attributes: [o] before, the first component of the result after. *)
Definition Calresults (p : par) (l : list step) (o : state) : result (state * list DataResults) :=
  o1 <- (if Z.eqb (Assumption p) 1 then DegreeofsaturationSWCC p o else Ok o) ;;
  o2 <- SlurryPoreSize p o1 ;;
  run_steps p l (Suction o2) (Stress o2) o2.

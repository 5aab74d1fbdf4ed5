(** * Model of /repo/geotecha/consolidation/nogamiandli2003.py, over the reals.

    The Bessel functions scipy.special.jn, yn (order, argument) and scipy.optimize.fsolve are
    parameters.  The input is taken as already parsed into attributes; of the checks only the equal
    lengths and the presence of tpor or t are repeated here.  Time stamp, titles, labels, printing and
    plots are left out.  A division by a beta equal to zero gives nan, which is not modelled. *)
From Coq Require Import Reals List Arith ZArith Bool.
From Coquelicot Require Import Coquelicot.
From Verif Require Import Base PiecewiseModel LoadModel RootModel ConstitutiveModel SteinModel.
Import ListNotations.
Local Open Scope R_scope.
Local Open Scope bool_scope.

(** np.sqrt of a real number as a complex one *)
Definition csqrt (a : R) : C := if Rltb a 0 then (0, sqrt (- a)) else (sqrt a, 0).
(** cmath.sin, cmath.cos *)
Definition csin (z : C) : C := (sin (fst z) * cosh (snd z), cos (fst z) * sinh (snd z)).
Definition ccos (z : C) : C := (cos (fst z) * cosh (snd z), - (sin (fst z) * sinh (snd z))).

(** The vertical drain: kh, nh, r0, r1 (:322-325: all given or none). *)
Record drain := mkDrain { d_kh : list R; d_nh : nat; d_r0 : R; d_r1 : R }.
(** The attributes used by the calculation (:272-276). *)
Record nogami := mkNogami { g_h : list R; g_kv : list R; g_mv : list R; g_drain : option drain; g_rcalc : option R;
  g_bctop : Z; g_bcbot : Z; g_nv : nat; g_tim : list R; g_mag : list R;
  g_rx0 : R; g_rdx : R; g_rp : R; g_vx0 : R; g_vdx : R; g_vp : R; g_max_iter : Z }.

Section Nogami.
Variables besselj bessely : nat -> R -> R.
Variable fsolve : (R -> R) -> R -> R.
Variable P : nogami.

Definition g_layers : nat := length (g_kv P).                         (* :352 *)
Definition g_zlayer : list R := cumsum 0 (g_h P).                     (* :354 *)
Definition gkv (k : nat) : R := nth k (g_kv P) 0.
Definition gmv (k : nat) : R := nth k (g_mv P) 0.
Definition gh (k : nat) : R := nth k (g_h P) 0.
Definition gcv (k : nat) : R := gkv k / gmv k.                        (* :356 *)
(** :343-348 *)
Definition gch (k : nat) : R := match g_drain P with Some d => nth k (d_kh d) 0 / gmv k | None => 0 end.
Definition g_nh : nat := match g_drain P with Some d => d_nh d | None => 1%nat end.
(** :364-373; otherwise the attribute is missing when it is used *)
Definition phia0 : result (C * C) :=
  if Z.eqb (g_bctop P) 0 then Ok (RtoC 0, RtoC 1) else if Z.eqb (g_bctop P) 1 then Ok (RtoC 1, RtoC 0) else Err AttributeError.
Definition phi_i_check : result bool :=
  if Z.eqb (g_bcbot P) 0 then Ok false else if Z.eqb (g_bcbot P) 1 then Ok true else Err AttributeError.

(** :385-394 un_normalised *)
Definition un_normalised (d : drain) (r s : R) (order : nat) : R :=
  besselj order (r / d_r0 d * s) * bessely 0 s - besselj 0 s * bessely order (r / d_r0 d * s).
(** :375-383 *)
Definition un_normalised_average (d : drain) (s : R) : R :=
  let nn := d_r1 d / d_r0 d in - un_normalised d (d_r0 d) s 1 * 2 / (nn^2 - 1) / s.
(** :398-404 *)
Definition radial_characteristic (d : drain) (s : R) : R := un_normalised d (d_r1 d) s 1.
(** :407-415 *)
Definition find_sn (fuel : nat) : option (result (list R)) :=
  match g_drain P with
  | None => Some (Ok [0])
  | Some d => let f := radial_characteristic d in
      find_n_roots f (fsolve f) (d_nh d) (g_rp P) (g_max_iter P) (/ 10^8) (/ 10^5) fuel (g_rx0 P) (g_rdx P)
  end.

(** :418-427 *)
Definition g_beta (alp s : R) (k : nat) : C :=
  let r0 := match g_drain P with Some d => d_r0 d | None => 1 end in
  csqrt (1 / gcv k * alp^2 - gch k / gcv k * s^2 / r0^2).

(** :460-470, :508-518: from the top to the bottom of a layer (pressure, slope) *)
Definition transfer (bet : C) (h : R) (a : C * C) : C * C :=
  if Reqb (Cmod bet) 0 then (fst a, RtoC 0)
  else ((ccos (bet * h) * fst a + csin (bet * h) / bet * snd a)%C, (- bet * csin (bet * h) * fst a + ccos (bet * h) * snd a)%C).
(** :457-475, :507-523: state at the top of layer k *)
Fixpoint state (bet : nat -> C) (a0 : C * C) (k : nat) : C * C :=
  match k with
  | O => a0
  | S j => let b := transfer (bet j) (gh j) (state bet a0 j) in (fst b, (snd b * gkv j / gkv (S j))%C)
  end.
(** :486-526 *)
Definition vertical_characteristic (a0 : C * C) (i : bool) (s alp : R) : R :=
  let k := (g_layers - 1)%nat in let bet := g_beta alp s in
  let b := transfer (bet k) (gh k) (state bet a0 k) in Re (if i then snd b else fst b).

(** :529-546: the rows of _alp; prev is _alp[n-1,0] *)
Fixpoint find_alp (fuel : nat) (a0 : C * C) (i : bool) (prev : option R) (sn : list R) : option (result (list (list R))) :=
  match sn with
  | [] => Some (Ok [])
  | s :: rest =>
      let offset := if Reqb s 0 then Rmin (/ 10^7) (g_vdx P) else 0 in                  (* :535-538 *)
      let alp := match prev with None => g_vx0 P | Some a => a end in                  (* :539-542 *)
      let f := vertical_characteristic a0 i s in
      match find_n_roots f (fsolve f) (g_nv P) (g_vp P) (g_max_iter P) (/ 10^8) (/ 10^5) fuel (alp + offset) (g_vdx P) with
      | None => None
      | Some (Err e) => Some (Err e)
      | Some (Ok row) =>
          match rest, row with
          | [], _ => Some (Ok [row])
          | _ :: _, [] => Some (Err IndexError)
          | _ :: _, a :: _ => match find_alp fuel a0 i (Some a) rest with
              | Some (Ok rows) => Some (Ok (row :: rows))
              | o => o
              end
          end
      end
  end.

(** :548-564 *)
Definition Cn (s : R) : R :=
  match g_drain P with
  | None => 1
  | Some d => let r0 := d_r0 d in let r1 := d_r1 d in
      let numer := - r0^2 / s * un_normalised d r0 s 1 in
      let denom := r0^2 / 2 * (r1^2 / r0^2 * (un_normalised d r1 s 0)^2 - (un_normalised d r0 s 1)^2) in
      numer / denom
  end.
(** :911-919 *)
Definition g_un (s : R) : R :=
  match g_drain P with
  | None => 1
  | Some d => match g_rcalc P with Some r => un_normalised d r s 0 | None => un_normalised_average d s end
  end.

(** One term of the series: alpha, s, un, beta, _phia, _phidota in each layer, and _Cmn.real. *)
Record nterm := mkNterm { n_alp : R; n_un : R; n_beta : nat -> C; n_phia : nat -> R; n_phidota : nat -> R; n_C : R }.
Definition csq (x : C) : C := (x * x)%C.
(** :602-615 *)
Definition Amn (h : R) (bet : C) (a d : R) : C :=
  if Reqb (Cmod bet) 0 then RtoC (h * a)
  else (a * csin (bet * h) / bet - d * ccos (bet * h) / csq bet + d / csq bet)%C.
Definition Bmn (h : R) (bet : C) (a d : R) : C :=
  if Reqb (Cmod bet) 0 then RtoC (h * a^2)
  else
    let sn := csin (bet * h)%C in let cs := ccos (bet * h)%C in let a2 := RtoC (a^2) in let d2 := RtoC (d^2) in
    (h * a2 * csq sn / 2 + h * a2 * csq cs / 2 + a2 * sn * cs / (2 * bet) +
     h * d2 * csq sn / (2 * csq bet) + h * d2 * csq cs / (2 * csq bet) - a * d * csq cs / csq bet + a * d / csq bet -
     d2 * sn * cs / (2 * (csq bet * bet)))%C.
Definition csumn (l : list C) : C := fold_left Cplus l (RtoC 0).
(** :618-638 *)
Definition Cm (bet : nat -> C) (a d : nat -> R) : C :=
  (csumn (map (fun k => (gmv k * Amn (gh k) (bet k) (a k) (d k))%C) (seq 0 g_layers)) /
   csumn (map (fun k => (gmv k * Bmn (gh k) (bet k) (a k) (d k))%C) (seq 0 g_layers)))%C.
(** :431-477, :566-575, :644-655, :953 *)
Definition nterm_of (a0 : C * C) (s alp : R) : nterm :=
  let bet := g_beta alp s in
  let a := fun k => Re (fst (state bet a0 k)) in
  let d := fun k => Re (snd (state bet a0 k)) in
  mkNterm alp (g_un s) bet a d (Re (Cm bet a d * Cn s)%C).

(** :858-906, copied there from schiffmanandstein1970.py with cv = 1 *)
Definition g_Tm (alp t : R) : result R :=
  calc_Tm (mkStein (g_h P) (g_kv P) (g_mv P) (g_bctop P) (g_bcbot P) (g_nv P) (g_tim P) (g_mag P)) 1 alp t.
(** :956-957 *)
Definition phi_at (T : nterm) (k : nat) (zlay : R) : R :=
  Re (ccos (n_beta T k * zlay) * n_phia T k + csin (n_beta T k * zlay) / n_beta T k * n_phidota T k)%C.
(** :995-996 *)
Definition phi_over (T : nterm) (k : nat) (h : R) : R :=
  Re (csin (n_beta T k * h) / n_beta T k * n_phia T k + (1 - ccos (n_beta T k * h)) / csq (n_beta T k) * n_phidota T k)%C.
(** :922-958: one cell *)
Definition g_por1 (terms : list nterm) (z t : R) : result R :=
  let k := searchsorted g_zlayer z in                                 (* :938 *)
  a <- mapM (fun T => Tm <- g_Tm (n_alp T) t ;;
         if Nat.ltb k g_layers then Ok (n_C T * n_un T * phi_at T k (z - (nth k g_zlayer 0 - gh k)) * Tm)
         else Err IndexError) terms ;;
  Ok (sumn a).
(** :961-999: (avp, set) at one time *)
Definition g_avp1 (terms : list nterm) (t : R) : result (R * R) :=
  a <- mapM (fun T => Tm <- g_Tm (n_alp T) t ;;
         load <- interp1 (g_tim P) (g_mag P) false t ;;
         Ok (map (fun k => (n_C T * n_un T * phi_over T k (gh k) / sumn (g_h P) * Tm,
                            gmv k * (load * gh k / INR g_nh / INR (g_nv P) - n_C T * n_un T * phi_over T k (gh k) * Tm)))
               (seq 0 g_layers))) terms ;;
  Ok (sumn (map fst (concat a)), sumn (map snd (concat a))).

(** Results: attributes _sn, _alp, por, avp, set and the tables (:407-415, :529-546, :719-751). *)
Record g_output := mkGOut { o_sn : list R; o_alp : list (list R); o_por : option (list (list R)); o_avp : option (list R); o_set : option (list R);
  o_files : list (table_name * list (list R)) }.
Definition g_after (a0 : C * C) (sn : list R) (alps : list (list R)) (zs : list R) (ts tpor : option (list R)) : result g_output :=
  let terms := concat (map (fun p => map (nterm_of a0 (fst p)) (snd p)) (combine sn alps)) in
  por <- match tpor with
         | None => Ok None
         | Some tp => a <- mapM (fun z => mapM (g_por1 terms z) tp) zs ;; Ok (Some a)
         end ;;
  sa <- match ts with None => Ok None | Some ts => a <- mapM (g_avp1 terms) ts ;; Ok (Some a) end ;;
  let avp := option_map (map fst) sa in let set := option_map (map snd) sa in
  Ok (mkGOut sn alps por avp set
    ((match por, tpor with Some a, Some tp => [(data_por, transpose (length zs) (length tp) a)] | _, _ => [] end) ++    (* :724-730 *)
     (match avp with Some a => [(data_avp, column a); (data_set, column a)] | None => [] end))).                       (* :736-751 *)
(** :693-753 make_output; [None]: a search for roots has not ended within the fuel *)
Definition g_make_output (fuel : nat) (zs : list R) (ts tpor : option (list R)) : option (result g_output) :=
  if negb (Nat.eqb (length (g_h P)) (length (g_kv P)) && Nat.eqb (length (g_kv P)) (length (g_mv P)) &&
           match g_drain P with Some d => Nat.eqb (length (g_h P)) (length (d_kh d)) | None => true end &&
           match ts, tpor with None, None => false | _, _ => true end) then Some (Err ValueError) else  (* :330, :277-283, :321 *)
  match find_sn fuel with
  | None => None
  | Some (Err e) => Some (Err e)
  | Some (Ok sn) =>
    match phia0 with Err e => Some (Err e) | Ok a0 =>                 (* :501, :445 *)
    if Nat.eqb g_layers 0 then Some (Err (match sn with [] => IndexError | _ => UnboundLocalError end)) else   (* :445, :524 *)
    match sn with [] => Some (g_after a0 [] [] zs ts tpor) | _ =>
    match phi_i_check with Err e => Some (Err e) | Ok i =>            (* :524 *)
    match find_alp fuel a0 i None sn with
    | None => None
    | Some (Err e) => Some (Err e)
    | Some (Ok alps) => Some (g_after a0 sn alps zs ts tpor)
    end end end end end.
End Nogami.

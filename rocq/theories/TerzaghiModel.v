(** * Model of geotecha/consolidation/terzahi.py, over the reals.
    2-d arrays are lists of rows. *)
From Coq Require Import Reals List.
Import ListNotations.
Local Open Scope R_scope.

(** np.sum over one axis. *)
Definition np_sum (l : list R) : R := fold_left Rplus l 0.

(** terzahi.py 105, 169: dTv = kv / H**2 / mv / gamw. *)
Definition tz_dTv (H kv mv gamw : R) : R := kv / H^2 / mv / gamw.

(** terzahi.py 108, 172: M = (2*np.arange(nterms) + 1) / 2 * np.pi. *)
Definition tz_M (nterms : nat) : list R :=
  map (fun k => (2 * INR k + 1) / 2 * PI) (seq 0 nterms).

(** terzahi.py 57-120: terzaghi_1d; row i of [por] is depth z[i], column j time t[j].
    [doc] is the array doc[0] of line 116. *)
Definition terzaghi_1d (z t : list R) (H kv mv gamw ui : R) (nterms : nat)
  : list (list R) * list R :=
  let dTv := tz_dTv H kv mv gamw in
  let M := tz_M nterms in
  let por := map (fun zi => map (fun tj =>
      let Tv := dTv * tj in let Z := zi / H in
      ui * np_sum (map (fun m => 2 / m * sin (m * Z) * exp (- m^2 * Tv)) M)) t) z in
  let doc := map (fun tj =>
      let Tv := dTv * tj in
      1 - np_sum (map (fun m => 2 / m^2 * exp (- m^2 * Tv)) M)) t in
  (por, doc).

(** terzahi.py 123-182: terzaghi_1d_flowrate. *)
Definition terzaghi_1d_flowrate (z t : list R) (H kv mv gamw ui : R) (nterms : nat)
  : list (list R) :=
  let dTv := tz_dTv H kv mv gamw in
  let M := tz_M nterms in
  map (fun zi => map (fun tj =>
      let Tv := dTv * tj in let Z := zi / H in
      kv / gamw * ui / H * 2 * np_sum (map (fun m => cos (m * Z) * exp (- m^2 * Tv)) M)) t) z.

(** * Model of /repo/geotecha/constitutive_models/swcc.py (soil water characteristic curves)

    numpy applies these formulas elementwise, so one element is modelled; arithmetic is exact.  [x ** y] of floats is
    [fpow]: 0 ** y is 0 (for y > 0; other cases and negative bases are excluded in the theorems). *)
From Coq Require Import Reals List ZArith Bool.
From Verif Require Import Base ConstitutiveModel.
Import ListNotations.
Open Scope R_scope.

Definition fpow (x y : R) : R := if Reqb x 0 then 0 else Rpower x y.
(** 1.0e6 *)
Definition million : R := 1000000.
(** 153-157, 510-514: corr *)
Definition corr (correction : option R) (psir psi : R) : R :=
  match correction with None => 1 - ln (1 + psi / psir) / ln (1 + million / psir) | Some c => c end.

(** ** SWCC_FredlundAndXing1994, 109-117 *)
Record FX := mkFX { fx_a : R; fx_n : R; fx_m : R; fx_ws : R; fx_psir : R; fx_corr : option R }.
(** 119-161 *)
Definition fx_w (s : FX) (psi : R) : R :=
  corr (fx_corr s) (fx_psir s) psi * fx_ws s / fpow (ln (exp 1 + fpow (psi / fx_a s) (fx_n s))) (fx_m s).
(** 231-276 *)
Definition fx_dw (s : FX) (psi : R) : R :=
  let psir := fx_psir s in let a := fx_a s in let n := fx_n s in let m := fx_m s in let ws := fx_ws s in
  match fx_corr s with
  | None => - m * n * ws * fpow (psi / a) n * (1 - ln (psi / psir + 1) / ln (1 + million / psir)) * fpow (ln (fpow (psi / a) n + exp 1)) (- m)
      / (psi * (fpow (psi / a) n + exp 1) * ln (fpow (psi / a) n + exp 1))
      - ws * fpow (ln (fpow (psi / a) n + exp 1)) (- m) / (psir * (psi / psir + 1) * ln (1 + million / psir))
  | Some c => c * (- m * n * ws * fpow (psi / a) n * fpow (ln (fpow (psi / a) n + exp 1)) (- m)
      / (psi * (fpow (psi / a) n + exp 1) * ln (fpow (psi / a) n + exp 1)))
  end.

(** ** SWCC_PhamAndFredlund2008, 460-472 *)
Record PF := mkPF { pf_ws : R; pf_a : R; pf_b : R; pf_wr : R; pf_s1 : R; pf_psir : R; pf_corr : option R }.
Definition pf_init (ws a b wr s1 : R) (psir correction : option R) : PF :=
  mkPF ws a b wr s1 (match psir with None => fpow (27 / 10 * a) (1 / b) | Some p => p end) correction.
(** 474-518 *)
Definition pf_w (s : PF) (psi : R) : R :=
  corr (pf_corr s) (pf_psir s) psi * ((pf_ws s - pf_s1 s * log10 psi - pf_wr s) * pf_a s / (fpow psi (pf_b s) + pf_a s) + pf_wr s).
(** 603-650 *)
Definition pf_dw (s : PF) (psi : R) : R :=
  let psir := pf_psir s in let ws := pf_ws s in let a := pf_a s in let b := pf_b s in let wr := pf_wr s in let s1 := pf_s1 s in
  let l10 := ln 10 in
  match pf_corr s with
  | None => (1 - ln (psi / psir + 1) / ln (1 + million / psir)) *
      (- a * b * fpow psi b * (- wr + ws - s1 * ln psi / l10) / (psi * (a + fpow psi b) ^ 2) - a * s1 / (l10 * psi * (a + fpow psi b)))
      - (a * (- wr + ws - s1 * ln psi / l10) / (a + fpow psi b) + wr) / (psir * (psi / psir + 1) * ln (1 + million / psir))
  | Some c => c * (- a * b * fpow psi b * (- wr + ws - s1 * ln psi / l10) / (psi * (a + fpow psi b) ^ 2) - a * s1 / (l10 * psi * (a + fpow psi b)))
  end.

(** ** k_from_psi *)
(** The sum over the midpoints a + dy*(i + 0.5), i < npts, of (w(e^y) - w0) * dw(e^y) / e^y  (376-381, 387-393). *)
Definition rsum (n : nat) (f : nat -> R) : R := fold_right Rplus 0 (map f (seq 0 n)).
Definition midpoints (w dw : R -> R) (w0 a dy : R) (npts : nat) : R :=
  rsum npts (fun i => let ey := exp (a + dy * (INR i + 1 / 2)) in (w ey - w0) * dw ey / ey).
(** 308-400 and 682-777, one element of psi; [w1] is what is taken for the saturated water content: ws (390) or w_from_psi(aev) (768). *)
Definition k_rel (w dw : R -> R) (w1 aev : R) (npts : nat) (psi : R) : R :=
  let b := ln million in
  let dy1 := (b - ln psi) / INR npts in
  let numer := midpoints w dw (w psi) (ln psi) dy1 npts in
  let dy2 := (b - ln aev) / INR npts in
  let denom := midpoints w dw w1 (ln aev) dy2 npts in
  numer * dy1 / (denom * dy2).
Definition fx_k (s : FX) (aev : R) (npts : nat) (psi : R) : R := k_rel (fx_w s) (fx_dw s) (fx_ws s) aev npts psi.
Definition pf_k (s : PF) (aev : R) (npts : nat) (psi : R) : R := k_rel (pf_w s) (pf_dw s) (pf_w s aev) aev npts psi.

(** ** kwrel_from_discrete_swcc, 781-868 *)
(** One segment between neighbouring points of the curve (840-845): dlogx, xbar, ybar, slopebar. *)
Record segment := mkSegment { g_dlogx : R; g_xbar : R; g_ybar : R; g_slope : R }.
Definition segment_of (p q : R * R) : segment :=
  let dlogx := log10 (fst q) - log10 (fst p) in
  let xbar := fst p * pow10 (1 / 2 * dlogx) in
  let logslope := (snd q - snd p) / dlogx in
  mkSegment dlogx xbar (1 / 2 * (snd p + snd q)) (logslope / ln 10 / xbar).
Fixpoint segments (c : list (R * R)) : list segment :=
  match c with
  | p :: ((q :: _) as t) => segment_of p q :: segments t
  | _ => []
  end.
(** np.searchsorted(psi_swcc, psi, side="right") for increasing psi_swcc: how many are <= psi. *)
Definition searchsorted_right (l : list R) (x : R) : nat := length (filter (fun v => Rleb v x) l).
(** ybar[idx] for an integer idx: numpy counts negative indexes from the end. *)
Definition np_index (l : list R) (i : Z) : result R :=
  let i' := if Z.ltb i 0 then (i + Z.of_nat (length l))%Z else i in
  if Z.ltb i' 0 then Err IndexError else match nth_error l (Z.to_nat i') with Some v => Ok v | None => Err IndexError end.
(** An element of f1 (851). *)
Definition f1 (y0 : R) (g : segment) : R := g_dlogx g * (g_ybar g - y0) / g_xbar g * g_slope g.
(** One element psi; the curve is given as a list of points (psi_swcc[i], vw_swcc[i]).  0/0 is an error here (nan in numpy). *)
Definition kwrel_from_discrete_swcc (psi : R) (curve : list (R * R)) : result R :=
  let gs := segments curve in
  let idx := (Z.of_nat (searchsorted_right (map fst curve) psi) - 1)%Z in
  y0 <- np_index (map g_ybar gs) idx ;;
  let numer := rsum (length gs) (fun row => if Z.ltb (Z.of_nat row) idx then 0 else f1 y0 (nth row gs (mkSegment 0 0 0 0))) in
  yfirst <- np_index (map g_ybar gs) 0 ;;
  let denom := rsum (length gs) (fun row => f1 yfirst (nth row gs (mkSegment 0 0 0 0))) in
  fdiv numer denom.
(** 871-894 *)
Definition karel_air_from_saturation (Sr qfit : R) : R := fpow (1 - Sr) (1 / 2) * fpow (1 - fpow Sr (1 / qfit)) (2 * qfit).

(** * Vocabulary for the constitutive model properties *)
From Coq Require Import Reals List.
From Verif Require Import Base ConstitutiveModel.
Import ListNotations.
Open Scope R_scope.

(** (x, y) lies on the polyline through the points l. *)
Definition on_polyline (l : list (R * R)) (x y : R) : Prop :=
  In (x, y) l \/
  exists l1 a b l2 t, l = l1 ++ a :: b :: l2 /\ 0 <= t <= 1 /\
    x = fst a + t * (fst b - fst a) /\ y = snd a + t * (snd b - snd a).
(** Every entry is below the next. *)
Definition strictly_up (l : list R) : Prop := forall l1 a b l2, l = l1 ++ a :: b :: l2 -> a < b.
Definition strictly_down (l : list R) : Prop := forall l1 a b l2, l = l1 ++ a :: b :: l2 -> b < a.
(** Every segment of the polyline is at least as steep as c. *)
Definition steeper_than (c : R) (l : list (R * R)) : Prop :=
  forall l1 a b l2, l = l1 ++ a :: b :: l2 -> c * Rabs (fst b - fst a) <= Rabs (snd b - snd a).
(** x lies between two entries of l. *)
Definition within (l : list R) (x : R) : Prop := exists a b, In a l /\ In b l /\ a <= x <= b.

(** x^y for x >= 0, y >= 0 *)
Definition rpow (x y : R) : R := if Req_EM_T x 0 then if Req_EM_T y 0 then 1 else 0 else Rpower x y.
(** Hansbo's law: v = kstar i^n below the limiting gradient iL, the tangent line of slope klinear
    through (i0, 0) above it, odd in i (velocity_hydraulic_gradient.py:306-322). *)
Definition hansbo_law (kstar n iL : R) (i v : R) : Prop :=
  (0 <= i <= iL -> v = kstar * rpow i n) /\
  (iL <= i -> v = kstar * rpow iL n + kstar * n * rpow iL (n - 1) * (i - iL)) /\
  (- iL <= i <= 0 -> v = - (kstar * rpow (- i) n)) /\
  (i <= - iL -> v = - (kstar * rpow iL n + kstar * n * rpow iL (n - 1) * (- i - iL))).

(** The five parameters of a Hansbo model agree with one another. *)
Record hansbo_ok (m : Hansbo) : Prop := mk_hok {
  ho_k : 0 < h_kstar m; ho_n : 1 <= h_n m; ho_iL : 0 <= h_iL m; ho_0 : h_iL m = 0 -> h_n m = 1;
  ho_i0 : h_i0 m = h_iL m * (h_n m - 1) / h_n m;
  ho_kl : h_klinear m = h_kstar m * h_n m * rpow (h_iL m) (h_n m - 1);
  ho_vL : h_vL m = h_kstar m * rpow (h_iL m) (h_n m) }.
(** Logarithmic axis: the values plotted on it are positive. *)
Definition loggable (b : bool) (l : list R) : Prop := b = true -> forall x, In x l -> 0 < x.
(** A falling / rising curve, its points given in either order. *)
Definition falling (xs ys : list R) : Prop :=
  strictly_up xs /\ strictly_down ys \/ strictly_down xs /\ strictly_up ys.
Definition rising (xs ys : list R) : Prop :=
  strictly_up xs /\ strictly_up ys \/ strictly_down xs /\ strictly_down ys.
Record pwise_ok (m : Pwise) : Prop := mk_pwise_ok {
  pwo_len : length (pw_siga m) = length (pw_ea m);
  pwo_ne : pw_siga m <> [];
  pwo_fall : falling (pw_siga m) (pw_ea m);
  pwo_x : loggable (pw_xlog m) (pw_siga m);
  pwo_y : loggable (pw_ylog m) (pw_ea m) }.
Record pwisek_ok (m : PwiseK) : Prop := mk_pwisek_ok {
  pko_len : length (pk_ka m) = length (pk_ea m);
  pko_ne : pk_ka m <> [];
  pko_mono : falling (pk_ka m) (pk_ea m) \/ rising (pk_ka m) (pk_ea m);
  pko_x : loggable (pk_xlog m) (pk_ka m);
  pko_y : loggable (pk_ylog m) (pk_ea m) }.
(** What is required of a parameter if it is given. *)
Definition given_ok (o : option R) (P : R -> Prop) : Prop := match o with Some v => P v | None => True end.
(** The two ways of giving three parameters that the constructor solves by iteration. *)
Definition fixed_point_case (klinear kstar i0 iL : option R) : Prop :=
  match klinear, kstar, i0, iL with
  | Some _, Some _, Some _, None | Some _, Some _, None, Some _ => True
  | _, _, _, _ => False
  end.
(** f applied j times; the relative change. *)
Fixpoint iterate (f : R -> result R) (j : nat) (x : R) : result R :=
  match j with 0%nat => Ok x | S j' => y <- f x ;; iterate f j' y end.
Definition relerr (p0 p : R) : R := if Req_EM_T p0 0 then p else (p - p0) / p0.

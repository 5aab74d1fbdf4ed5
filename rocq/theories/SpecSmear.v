(** * Specification of radial consolidation to a drain (independent of the code).

    Radii are divided by the drain radius: the drain wall is at 1, the outer edge of
    the drain's cylinder of influence at n.  [k x] is the horizontal permeability at
    radius x divided by the undisturbed permeability. *)
From Coq Require Import Reals List.
From Coquelicot Require Import Coquelicot.
Import ListNotations.
Local Open Scope R_scope.

(** Water squeezed out of the soil between x and n has to pass radius x:
    the pore pressure gradient at x is proportional to
    (1/k x) * (n^2 - x^2) / x.  Integrating twice, the mean pore pressure (in units
    of the flow rate) is (1/(n^2-1)) * int_1^n (n^2-x^2)^2/(n^2 x k(x)) dx:
    this number is called mu. *)
Definition is_mu (n : R) (k : R -> R) (mu : R) : Prop :=
  is_RInt (fun x => / k x * ((n^2 - x^2)^2 / (n^2 * x))) 1 n (mu * (n^2 - 1)).

(** [u] is the pore pressure profile in a cylinder with permeability [k]:
    - it is continuous from the drain wall to the outer edge;
    - away from the finitely many radii [bs] where the permeability jumps,
      k(x) * u'(x) is [c] times (1/x - x/n^2), the discharge needed for a uniform
      rate of compression (it vanishes at the impervious outer edge x = n);
    - at the drain wall it is the drain pressure uw plus the well resistance
      contribution c * muw;
    - its mean over the area between 1 and n is uavg. *)
Record drain_profile (n : R) (k : R -> R) (bs : list R) (uavg uw muw : R) (u : R -> R)
  : Prop := {
  dp_cont : continuous_on (fun x => 1 <= x <= n) u;
  dp_flow : exists c, u 1 = uw + c * muw /\
      forall x, 1 < x < n -> ~ In x bs ->
        is_derive u x (c * (/ k x * (1 / x - x / n^2)));
  dp_mean : is_RInt (fun x => 2 * x * u x) 1 n (uavg * (n^2 - 1))
}.

(** ** Permeability profiles in the smear zone *)
Definition k_one (x : R) : R := 1.

(** constant: reduced by the factor kap out to radius s *)
Definition k_const (s kap : R) (x : R) : R := if Rlt_dec x s then / kap else 1.

(** linear: from 1/kap at the wall to 1 at radius s, then 1 *)
Definition k_lin (s kap : R) (x : R) : R :=
  if Rlt_dec x s then / kap + (1 - / kap) * ((x - 1) / (s - 1)) else 1.

(** parabolic: 1/kap at the wall, 1 with zero slope at radius s, then 1 *)
Definition k_par (s kap : R) (x : R) : R :=
  if Rlt_dec x s then 1 - (1 - / kap) * ((s - x) / (s - 1))^2 else 1.

(** overlapping linear smear zones of neighbouring drains (spacing 2n, s > n):
    linear out to 2n - s, then constant *)
Definition k_over (n s kap : R) (x : R) : R :=
  / kap + (1 - / kap) * ((Rmin x (2 * n - s) - 1) / (s - 1)).

(** piecewise constant: 1/kap_i for s_(i-1) <= x < s_i (s_(-1) = 1) *)
Fixpoint k_pwc (s kap : list R) (x : R) : R :=
  match s, kap with
  | a :: s', b :: kap' => if Rlt_dec x a then / b else k_pwc s' kap' x
  | _, _ => 1
  end.

(** piecewise linear: 1/kap at the listed radii, linear in between *)
Fixpoint k_pwl (s kap : list R) (x : R) : R :=
  match s, kap with
  | a :: ((b :: _) as s'), ka :: ((kb :: _) as kap') =>
      if Rlt_dec x b then / ka + (/ kb - / ka) * ((x - a) / (b - a))
      else k_pwl s' kap' x
  | _, ka :: _ => / ka
  | _, _ => 1
  end.

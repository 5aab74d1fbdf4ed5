(** * Specification of consolidation of soil around a compressible column *)
From Coq Require Import Reals.
From Coquelicot Require Import Coquelicot.
Local Open Scope R_scope.

(** Mean pressures over the whole section (u), the soil (us) and the column (uc, of radius rc), at every depth:
    - u is the mean by area;
    - soil and column have the same strain; what the water carries less, their skeletons carry more;
    - the water squeezed out flows up through soil and column;
    - what the soil does not lose upwards flows into the column: through the soil, with the factor mu, and on
      to the middle of the column, which makes the difference between us and uc. *)
Definition column_system (rc re kv kvc kh khc mvs mvc gamw mu : R) (u us uc : R -> R -> R) : Prop := forall z t,
  exists (usz ucz : R -> R) (ut uszz uczz strain : R),
    is_derive (u z) t ut /\
    (forall y, is_derive (fun x => us x t) y (usz y)) /\ is_derive usz z uszz /\
    (forall y, is_derive (fun x => uc x t) y (ucz y)) /\ is_derive ucz z uczz /\
    re^2 * u z t = (re^2 - rc^2) * us z t + rc^2 * uc z t /\
    (re^2 - rc^2) * (strain / mvs) + rc^2 * (strain / mvc) = - re^2 * ut /\
    re^2 * strain = - ((re^2 - rc^2) * (kv / gamw) * uszz + rc^2 * (kvc / gamw) * uczz) /\
    let inflow := strain + kv / gamw * uszz in
    us z t - uc z t = gamw * (re^2 * mu / (2 * kh) + (re^2 - rc^2) / (8 * khc)) * inflow.
(** Drained at the top, closed at the bottom. *)
Definition open_top_closed_bottom (H : R) (u : R -> R -> R) : Prop :=
  (forall t, u 0 t = 0) /\ forall t, is_derive (fun x => u x t) H 0.
(** pressure that is linear from utop at the top to ubot at the bottom *)
Definition linear_with_depth (H utop ubot z : R) : R := utop + (ubot - utop) * (z / H).

(** * Specification of one-dimensional large strain consolidation (independent of the code) *)
From Coq Require Import Reals.
From Coquelicot Require Import Coquelicot.
Local Open Scope R_scope.

(** Upward Darcy flow relative to the soil: the permeability is kv0 ((1+e)/(1+e0))^2, the gradient of the pressure in
    deformed coordinates is its gradient ua in Lagrangian coordinates times (1+e0)/(1+e). *)
Definition darcy_flux (kv0 gamw e0 e ua : R) : R := kv0 * ((1 + e) / (1 + e0))^2 / gamw * ((1 + e0) / (1 + e) * ua).

(** A layer 0 <= a <= H (Lagrangian depth, downwards) with initial void ratio e0(a), loaded by qu at time 0;
    u is the excess pore pressure, e the void ratio.  The effective stress increases by qu - u and the compressibility mvl is constant. *)
Record large_strain (sealed_base : bool) (H kv0 mvl gamw qu : R) (e0 : R -> R) (u e : R -> R -> R) : Prop := {
  (** mvl = - de / dsigma' / (1+e), integrated *)
  ls_compression : forall a t, 0 <= a <= H -> 0 <= t -> 1 + e a t = (1 + e0 a) * exp (- mvl * (qu - u a t));
  (** Conservation of water:
      the pore volume e/(1+e0) per initial volume changes by the difference of the flow. *)
  ls_flow : forall t, 0 <= t -> exists ua flux flux_a : R -> R,
    (forall a, 0 <= a <= H -> is_derive (fun b => u b t) a (ua a) /\
       flux a = darcy_flux kv0 gamw (e0 a) (e a t) (ua a)) /\
    (forall a, 0 < a < H -> is_derive flux a (flux_a a) /\ is_derive (fun s => e a s / (1 + e0 a)) t (flux_a a)) /\
    (sealed_base = true -> flux H = 0);
  ls_top : forall t, u 0 t = 0;
  ls_drained : sealed_base = false -> forall t, u H t = 0;
  ls_pressure : forall a t, 0 <= a <= H -> 0 <= t -> 0 <= u a t
}.

(** The velocity v of the water (downwards) when the soil moves at vs (downwards) and the relative flow is q upwards: the pores are e/(1+e) of the area. *)
Definition water_velocity (e vs q v : R) : Prop := e / (1 + e) * (v - vs) = - q.

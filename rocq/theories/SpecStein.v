(** * Vocabulary for consolidation of layered soil *)
From Coq Require Import Reals List Arith ZArith.
From Coquelicot Require Import Coquelicot.
From Verif Require Import Base SpecPiecewise SpecLoad.
Import ListNotations.
Open Scope R_scope.

Definition total (n : nat) (f : nat -> R) : R := fold_right Rplus 0 (map f (seq 0 n)).
Definition total_over {T} (l : list T) (f : T -> R) : R := fold_right Rplus 0 (map f l).

(** Layers from the top: thickness, permeability over unit weight of water, compressibility. *)
Record soil := mkSoil { thick : list R; perm : list R; comp : list R }.
Definition layers (s : soil) : nat := length (thick s).
(** depth of the top of layer i *)
Definition depth (s : soil) (i : nat) : R := total i (at_ (thick s)).
Definition is_soil (s : soil) : Prop :=
  (1 <= layers s)%nat /\ length (perm s) = layers s /\ length (comp s) = layers s /\
  forall i, (i < layers s)%nat -> 0 < at_ (thick s) i /\ 0 < at_ (perm s) i /\ 0 < at_ (comp s) i.

(** numpy.linalg.solve: when it returns, the answer is the one and only solution. *)
Definition is_solution (n : nat) (A : list (list R)) (b x : list R) : Prop :=
  length x = n /\ forall r, (r < n)%nat -> total n (fun c => nth c (nth r A []) 0 * nth c x 0) = nth r b 0.
Definition solves (solve : list (list R) -> list R -> result (list R)) : Prop := forall A b x, solve A b = Ok x ->
  is_solution (length b) A b x /\ forall y, is_solution (length b) A b y -> y = x.

(** One term of the series: amplitude, rate of decay, shape and its slope in each layer. *)
Record mode := mkMode { amp : R; decay : R; shape : nat -> R -> R; slope : nat -> R -> R }.
(** d/dz (kv dZ/dz) = - decay mv Z in every layer *)
Definition mode_equation (s : soil) (m : mode) : Prop := forall i z, (i < layers s)%nat ->
  is_derive (shape m i) z (slope m i z) /\
  is_derive (slope m i) z (- (decay m * at_ (comp s) i / at_ (perm s) i) * shape m i z).
(** drained (0) or impervious (1) top and bottom *)
Definition at_top (bc : Z) (m : mode) : Prop := (bc = 0%Z -> shape m 0 0 = 0) /\ (bc = 1%Z -> slope m 0 0 = 0).
Definition at_bottom (s : soil) (bc : Z) (m : mode) : Prop :=
  let i := (layers s - 1)%nat in let H := depth s (layers s) in
  (bc = 0%Z -> shape m i H = 0) /\ (bc = 1%Z -> slope m i H = 0).
(** pressure and flow are the same on both sides of every interface *)
Definition joined (s : soil) (m : mode) : Prop := forall i, (S i < layers s)%nat ->
  shape m i (depth s (S i)) = shape m (S i) (depth s (S i)) /\
  at_ (perm s) i * slope m i (depth s (S i)) = at_ (perm s) (S i) * slope m (S i) (depth s (S i)).
(** The same up to 1e-10 of the size of the shape in the two layers. *)
Definition size (s : soil) (m : mode) (i : nat) : R :=
  Rabs (shape m i 0) + Rabs (slope m i 0) / sqrt (decay m * at_ (comp s) i / at_ (perm s) i).
Definition nearly_joined (s : soil) (m : mode) : Prop := forall i, (S i < layers s)%nat ->
  Rabs (shape m i (depth s (S i)) - shape m (S i) (depth s (S i))) <= / 10^10 * (size s m i + size s m (S i)) /\
  Rabs (at_ (perm s) i * slope m i (depth s (S i)) - at_ (perm s) (S i) * slope m (S i) (depth s (S i)))
    <= / 10^10 * (size s m i + size s m (S i)) * at_ (perm s) (S i).
Definition nearly_at_top (s : soil) (bc : Z) (m : mode) : Prop :=
  (bc = 0%Z -> shape m 0 0 = 0) /\ (bc = 1%Z -> Rabs (slope m 0 0) <= / 10^10 * size s m 0).
(** The numbers the program treats as zero when it builds the shape with this decay: none is, if each
    is either zero or at least 1e-10. *)
Definition wave (s : soil) (d : R) (i : nat) : R := sqrt (d * at_ (comp s) i / at_ (perm s) i).
Definition not_tiny (x : R) : Prop := x = 0 \/ / 10^10 <= Rabs x.
Definition none_tiny (s : soil) (d : R) : Prop :=
  not_tiny (wave s d 0) /\
  forall i, (S i < layers s)%nat -> let z := depth s (S i) in let k := at_ (perm s) i / at_ (perm s) (S i) in
    not_tiny (cos (wave s d i * z)) /\ not_tiny (sin (wave s d i * z)) /\
    not_tiny (cos (wave s d (S i) * z)) /\ not_tiny (sin (wave s d (S i) * z)) /\
    not_tiny (k * wave s d i * sin (wave s d i * z)) /\ not_tiny (k * wave s d i * cos (wave s d i * z)) /\
    not_tiny (wave s d (S i) * sin (wave s d (S i) * z)) /\ not_tiny (wave s d (S i) * cos (wave s d (S i) * z)).

(** f, given layer by layer, integrated over the whole depth with weight w *)
Definition over_depth (s : soil) (w : nat -> R) (f : nat -> R -> R) (v : R) : Prop := exists g,
  (forall i, (i < layers s)%nat -> is_RInt (f i) (depth s i) (depth s (S i)) (g i)) /\
  v = total (layers s) (fun i => w i * g i).
Definition weight (s : soil) (i : nat) : R := at_ (comp s) i.

(** Pore pressure at time s after a unit load is put on. *)
Definition response (ms : list mode) (i : nat) (z t : R) : R := total_over ms (fun m => amp m * shape m i z * exp (- decay m * t)).
(** It obeys mv du/dt = kv d2u/dz2 in every layer. *)
Definition consolidates (s : soil) (v : nat -> R -> R -> R) : Prop := exists vz, forall i z t, (i < layers s)%nat -> exists vt vzz,
  is_derive (fun x => v i x t) z (vz i z t) /\ is_derive (fun x => vz i x t) z vzz /\ is_derive (fun x => v i z x) t vt /\
  at_ (comp s) i * vt = at_ (perm s) i * vzz.

(** u is the effect, at time t, of the load history: v is the effect of a unit load after a time. *)
Definition effect (tim mag : list R) (rate : R -> R) (t : R) (v : R -> R) (u : R) : Prop := exists I,
  is_RInt (fun tau => rate tau * v (t - tau)) (at_ tim 0) (until tim t) I /\
  u = sum_jumps tim mag t (fun ts => v (t - ts)) + I.
Definition is_load (tim mag : list R) (rate : R -> R) : Prop :=
  nondecr tim /\ (1 <= length tim)%nat /\ length tim = length mag /\ no_doubled_points tim mag /\ load_rate_is tim mag rate.
(** q is the load at time t (just before a step that happens at t, except at the very start). *)
Definition load_value (tim mag : list R) (t q : R) : Prop :=
  (forall k, (S k < length tim)%nat -> at_ tim k < t <= at_ tim (S k) -> q = chord tim mag k t) /\
  (t < at_ tim 0 -> at_ tim 0 < at_ tim (length tim - 1) -> q = at_ mag 0) /\
  (at_ tim (length tim - 1) < t -> q = at_ mag (length tim - 1)) /\
  (forall k, (S k < length tim)%nat -> at_ tim k = at_ tim 0 -> at_ tim 0 < at_ tim (S k) -> t = at_ tim 0 -> q = at_ mag k).

(** What is known of each term of the series.  The shape is, up to a factor, the only one with its decay
    that meets the conditions at the top and between the layers; the amplitude is the one of the best
    approximation of a uniform unit pressure by this shape. *)
Record found (s : soil) (bctop : Z) (m : mode) : Prop := mkFound {
  f_decays : 0 < decay m;
  f_equation : mode_equation s m;
  f_top : nearly_at_top s bctop m;
  f_joined : nearly_joined s m;
  f_exact : none_tiny s (decay m) -> at_top bctop m /\ joined s m;
  f_amp : exists n d, over_depth s (weight s) (shape m) n /\ over_depth s (weight s) (fun i z => (shape m i z)^2) d /\ 0 < d /\ amp m = n / d;
  f_only : none_tiny s (decay m) -> (bctop = 0 \/ bctop = 1)%Z -> forall m', decay m' = decay m -> mode_equation s m' -> at_top bctop m' -> joined s m' ->
    exists c, forall i z, (i < layers s)%nat -> shape m' i z = c * shape m i z /\ slope m' i z = c * slope m i z }.
(** d is a decay of the soil: some shape, not zero everywhere, meets all conditions. *)
Definition eigenvalue (s : soil) (bctop bcbot : Z) (d : R) : Prop := exists m, decay m = d /\ mode_equation s m /\
  at_top bctop m /\ joined s m /\ at_bottom s bcbot m /\ exists i z, (i < layers s)%nat /\ shape m i z <> 0.
(** por[k][j] is the effect of the load at time tp[j] at depth zs[k] *)
Definition pressures (s : soil) (tim mag : list R) (rate : R -> R) (ms : list mode) (zs tp : list R) (A : list (list R)) : Prop :=
  length A = length zs /\ forall k j, (k < length zs)%nat -> (j < length tp)%nat -> 0 <= at_ zs k <= depth s (layers s) ->
    exists i, (i < layers s)%nat /\ depth s i <= at_ zs k <= depth s (S i) /\
      effect tim mag rate (at_ tp j) (response ms i (at_ zs k)) (nth j (nth k A []) 0).
(** a combination of the shapes *)
Definition combination (a : list R) (ms : list mode) (i : nat) (z : R) : R := total_over (combine a ms) (fun p => fst p * shape (snd p) i z).

(** numpy.linalg.det, on n x n matrices: zero exactly when some vector, not zero, is sent to zero. *)
Definition square (n : nat) (A : list (list R)) : Prop := length A = n /\ forall r, (r < n)%nat -> length (nth r A []) = n.
Definition tells_singular (n : nat) (det : list (list R) -> R) : Prop := forall A, square n A ->
  (det A = 0 <-> exists x, length x = n /\ (exists c, (c < n)%nat /\ nth c x 0 <> 0) /\
     forall r, (r < n)%nat -> total n (fun c => nth c (nth r A []) 0 * nth c x 0) = 0).

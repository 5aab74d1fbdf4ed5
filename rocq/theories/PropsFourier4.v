(** * C143, C144: a negative index counts from the end *)
From Coq Require Import Reals List Arith ZArith Bool Lia Lra.
From Coquelicot Require Import Coquelicot.
From Verif Require Import Base QuadratureGen QuadratureModel SteinModel SpecQuadrature QuadratureProofs QuadratureProofs2 QuadratureProofs3 QuadratureProofs4 PropsQuadrature FourierModel SpecFourier FourierProofs2 PropsFourier2.
Import ListNotations.
Local Open Scope R_scope.

Lemma rows_negative n ls j : (0 < j <= n)%nat -> shanks_rows n ls (- Z.of_nat j) = shanks_rows n ls (Z.of_nat (n - j)).
Proof.
  intros H. unfold shanks_rows. destruct (Z.ltb_spec (- Z.of_nat j) 0); [|lia]. destruct (Z.ltb_spec (Z.of_nat (n - j)) 0); [lia|]. replace (Z.of_nat n + - Z.of_nat j)%Z with (Z.of_nat (n - j)) by lia. reflexivity.
Qed.
Theorem C143_negative_index f si m ng j : (0 < j <= m)%nat -> vcosine_transform f si m ng (Some (- Z.of_nat j)%Z) = vcosine_transform f si m ng (Some (Z.of_nat (m - j))).
Proof.
  intros H. unfold vcosine_transform, vtransform. destruct (gauss_legendre ng) as [xw|]; [|reflexivity]. cbn [bind]. replace (length (cos_zeros m) - 1)%nat with m by (unfold cos_zeros; cbn [length]; rewrite map_length, seq_length; lia). apply rows_negative. auto.
Qed.
Theorem C143_extrapolated_from_end (f : R -> R) (si : list R) (m : nat) (ng : Z) (j : nat) (Ls : list R) : In ng gl_allowed -> (3 <= j <= m)%nat ->
  Forall2 (fun s L => exists l, partial_sums f m ng s l /\ geometric_from (m - j) l L) si Ls -> vcosine_transform f si m ng (Some (- Z.of_nat j)%Z) = Ok Ls.
Proof. intros Hn Hj HF. rewrite C143_negative_index by lia. apply C143_extrapolated; auto. lia. Qed.
Theorem C144_negative_index jn jn_0 f ri ng j : (0 < j <= length jn_0)%nat -> vhankel_transform jn jn_0 f ri ng (Some (- Z.of_nat j)%Z) = vhankel_transform jn jn_0 f ri ng (Some (Z.of_nat (length jn_0 - j))).
Proof.
  intros H. unfold vhankel_transform, vtransform. destruct (gauss_legendre ng) as [xw|]; [|reflexivity]. cbn [bind]. replace (length (jn_0s jn_0) - 1)%nat with (length jn_0) by (unfold jn_0s; cbn [length]; lia). apply rows_negative. auto.
Qed.

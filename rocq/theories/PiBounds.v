(** * PI to 15 digits (Machin's formula, alternating series). *)
From Coq Require Import Reals Lra Lia Machin Ratan AltSeries.
Local Open Scope R_scope.

Lemma atan_bounds x N : 0 < x < 1 ->
  sum_f_R0 (tg_alt (Ratan_seq x)) (S (2 * N)) <= atan x
    <= sum_f_R0 (tg_alt (Ratan_seq x)) (2 * N).
Proof.
  intros Hx.
  rewrite (atan_eq_ps_atan x Hx).
  unfold ps_atan. destruct (in_int x) as [Hi|Hi].
  - destruct (ps_atan_exists_1 x Hi) as [l Hl]. cbn [proj1_sig].
    apply alternated_series_ineq; auto.
    + apply Ratan_seq_decreasing; lra.
    + apply Ratan_seq_converging; lra.
  - exfalso; apply Hi; lra.
Qed.

Lemma PI_bounds : 3.1415926535897932 < PI < 3.1415926535897933.
Proof.
  pose proof Machin_4_5_239 as M.
  pose proof (atan_bounds (/5) 6 ltac:(lra)) as A.
  pose proof (atan_bounds (/239) 1 ltac:(lra)) as B.
  cbn [Nat.mul Nat.add] in A, B.
  assert (E1 : 0.1973955598498807583 < atan (/5) < 0.1973955598498807584).
  { destruct A as [A1 A2]. split.
    - eapply Rlt_le_trans; [|exact A1]. unfold sum_f_R0, tg_alt, Ratan_seq. cbn [Nat.mul Nat.add pow].
      repeat rewrite INR_IZR_INZ. cbn [Z.of_nat Pos.of_succ_nat Pos.succ]. lra.
    - eapply Rle_lt_trans; [exact A2|]. unfold sum_f_R0, tg_alt, Ratan_seq. cbn [Nat.mul Nat.add pow].
      repeat rewrite INR_IZR_INZ. cbn [Z.of_nat Pos.of_succ_nat Pos.succ]. lra. }
  assert (E2 : 0.00418407600207472386 < atan (/239) < 0.00418407600207472708).
  { destruct B as [A1 A2]. split.
    - eapply Rlt_le_trans; [|exact A1]. unfold sum_f_R0, tg_alt, Ratan_seq. cbn [Nat.mul Nat.add pow].
      repeat rewrite INR_IZR_INZ. cbn [Z.of_nat Pos.of_succ_nat Pos.succ]. lra.
    - eapply Rle_lt_trans; [exact A2|]. unfold sum_f_R0, tg_alt, Ratan_seq. cbn [Nat.mul Nat.add pow].
      repeat rewrite INR_IZR_INZ. cbn [Z.of_nat Pos.of_succ_nat Pos.succ]. lra. }
  lra.
Qed.

(** C74: logarithm (model: Approx.v). *)
Require Import List Reals ZArith Arith Bool Lia Lra.
From Verif Require Import Ring64 Tensor Rtensor Realgrad Approx Approx_claims Approxlog_claims.
Import ListNotations.
Open Scope R_scope.

(** C74: in the default configuration the logarithm is within 2% of the exact one, plus 0.001, from 0.0001 to 250. *)
Theorem C74_range : forall x, 1 / 10000 <= x <= 250 -> Rabs (mpc_log default false x - ln x) <= 2 / 100 * Rabs (ln x) + 1 / 1000.
Proof. exact k_C74_range. Qed.
Print Assumptions C74_range.
(** C74 refuted at 1: the result is not 0, so no relative error can be promised near 1. *)
Theorem C74_one_refuted : mpc_log default false 1 < 0 /\ ~ Rabs (mpc_log default false 1 - ln 1) <= 2 / 100 * Rabs (ln 1).
Proof. exact k_C74_one_refuted. Qed.
Print Assumptions C74_one_refuted.
(** C74: with input_in_01 the bound is that of 100 x, from 0.000001 to 1 (and to 2.5). *)
Theorem C74_in_01 : forall x, 1 / 1000000 <= x <= 25 / 10 -> Rabs (mpc_log default true x - ln x) <= 2 / 100 * Rabs (ln (100 * x)) + 11 / 10000.
Proof. exact k_C74_in_01. Qed.
Print Assumptions C74_in_01.
(** C74: a step leaves N (1 - x^(-1/N)) where it is, with N = 2^log_exp_iterations, for any order; this is less than ln x, by at most (ln x)^2 / N. *)
Theorem C74_rest : forall c x, 0 < x -> let n := 2 ^ log_exp_iterations c in let y := n * (1 - exp (- (ln x / n))) in
  log_step c x y = y /\ (x <> 1 -> y < ln x) /\ (Rabs (ln x) <= n / 4 -> ln x - y <= ln x * ln x / n).
Proof. exact k_C74_rest. Qed.
Print Assumptions C74_rest.

(** at e the default result is within 0.021 of 1, at 1 within 0.001 of 0 *)
Example C74_e : Rabs (mpc_log default false (exp 1) - 1) <= 21 / 1000.
Proof.
  pose proof (exp_ineq1 1 ltac:(lra)) as L. pose proof exp_le_3 as U.
  pose proof (C74_range (exp 1) ltac:(lra)) as H. rewrite ln_exp, Rabs_R1 in H. lra.
Qed.
Example C74_one : - (1 / 1000) <= mpc_log default false 1 < 0.
Proof.
  pose proof (C74_range 1 ltac:(lra)) as H. destruct C74_one_refuted as [N _]. rewrite ln_1, Rabs_R0, Rminus_0_r, Rabs_left in H by exact N. lra.
Qed.
Example C74_hundredth : Rabs (mpc_log default true (1 / 100) - ln (1 / 100)) <= 11 / 10000.
Proof. pose proof (C74_in_01 (1 / 100) ltac:(lra)) as H. replace (100 * (1 / 100)) with 1 in H by field. rewrite ln_1, Rabs_R0 in H. lra. Qed.

(** Property theorems: how close tanh and sigmoid by Chebyshev polynomials come to tanh and the logistic function (model: Approx.v).  C105. *)
Require Import List Reals ZArith Arith Bool Lia Lra.
From Verif Require Import Ring64 Tensor Rtensor Realgrad Approx Approx_claims Approxcheb_claims P_Approxcheb Interp_claims.
Import ListNotations.
Open Scope R_scope.

(** C105: tanh by Chebyshev differs from tanh by at most 2 |T_terms(x)| / 2^terms, at every x. *)
Theorem C105_everywhere c x : sigmoid_tanh_method c = Chebyshev -> Nat.even (sigmoid_tanh_terms c) = true -> (6 <= sigmoid_tanh_terms c)%nat ->
  exists v, mpc_tanh c x = inr v /\ Rabs (v - tanh x) <= 2 * Rabs (first_kind (sigmoid_tanh_terms c) x) / 2 ^ sigmoid_tanh_terms c.
Proof. exact (k_C105_everywhere c x). Qed.
Print Assumptions C105_everywhere.
(** C105: so it is within 2 / 2^terms of tanh on [-1, 1]. *)
Theorem C105_tanh c x : sigmoid_tanh_method c = Chebyshev -> Nat.even (sigmoid_tanh_terms c) = true -> (6 <= sigmoid_tanh_terms c)%nat -> -1 <= x <= 1 ->
  exists v, mpc_tanh c x = inr v /\ Rabs (v - tanh x) <= 2 / 2 ^ sigmoid_tanh_terms c.
Proof. exact (k_C105_tanh c x). Qed.
Print Assumptions C105_tanh.
(** C105: and sigmoid by Chebyshev is within 1 / 2^terms of 1 / (1 + exp(-x)) on [-2, 2]. *)
Theorem C105_sigmoid c x : sigmoid_tanh_method c = Chebyshev -> Nat.even (sigmoid_tanh_terms c) = true -> (6 <= sigmoid_tanh_terms c)%nat -> -2 <= x <= 2 ->
  exists v, mpc_sigmoid c x = inr v /\ Rabs (v - / (1 + exp (- x))) <= 1 / 2 ^ sigmoid_tanh_terms c.
Proof. exact (k_C105_sigmoid c x). Qed.
Print Assumptions C105_sigmoid.
(** C105: it is documented to be truncated to 1 and -1 outside [-1, 1]; but at 41/40 it is less than 1 with every valid number of terms. *)
Theorem C105_truncated_refuted c : sigmoid_tanh_method c = Chebyshev -> Nat.even (sigmoid_tanh_terms c) = true -> (6 <= sigmoid_tanh_terms c)%nat -> exists v, mpc_tanh c (41 / 40) = inr v /\ v < 1.
Proof. exact (k_C105_truncated_refuted c). Qed.
Print Assumptions C105_truncated_refuted.

(** the default 32 terms: within 1 / 2147483648 of tanh at 1/3, and sigmoid within half of that at -5/4 *)
Example C105_default : (exists v, mpc_tanh (by_chebyshev 32) (1 / 3) = inr v /\ Rabs (v - tanh (1 / 3)) <= 1 / 2147483648) /\ (exists v, mpc_sigmoid (by_chebyshev 32) (- 5 / 4) = inr v /\ Rabs (v - / (1 + exp (- (- 5 / 4)))) <= 1 / 4294967296).
Proof.
  split.
  - destruct (C105_tanh (by_chebyshev 32) (1 / 3) eq_refl eq_refl ltac:(cbn; lia) ltac:(lra)) as [v [V B]]. exists v. split; [exact V|]. cbn [sigmoid_tanh_terms by_chebyshev pow] in B. lra.
  - destruct (C105_sigmoid (by_chebyshev 32) (- 5 / 4) eq_refl eq_refl ltac:(cbn; lia) ltac:(lra)) as [v [V B]]. exists v. split; [exact V|]. cbn [sigmoid_tanh_terms by_chebyshev pow] in B. lra.
Qed.
(** 6 terms at 41/40, outside the interval: within 0.064 *)
Example C105_outside : exists v, mpc_tanh (by_chebyshev 6) (41 / 40) = inr v /\ Rabs (v - tanh (41 / 40)) <= 64 / 1000.
Proof. destruct (C105_everywhere (by_chebyshev 6) (41 / 40) eq_refl eq_refl ltac:(cbn; lia)) as [v [V B]]. exists v. split; [exact V|]. change (sigmoid_tanh_terms (by_chebyshev 6)) with 6%nat in B. rewrite (Rabs_right (first_kind 6 (41 / 40))) in B by (cbn [first_kind]; lra). cbn [pow first_kind] in B. lra. Qed.
Example C105_not_truncated : exists v, mpc_tanh (by_chebyshev 32) (41 / 40) = inr v /\ v < 1.
Proof. apply C105_truncated_refuted; [reflexivity|reflexivity|cbn; lia]. Qed.

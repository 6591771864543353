(** C70, C71, C72: exponential, reciprocal and square root (model: Approx.v). *)
Require Import List Reals ZArith Arith Bool Lia Lra.
From Verif Require Import Ring64 Tensor Rtensor Realgrad Approx Approx_claims.
Import ListNotations.
Open Scope R_scope.

(** C70: never above the exponential down to -2^d, never below exp(x)(1 - x^2/2^d). *)
Theorem C70_exp : forall c x, (1 <= exp_iterations c)%nat ->
  exp x * (1 - x * x / 2 ^ exp_iterations c) <= mpc_exp c x /\ 0 <= mpc_exp c x /\ (- 2 ^ exp_iterations c <= x -> mpc_exp c x <= exp x).
Proof. exact k_C70_exp. Qed.
Print Assumptions C70_exp.
(** C70: so the approximation tends to the exponential as the number of iterations grows. *)
Theorem C70_limit : forall c x, Un_cv (fun d => mpc_exp (with_exp_iterations d c) x) (exp x).
Proof. exact k_C70_limit. Qed.
Print Assumptions C70_limit.
(** C70 refuted far below zero: from -2^(d+1) on the result is at least 1. *)
Theorem C70_far_refuted : forall c x, x <= - (2 * 2 ^ exp_iterations c) -> (1 <= exp_iterations c)%nat -> 1 <= mpc_exp c x /\ exp x < 1.
Proof. exact k_C70_far_refuted. Qed.
Print Assumptions C70_far_refuted.
(** C71: the error 1 - x r of the Newton iteration is the error of the first estimate to the power 2^iterations. *)
Theorem C71_error : forall c x, reciprocal_method c = NR ->
  (exists r, mpc_reciprocal c false x = inr r /\ 1 - x * r = (1 - argument c x * nr_initial c (argument c x)) ^ (2 ^ reciprocal_nr_iters c)) /\
  (exists r, mpc_reciprocal c true x = inr r /\ 1 - x * r = (1 - 64 * x * nr_initial c (64 * x)) ^ (2 ^ reciprocal_nr_iters c)).
Proof. exact k_C71_error. Qed.
Print Assumptions C71_error.
(** C71: the iterations tend to 1/x exactly when the first estimate is between 0 and 2/x. *)
Theorem C71_converges : forall c x, reciprocal_method c = NR -> x <> 0 ->
  (Un_cv (fun k => value (mpc_reciprocal (with_nr_iters k c) false x)) (/ x) <-> 0 < argument c x * nr_initial c (argument c x) < 2).
Proof. exact k_C71_converges. Qed.
Print Assumptions C71_converges.
(** C71: with the built-in first estimate the iteration converges for 0 < |x| <= 2^(d-1) up to 166. *)
Theorem C71_domain : forall c x, reciprocal_method c = NR -> reciprocal_initial c = None -> (1 <= exp_iterations c)%nat ->
  0 < argument c x <= 166 -> 2 * argument c x <= 2 ^ exp_iterations c + 1 ->
  Un_cv (fun k => value (mpc_reciprocal (with_nr_iters k c) false x)) (/ x).
Proof. exact k_C71_domain. Qed.
Print Assumptions C71_domain.
(** C71 refuted from 2^d + 1/2 on: the first estimate is above 3 and the iterations move away without bound. *)
Theorem C71_far_refuted : forall c x, reciprocal_method c = NR -> reciprocal_initial c = None -> (1 <= exp_iterations c)%nat -> 2 ^ exp_iterations c + 1 / 2 <= argument c x ->
  ~ Un_cv (fun k => value (mpc_reciprocal (with_nr_iters k c) false x)) (/ x) /\
  exists r, mpc_reciprocal c false x = inr r /\ 1 - x * r = (1 - argument c x * nr_initial c (argument c x)) ^ (2 ^ reciprocal_nr_iters c) /\ 3 * argument c x <= argument c x * nr_initial c (argument c x) /\ ((1 <= reciprocal_nr_iters c)%nat -> x * r < 0).
Proof. exact k_C71_far_refuted. Qed.
Print Assumptions C71_far_refuted.
(** C71: with the default configuration and 0.01 <= |x| <= 250 the product x r is at most 1 and at least 1 - 2^-14. *)
Theorem C71_default : forall x, 1 / 100 <= Rabs x <= 250 -> exists r, mpc_reciprocal default false x = inr r /\ 0 <= 1 - x * r <= 1 / 16384.
Proof. exact k_C71_default. Qed.
Print Assumptions C71_default.
(** C71 refuted for reciprocal_log_iters: the number of logarithm iterations asked for is not used. *)
Theorem C71_log_iters_refuted : forall c k in01 x, mpc_reciprocal (with_log_iters k c) in01 x = mpc_reciprocal c in01 x.
Proof. exact k_C71_log_iters_refuted. Qed.
Print Assumptions C71_log_iters_refuted.
(** C72: if the first estimate y0 satisfies 0 < y0 and x y0^2 < 3 then from the first iteration on 0 <= 1 - x y^2 <= q^(2^k) with q < 1. *)
Theorem C72_error : forall c x, sqrt_nr_initial c = None -> 0 < x -> 0 < sqrt_initial c x -> x * (sqrt_initial c x * sqrt_initial c x) < 3 ->
  exists q, 0 <= q < 1 /\ forall k, exists y, mpc_inv_sqrt (with_sqrt_iters (S k) c) x = inr y /\ 0 < y /\ 0 <= 1 - x * (y * y) <= q ^ (2 ^ k) /\ mpc_sqrt (with_sqrt_iters (S k) c) x = inr (y * x).
Proof. exact k_C72_error. Qed.
Print Assumptions C72_error.
(** C72: under the same condition the iterations tend to 1/sqrt(x) and sqrt(x); with a negative first estimate they tend to the negative roots. *)
Theorem C72_converges : forall c x, sqrt_nr_initial c = None -> 0 < x -> x * (sqrt_initial c x * sqrt_initial c x) < 3 ->
  (0 < sqrt_initial c x -> Un_cv (fun k => value (mpc_inv_sqrt (with_sqrt_iters k c) x)) (/ sqrt x) /\ Un_cv (fun k => value (mpc_sqrt (with_sqrt_iters k c) x)) (sqrt x)) /\
  (sqrt_initial c x < 0 -> Un_cv (fun k => value (mpc_inv_sqrt (with_sqrt_iters k c) x)) (- / sqrt x) /\ Un_cv (fun k => value (mpc_sqrt (with_sqrt_iters k c) x)) (- sqrt x)).
Proof. exact k_C72_converges. Qed.
Print Assumptions C72_converges.
(** C72 refuted for a configured first estimate: a configuration can only hold a number, and numbers have no mul_. *)
Theorem C72_initial_refuted : forall c v x, sqrt_nr_initial c = Some v -> mpc_sqrt c x = inl AttributeError /\ ((1 <= sqrt_nr_iters c)%nat -> mpc_inv_sqrt c x = inl AttributeError).
Proof. exact k_C72_initial_refuted. Qed.
Print Assumptions C72_initial_refuted.
(** C72: with the default configuration the iterations tend to 1/sqrt(x) and sqrt(x) for 0 < x <= 204. *)
Theorem C72_domain : forall x, 0 < x <= 204 ->
  Un_cv (fun k => value (mpc_inv_sqrt (with_sqrt_iters k default) x)) (/ sqrt x) /\ Un_cv (fun k => value (mpc_sqrt (with_sqrt_iters k default) x)) (sqrt x).
Proof. exact k_C72_domain. Qed.
Print Assumptions C72_domain.
(** C72 refuted from 205 to 300: the first estimate is negative and every number of iterations gives a negative square root. *)
Theorem C72_negative_refuted : forall x, 205 <= x <= 300 ->
  (forall k, value (mpc_sqrt (with_sqrt_iters k default) x) < 0) /\ Un_cv (fun k => value (mpc_sqrt (with_sqrt_iters k default) x)) (- sqrt x).
Proof. exact k_C72_negative_refuted. Qed.
Print Assumptions C72_negative_refuted.
(** C72 refuted just below that: with the default three iterations the result is less than half the root. *)
Theorem C72_slow_refuted : forall x, 195 <= x <= 204 -> value (mpc_sqrt default x) < sqrt x / 2.
Proof. exact k_C72_slow_refuted. Qed.
Print Assumptions C72_slow_refuted.

(** the bounds at 1 with the default eight squarings, and a case small enough to compute: two squarings at -4 give 0, at -8 they give 1 *)
Example C70_one : exp 1 * (255 / 256) <= mpc_exp default 1 <= exp 1.
Proof.
  destruct (C70_exp default 1 ltac:(cbn; lia)) as [A [_ B]]. change (exp_iterations default) with 8%nat in A, B. split; [|apply B; lra].
  replace (255 / 256) with (1 - 1 * 1 / 2 ^ 8) by field. exact A.
Qed.
Example C70_small : mpc_exp (with_exp_iterations 2 default) (-4) = 0 /\ mpc_exp (with_exp_iterations 2 default) (-8) = 1 /\ mpc_exp (with_exp_iterations 2 default) 4 = 16.
Proof. unfold mpc_exp, exp_approx. cbn [exp_iterations with_exp_iterations Nat.iter nat_rect]. repeat split; field. Qed.
(** 1/10 and -20 are in the range of C71_default; the configured first estimate 1/4 for 2 converges, with error (1/2)^(2^k), and 1 does not *)
Example C71_tenth : exists r, mpc_reciprocal default false (1 / 10) = inr r /\ 10 - 1 / 1000 <= r <= 10.
Proof. destruct (C71_default (1 / 10)) as [r [E B]]; [rewrite Rabs_right; lra|]. exists r. split; [exact E|lra]. Qed.
Example C71_minus : exists r, mpc_reciprocal default false (-20) = inr r /\ - (1 / 20) <= r <= - (49 / 1000).
Proof. destruct (C71_default (-20)) as [r [E B]]; [rewrite Rabs_left; lra|]. exists r. split; [exact E|lra]. Qed.
Example C71_initial : Un_cv (fun k => value (mpc_reciprocal (with_nr_iters k (with_reciprocal 10 true (Some (1 / 4)) default)) false 2)) (/ 2) /\
  ~ Un_cv (fun k => value (mpc_reciprocal (with_nr_iters k (with_reciprocal 10 true (Some 1) default)) false 2)) (/ 2).
Proof.
  split.
  - apply (proj2 (C71_converges (with_reciprocal 10 true (Some (1 / 4)) default) 2 eq_refl ltac:(lra))). unfold argument, nr_initial; cbn [with_reciprocal reciprocal_all_pos reciprocal_initial]. lra.
  - intros H. apply (proj1 (C71_converges (with_reciprocal 10 true (Some 1) default) 2 eq_refl ltac:(lra))) in H. unfold argument, nr_initial in H; cbn [with_reciprocal reciprocal_all_pos reciprocal_initial] in H. lra.
Qed.
Example C71_far : exists r, mpc_reciprocal (with_exp_iterations 2 default) false 5 = inr r /\ r < 0.
Proof.
  destruct (C71_far_refuted (with_exp_iterations 2 default) 5 eq_refl eq_refl ltac:(cbn; lia)) as [_ [r [E [_ [_ N]]]]].
  - unfold argument; cbn [with_exp_iterations exp_iterations reciprocal_all_pos default]. rewrite Rabs_right; lra.
  - exists r. split; [exact E|]. specialize (N ltac:(cbn; lia)). lra.
Qed.
(** the square root of 4 tends to 2, that of 256 to -16 *)
Example C72_roots : Un_cv (fun k => value (mpc_sqrt (with_sqrt_iters k default) 4)) 2 /\ Un_cv (fun k => value (mpc_sqrt (with_sqrt_iters k default) 256)) (-16).
Proof.
  split.
  - destruct (C72_domain 4 ltac:(lra)) as [_ H]. replace 2 with (sqrt 4); [exact H|]. replace 4 with (2 * 2) by ring. apply sqrt_square. lra.
  - destruct (C72_negative_refuted 256 ltac:(lra)) as [_ H]. replace (-16) with (- sqrt 256); [exact H|]. replace 256 with (16 * 16) by ring. rewrite sqrt_square; lra.
Qed.
Example C72_slow : value (mpc_sqrt default 196) < 7.
Proof. pose proof (C72_slow_refuted 196 ltac:(lra)) as H. replace (sqrt 196) with 14 in H; [lra|]. replace 196 with (14 * 14) by ring. symmetry. apply sqrt_square. lra. Qed.

(** C73, C75: cosine and sine, sigmoid and tanh by the reciprocal (model: Approx.v). *)
Require Import List Reals ZArith Arith Bool Lia Lra.
From Verif Require Import Ring64 Tensor Rtensor Realgrad Approx Approx_claims Approxfn_claims.
Import ListNotations.
Open Scope R_scope.

(** C73: for at least one iteration, with N = 2^trig_iterations, cosine and sine are the real and imaginary part of (1 + i x / N)^N. *)
Theorem C73_polar : forall c x, (1 <= trig_iterations c)%nat -> let n := 2 ^ trig_iterations c in let r := sqrt (1 + (x / n) * (x / n)) ^ (2 ^ trig_iterations c) in
  mpc_cos c x = r * cos (n * atan (x / n)) /\ mpc_sin c x = r * sin (n * atan (x / n)).
Proof. exact k_C73_polar. Qed.
Print Assumptions C73_polar.
(** C73: their squares do not add up to 1 but to (1 + x^2/N^2)^N, which is at least 1 + x^2/N and at most exp(x^2/N). *)
Theorem C73_modulus : forall c x, (1 <= trig_iterations c)%nat -> let n := 2 ^ trig_iterations c in
  mpc_cos c x * mpc_cos c x + mpc_sin c x * mpc_sin c x = (1 + (x / n) * (x / n)) ^ (2 ^ trig_iterations c) /\
  1 + x * x / n <= mpc_cos c x * mpc_cos c x + mpc_sin c x * mpc_sin c x <= exp (x * x / n).
Proof. exact k_C73_modulus. Qed.
Print Assumptions C73_modulus.
(** C73: the distance from cos and sin is at most exp(x^2/(2N)) - 1 + |x|^3/(3N^2). *)
Theorem C73_error : forall c x, (1 <= trig_iterations c)%nat -> let n := 2 ^ trig_iterations c in let bound := exp (x * x / (2 * n)) - 1 + Rabs x * (x * x) / (3 * (n * n)) in
  Rabs (mpc_cos c x - cos x) <= bound /\ Rabs (mpc_sin c x - sin x) <= bound.
Proof. exact k_C73_error. Qed.
Print Assumptions C73_error.
(** C73: for x^2 <= N it is at most x^2/N + |x|^3/(3N^2); in the default configuration N = 1024. *)
Theorem C73_near : forall c x, (1 <= trig_iterations c)%nat -> let n := 2 ^ trig_iterations c in x * x <= n ->
  Rabs (mpc_cos c x - cos x) <= x * x / n + Rabs x * (x * x) / (3 * (n * n)) /\ Rabs (mpc_sin c x - sin x) <= x * x / n + Rabs x * (x * x) / (3 * (n * n)).
Proof. exact k_C73_near. Qed.
Print Assumptions C73_near.
(** C73: as the number of iterations grows the results tend to cos x and sin x. *)
Theorem C73_limit : forall c x, Un_cv (fun k => mpc_cos (with_trig_iterations k c) x) (cos x) /\ Un_cv (fun k => mpc_sin (with_trig_iterations k c) x) (sin x).
Proof. exact k_C73_limit. Qed.
Print Assumptions C73_limit.
(** C73 refuted far from 0: the results are not bounded by 1; from |x| = 100 on one of them exceeds 2 in the default configuration. *)
Theorem C73_large_refuted : forall x, 100 <= Rabs x -> 2 < Rabs (mpc_cos default x) \/ 2 < Rabs (mpc_sin default x).
Proof. exact k_C73_large_refuted. Qed.
Print Assumptions C73_large_refuted.
(** C73 refuted for trig_iterations = 0: one squaring is done all the same, so cos(x) is 1 - x^2 and sin(x) is 2x, where (1 + ix)^1 has 1 and x. *)
Theorem C73_zero_refuted : forall c x, trig_iterations c = 0%nat -> mpc_cos c x = 1 - x * x /\ mpc_sin c x = 2 * x.
Proof. exact k_C73_zero_refuted. Qed.
Print Assumptions C73_zero_refuted.
(** C75: by the reciprocal, for |x| <= N = 2^exp_iterations, sigmoid is between 0 and 1 and within 1/256 + 1/N of the exact one. *)
Theorem C75_sigmoid : forall c x, reciprocal_method c = NR -> sigmoid_tanh_method c = Reciprocal -> (1 <= exp_iterations c)%nat -> Rabs x <= 2 ^ exp_iterations c ->
  exists s, mpc_sigmoid c x = inr s /\ 0 <= s <= 1 /\ Rabs (s - / (1 + exp (- x))) <= 1 / 256 + / 2 ^ exp_iterations c.
Proof. exact k_C75_sigmoid. Qed.
Print Assumptions C75_sigmoid.
(** C75: and tanh within twice that for |2x| <= N. *)
Theorem C75_tanh : forall c x, reciprocal_method c = NR -> sigmoid_tanh_method c = Reciprocal -> (1 <= exp_iterations c)%nat -> 2 * Rabs x <= 2 ^ exp_iterations c ->
  exists s, mpc_tanh c x = inr s /\ -1 <= s <= 1 /\ Rabs (s - tanh x) <= 1 / 128 + 2 / 2 ^ exp_iterations c.
Proof. exact k_C75_tanh. Qed.
Print Assumptions C75_tanh.
(** C75 refuted at 0: sigmoid(0) is 255/512 and tanh(0) is -1/256, for any number of iterations of exp; so sigmoid(-x) + sigmoid(x) = 1 and tanh(-x) = - tanh(x) fail there (and hold elsewhere). *)
Theorem C75_zero_refuted : forall c, reciprocal_method c = NR -> sigmoid_tanh_method c = Reciprocal -> mpc_sigmoid c 0 = inr (255 / 512) /\ mpc_tanh c 0 = inr (- (1 / 256)).
Proof. exact k_C75_zero_refuted. Qed.
Print Assumptions C75_zero_refuted.
(** C75: away from 0 the two symmetries are exact. *)
Theorem C75_symmetric : forall c x, reciprocal_method c = NR -> sigmoid_tanh_method c = Reciprocal -> x <> 0 ->
  (exists s, mpc_sigmoid c x = inr s /\ mpc_sigmoid c (- x) = inr (1 - s)) /\ (exists t, mpc_tanh c x = inr t /\ mpc_tanh c (- x) = inr (- t)).
Proof. exact k_C75_symmetric. Qed.
Print Assumptions C75_symmetric.
(** C75 refuted far from 0: at |x| = 2N the result is again that at 0, and tanh(N) is -1/256. *)
Theorem C75_far_refuted : forall c, reciprocal_method c = NR -> sigmoid_tanh_method c = Reciprocal -> (1 <= exp_iterations c)%nat -> mpc_sigmoid c (2 * 2 ^ exp_iterations c) = inr (255 / 512) /\ mpc_tanh c (2 ^ exp_iterations c) = inr (- (1 / 256)).
Proof. exact k_C75_far_refuted. Qed.
Print Assumptions C75_far_refuted.

(** at 1 the default results are within 1/1000 of cosine and sine; their squares add up to more than 1 *)
Example C73_one : Rabs (mpc_cos default 1 - cos 1) <= 1 / 1000 /\ Rabs (mpc_sin default 1 - sin 1) <= 1 / 1000 /\ 1 < mpc_cos default 1 * mpc_cos default 1 + mpc_sin default 1 * mpc_sin default 1.
Proof.
  pose proof (C73_near default 1 ltac:(cbn; lia)) as H. pose proof (C73_modulus default 1 ltac:(cbn; lia)) as M. cbv zeta in H, M.
  change (trig_iterations default) with 10%nat in H, M. rewrite Rabs_R1 in H. destruct (H ltac:(lra)) as [A B]. destruct M as [_ [M _]].
  repeat split; lra.
Qed.
Example C73_two : mpc_cos (with_trig_iterations 1 default) 2 = 0 /\ mpc_sin (with_trig_iterations 1 default) 2 = 2.
Proof. unfold mpc_cos, mpc_sin, eix. cbn [with_trig_iterations trig_iterations Nat.sub Nat.iter nat_rect fst snd]. split; field. Qed.
Example C73_far : 2 < Rabs (mpc_cos default (-100)) \/ 2 < Rabs (mpc_sin default (-100)).
Proof. apply C73_large_refuted. rewrite Rabs_left; lra. Qed.
Example C75_three : exists s, mpc_sigmoid default (-3) = inr s /\ 0 <= s <= 1 /\ Rabs (s - / (1 + exp (- -3))) <= 1 / 128.
Proof.
  destruct (C75_sigmoid default (-3) eq_refl eq_refl ltac:(cbn; lia)) as [s [E [B D]]]; change (exp_iterations default) with 8%nat in *; [rewrite Rabs_left; lra|].
  exists s. repeat split; try exact E; lra.
Qed.
Example C75_hundred : exists s, mpc_tanh default 100 = inr s /\ -1 <= s <= 1 /\ Rabs (s - tanh 100) <= 1 / 64.
Proof.
  destruct (C75_tanh default 100 eq_refl eq_refl ltac:(cbn; lia)) as [s [E [B D]]]; change (exp_iterations default) with 8%nat in *; [rewrite Rabs_right; lra|].
  exists s. repeat split; try exact E; lra.
Qed.
Example C75_zero : mpc_sigmoid default 0 = inr (255 / 512) /\ mpc_tanh default 256 = inr (- (1 / 256)).
Proof. split; [apply C75_zero_refuted; reflexivity|]. destruct (C75_far_refuted default eq_refl eq_refl ltac:(cbn; lia)) as [_ H]. change (exp_iterations default) with 8%nat in H. replace (2 ^ 8) with 256 in H by ring. exact H. Qed.

(** C77, C78: error function, softmax and log_softmax (model: Approx.v). *)
Require Import List Reals ZArith Arith Bool Lia Lra.
From Verif Require Import Ring64 Tensor Rtensor Realgrad Approx Approx_claims Approxlog_claims Approxsoft_claims.
Import ListNotations.
Open Scope R_scope.

(** C77: with at most one iteration the result is the Taylor polynomial of degree 1 or 3. *)
Theorem C77_short : forall c x, (erf_iterations c <= 1)%nat -> mpc_erf c x = taylor (erf_iterations c) x.
Proof. exact k_C77_short. Qed.
Print Assumptions C77_short.
(** C77 refuted from two iterations on: the result at two iterations has x^6 where the Taylor polynomial has x^5, and differs from it at every x but 0 and 1. *)
Theorem C77_two_refuted : forall c x, erf_iterations c = 2%nat -> mpc_erf c x - taylor 2 x = 2 / sqrt PI * (x ^ 6 - x ^ 5) / 10 /\ (x <> 0 -> x <> 1 -> mpc_erf c x <> taylor 2 x).
Proof. exact k_C77_two_refuted. Qed.
Print Assumptions C77_two_refuted.
(** C77 refuted in the default configuration: the result is not odd; erf(x) + erf(-x) is positive for 0 < |x| <= 1. *)
Theorem C77_odd_refuted : forall x, x <> 0 -> Rabs x <= 1 -> 0 < mpc_erf default x + mpc_erf default (- x).
Proof. exact k_C77_odd_refuted. Qed.
Print Assumptions C77_odd_refuted.
(** C78: along a line of at least two entries there are as many results and they never exceed 1 in total, whatever the entries, if there is an iteration. *)
Theorem C78_total : forall c xs, (2 <= length xs)%nat -> reciprocal_method c = NR -> (1 <= reciprocal_nr_iters c)%nat -> exists ys, mpc_softmax c xs = inr ys /\ length ys = length xs /\ total ys <= 1.
Proof. exact k_C78_total. Qed.
Print Assumptions C78_total.
(** C78: a line with a single entry is exact, in every configuration. *)
Theorem C78_single : forall c x, mpc_softmax c [x] = inr [exp x / total (map exp [x])] /\ mpc_log_softmax c [x] = [ln (exp x / total (map exp [x]))].
Proof. exact k_C78_single. Qed.
Print Assumptions C78_single.
(** C78: in the default configuration, for 2 to 250 entries that are at most 256 apart, every result is between 0 and 1, their total is between 1 - 1/16384 and 1, and each is within n/256 + 1/16384 of the exact one. *)
Theorem C78_softmax : forall xs, (2 <= length xs <= 250)%nat -> (forall v w, In v xs -> In w xs -> v - w <= 256) ->
  exists r, mpc_softmax default xs = inr (map r xs) /\ 1 - 1 / 16384 <= total (map r xs) <= 1 /\
    forall v, In v xs -> 0 <= r v <= 1 /\ Rabs (r v - exp v / total (map exp xs)) <= INR (length xs) / 256 + 1 / 16384.
Proof. exact k_C78_softmax. Qed.
Print Assumptions C78_softmax.
(** C78 refuted for many entries: 257 or more equal entries give a total below -1 in the default configuration (every result is the same negative number). *)
Theorem C78_many_refuted : forall v n, (257 <= n)%nat -> exists y, mpc_softmax default (repeat v n) = inr (repeat y n) /\ INR n * y < -1.
Proof. exact k_C78_many_refuted. Qed.
Print Assumptions C78_many_refuted.
(** C78: in the default configuration, for 2 to 250 entries at most 256 apart, log_softmax is within 2% of ln n plus 0.001 plus n/256 of the exact one. *)
Theorem C78_log_softmax : forall xs, (2 <= length xs <= 250)%nat -> (forall v w, In v xs -> In w xs -> v - w <= 256) ->
  exists r, mpc_log_softmax default xs = map r xs /\ forall v, In v xs -> Rabs (r v - ln (exp v / total (map exp xs))) <= 2 / 100 * ln (INR (length xs)) + 1 / 1000 + INR (length xs) / 256.
Proof. exact k_C78_log_softmax. Qed.
Print Assumptions C78_log_softmax.

Example C77_half : 0 < mpc_erf default (1 / 2) + mpc_erf default (- (1 / 2)).
Proof. apply C77_odd_refuted; [lra|rewrite Rabs_right; lra]. Qed.
Example C77_one_term : mpc_erf (with_erf_iterations 1 default) 1 = 2 / sqrt PI * (2 / 3).
Proof. rewrite C77_short by (cbn; lia). unfold taylor. cbn. field. apply Rgt_not_eq, sqrt_lt_R0, PI_RGT_0. Qed.
Example C78_three : exists r, mpc_softmax default [-2; 0; 5] = inr (map r [-2; 0; 5]) /\ 1 - 1 / 16384 <= total (map r [-2; 0; 5]) <= 1 /\ 0 <= r 5 <= 1.
Proof.
  destruct (C78_softmax [-2; 0; 5]) as [r [E [T B]]].
  - cbn [length]. lia.
  - intros v w V W. cbn [In] in V, W. destruct V as [<-|[<-|[<-|[]]]]; destruct W as [<-|[<-|[<-|[]]]]; lra.
  - exists r. repeat split; try exact E; try apply T; apply (B 5); right; right; now left.
Qed.
Example C78_log_two : exists r, mpc_log_softmax default [0; 0] = map r [0; 0] /\ Rabs (r 0 - ln (1 / 2)) <= 3 / 100.
Proof.
  destruct (C78_log_softmax [0; 0]) as [r [E B]].
  - cbn [length]. lia.
  - intros v w V W. cbn [In] in V, W. destruct V as [<-|[<-|[]]]; destruct W as [<-|[<-|[]]]; lra.
  - exists r. split; [exact E|]. specialize (B 0 ltac:(now left)). unfold total in B. cbn [map fold_right length INR] in B. rewrite exp_0 in B.
    replace (1 / (1 + (1 + 0))) with (1 / 2) in B by field.
    pose proof (ln_increasing (1 + 1) (exp 1) ltac:(lra) (exp_ineq1 1 ltac:(lra))) as L. rewrite ln_exp in L.
    lra.
Qed.
Example C78_many : exists y, mpc_softmax default (repeat 3 300) = inr (repeat y 300) /\ y < 0.
Proof.
  destruct (C78_many_refuted 3 300 ltac:(lia)) as [y [E N]]. exists y. split; [exact E|].
  pose proof (pos_INR 300) as P. destruct (Rlt_dec y 0); [assumption|]. pose proof (Rmult_le_pos (INR 300) y P ltac:(lra)). lra.
Qed.

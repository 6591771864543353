(** Theorems for C67. *)
Require Import List Reals ZArith Arith Bool Lia Lra.
From Verif Require Import Ring64 Tensor Tensor_proofs Rtensor Rtensor_proofs Realgrad Realgrad_claims Realloss Realloss_claims.
Import ListNotations.
Open Scope R_scope.

(** C67: softmax along a dimension gives exp(x_i) / sum_j exp(x_j), a positive vector with sum 1 ... *)
Theorem C67_softmax_value : forall d x ix, (d < length (rshape x))%nat -> valid (rshape x) ix ->
  rat (softmax d x) ix = probability d x ix /\ 0 < probability d x ix /\ rsumn (pos d (rshape x)) (fun j => rat (softmax d x) (upd d j ix)) = 1 /\ rat (log_softmax d x) ix = ln (probability d x ix).
Proof. exact k_C67_softmax_value. Qed.
Print Assumptions C67_softmax_value.
(** C67: ... and its gradient is exact. *)
Theorem C67_softmax : forall d x, (d < length (rshape x))%nat -> differentiates (softmax_forward d) softmax_backward x.
Proof. exact k_C67_softmax. Qed.
Print Assumptions C67_softmax.
(** C67: the gradient of log_softmax is exact. *)
Theorem C67_log_softmax : forall d x, (d < length (rshape x))%nat -> differentiates (log_softmax_forward d) log_softmax_backward x.
Proof. exact k_C67_log_softmax. Qed.
Print Assumptions C67_log_softmax.
(** C67: the 0-d cases: softmax is 1, log_softmax is 0, and both gradients are 0. *)
Theorem C67_softmax_0d : forall x, rshape x = [] -> rat (softmax 0 x) [] = 1 /\ rat (log_softmax 0 x) [] = 0 /\ differentiates (softmax_forward 0) softmax_backward x /\ differentiates (log_softmax_forward 0) log_softmax_backward x.
Proof. exact k_C67_softmax_0d. Qed.
Print Assumptions C67_softmax_0d.
(** C67: binary cross entropy of predictions strictly between 0 and 1. *)
Theorem C67_binary_cross_entropy : forall target x, rshape target = rshape x -> entries (fun v => 0 < v < 1) x ->
  rat (snd (bce_forward target x)) [] = binary_loss (fun v => v) target x /\ differentiates (bce_forward target) bce_backward x.
Proof. exact k_C67_binary_cross_entropy. Qed.
Print Assumptions C67_binary_cross_entropy.
(** C67: the same computed from logits, for any logits. *)
Theorem C67_binary_cross_entropy_with_logits : forall target x, rshape target = rshape x ->
  rat (snd (bce_logits_forward target x)) [] = binary_loss logistic target x /\ differentiates (bce_logits_forward target) bce_logits_backward x.
Proof. exact k_C67_binary_cross_entropy_with_logits. Qed.
Print Assumptions C67_binary_cross_entropy_with_logits.
(** C67: the RAPPOR loss with 0 < alpha <= 1 is the documented formula, and its gradient is exact ... *)
Theorem C67_rappor : forall alpha target x, 0 < alpha <= 1 -> rshape target = rshape x ->
  rat (snd (rappor_forward alpha target x)) [] = binary_loss (kept alpha) target x /\ differentiates (rappor_forward alpha target) rappor_backward x.
Proof. exact k_C67_rappor. Qed.
Print Assumptions C67_rappor.
(** C67: ... but alpha = 0 is treated as no noise: the loss is that of alpha = 1 (gradient exact), not the formula's, which swaps the labels. *)
Theorem C67_rappor_zero_refuted : forall target x, rshape target = rshape x ->
  rat (snd (rappor_forward 0 target x)) [] = binary_loss (kept 1) target x /\ differentiates (rappor_forward 0 target) rappor_backward x /\
  binary_loss (kept 0) target x = binary_loss (kept 1) (rmap (fun v => 1 - v) target) x.
Proof. exact k_C67_rappor_zero_refuted. Qed.
Print Assumptions C67_rappor_zero_refuted.
(** C67: cross entropy against targets that are distributions over the classes. *)
Theorem C67_cross_entropy : forall target x, rshape target = rshape x -> rshape x <> [] -> distribution (class_dim x) target ->
  rat (snd (cross_entropy_forward target x)) [] = categorical_loss target x /\ differentiates (cross_entropy_forward target) cross_entropy_backward x.
Proof. exact k_C67_cross_entropy. Qed.
Print Assumptions C67_cross_entropy.
(** C67 refuted for other targets: wherever a line of the target does not sum to 1 (and some entry is used), the gradient is not the derivative. *)
Theorem C67_cross_entropy_refuted : forall target x ix, rshape target = rshape x -> rshape x <> [] -> valid (rshape x) ix ->
  rsumn (pos (class_dim x) (rshape x)) (fun j => rat target (upd (class_dim x) j ix)) <> 1 -> ~ differentiates (cross_entropy_forward target) cross_entropy_backward x.
Proof. exact k_C67_cross_entropy_refuted. Qed.
Print Assumptions C67_cross_entropy_refuted.

(** Two samples of two classes with scores (0, ln 3) and (0, 0): probabilities (1/4, 3/4) and (1/2, 1/2). *)
Definition scores := mkR [2; 2]%nat (fun ix => match ix with [O; S O] => ln 3 | _ => 0 end).
Definition second := mkR [2; 2]%nat (fun ix => match ix with [_; S O] => 1 | _ => 0 end).
Definition doubled := mkR [2; 2]%nat (fun ix => match ix with [_; S O] => 2 | _ => 0 end).
Ltac lst := repeat (apply (f_equal2 (@cons R)); [unfold Rdiv; try lra; field|]); reflexivity.
Lemma exp_ln3 : exp (ln 3) = 3. Proof. apply exp_ln. lra. Qed.
Example C67_softmax_case : map (rat (softmax 1 scores)) (indices [2; 2]%nat) = [1/4; 3/4; 1/2; 1/2].
Proof.
  transitivity (map (probability 1 scores) (indices [2; 2]%nat)).
  - apply map_ext_in. intros ix I. apply in_indices in I. apply softmax_value; [cbn; lia|exact I].
  - unfold probability, rsumn, rsum. cbn. rewrite exp_0, exp_ln3. lst.
Qed.
Lemma softmax_scores : rat (softmax 1 scores) [0; 0]%nat = 1/4 /\ rat (softmax 1 scores) [0; 1]%nat = 3/4 /\ rat (softmax 1 scores) [1; 0]%nat = 1/2 /\ rat (softmax 1 scores) [1; 1]%nat = 1/2.
Proof. pose proof (fun k => f_equal (fun l => nth k l 0) C67_softmax_case) as P. exact (conj (P 0%nat) (conj (P 1%nat) (conj (P 2%nat) (P 3%nat)))). Qed.
(** the gradient of the first probability of the first sample: p1 (1 - p1) = 3/16 and - p1 p2 = -3/16 *)
Example C67_softmax_gradient_case : map (rat (softmax_backward (fst (softmax_forward 1 scores)) (mkR [2; 2]%nat (fun ix => match ix with [O; O] => 1 | _ => 0 end)))) (indices [2; 2]%nat) = [3/16; -3/16; 0; 0].
Proof.
  unfold softmax_forward. cbn [fst]. unfold softmax_backward, is_0d, size. cbn [rshape orb pos nth Nat.eqb indices seq flat_map map app]. unfold rmul, rmap2, rmap, along, line, rsumn, rsum. cbn [rat rshape seq map fold_right upd firstn skipn app].
  destruct softmax_scores as (P0 & P1 & P2 & P3). rewrite P0, P1, P2, P3. lst.
Qed.
Example C67_cross_entropy_case : rshape second = rshape scores /\ rshape scores <> [] /\ class_dim scores = 1%nat /\ distribution (class_dim scores) second /\
  map (rat (cross_entropy_backward (fst (cross_entropy_forward second scores)) (scalar 1))) (indices [2; 2]%nat) = [1/8; -1/8; 1/4; -1/4].
Proof.
  split; [reflexivity|]. split; [discriminate|]. split; [reflexivity|]. split.
  - intros ix V. destruct ix as [|i [|j [|]]]; cbn in V; try tauto. destruct V as (A & B & _). destruct i as [|[|]]; [| |lia]; destruct j as [|[|]]; try lia; unfold rsumn, rsum; cbn; lra.
  - cbn [cross_entropy_forward fst cross_entropy_backward]. change (class_dim scores) with 1%nat. destruct softmax_scores as (P0 & P1 & P2 & P3). cbn [indices seq flat_map map app]. unfold times, rmap, rmap2, size. cbn [rat rshape scalar]. rewrite P0, P1, P2, P3. cbn. lst.
Qed.
(** a target summing to 2: the hypothesis of the refutation *)
Example C67_cross_entropy_refuted_case : rshape doubled = rshape scores /\ valid (rshape scores) [0; 0]%nat /\ rsumn (pos (class_dim scores) (rshape scores)) (fun j => rat doubled (upd (class_dim scores) j [0; 0]%nat)) <> 1.
Proof. split; [reflexivity|]. split; [cbn; lia|]. unfold rsumn, rsum. cbn. lra. Qed.
Example C67_binary_case : entries (fun v => 0 < v < 1) (mkR [2]%nat (fun ix => match ix with [O] => 1/4 | _ => 2/3 end)) /\ 0 < 3/4 <= 1 /\ logistic 0 = 1/2 /\ kept (3/4) 0 = 1/2.
Proof. split; [intros ix _; cbn; destruct ix as [|[|] [|]]; lra|]. split; [lra|]. unfold kept, logistic. rewrite Ropp_0, exp_0. lra. Qed.
(** at logit ln 3 (prediction 3/4) with target 1, alpha = 0 pushes the logit up (gradient -1/4), alpha = 1/1000 pushes it down *)
Example C67_rappor_case : rat (rappor_backward (fst (rappor_forward 0 (scalar 1) (scalar (ln 3)))) (scalar 1)) [] = -1/4 /\ 0 < rat (rappor_backward (fst (rappor_forward (1/1000) (scalar 1) (scalar (ln 3)))) (scalar 1)) [].
Proof.
  assert (S : sigmoid (ln 3) = 3/4) by (unfold sigmoid; rewrite exp_Ropp, exp_ln3; lra). unfold rappor_forward. destruct (Req_EM_T 0 0); [|contradiction]. destruct (Req_EM_T (1/1000) 0); [lra|]. cbn. rewrite S. split; [lra|].
  set (q := 1 / 1000 * (3/4) + (1 - 1/1000) * (1 - 3/4)). assert (Q : 0 < q < 1/3) by (subst q; lra). assert (P : 0 < / (q * (1 - q))) by (apply Rinv_0_lt_compat; nra). nra.
Qed.

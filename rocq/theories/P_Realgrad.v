(** Theorems for C66. *)
Require Import List Reals ZArith Arith Bool Lia Lra.
From Verif Require Import Ring64 Tensor Tensor_proofs Rtensor Rtensor_proofs Realgrad Realgrad_claims.
Import ListNotations.
Open Scope R_scope.

(** C66: relu, at entries other than 0. *)
Theorem C66_relu : correct (fun v => v <> 0) (fun v => Rmax 0 v) relu_forward relu_backward.
Proof. exact k_C66_relu. Qed.
Print Assumptions C66_relu.
(** C66: the value of relu is also right at 0. *)
Theorem C66_relu_value : forall x, computes (fun v => Rmax 0 v) relu_forward x.
Proof. exact k_C66_relu_value. Qed.
Print Assumptions C66_relu_value.
(** C66: absolute value, at entries other than 0. *)
Theorem C66_abs : correct (fun v => v <> 0) Rabs abs_forward abs_backward.
Proof. exact k_C66_abs. Qed.
Print Assumptions C66_abs.
(** C66: sign, at entries other than 0. *)
Theorem C66_sign : correct (fun v => v <> 0) (fun v => if Rlt_dec v 0 then -1 else 1) sign_forward sign_backward.
Proof. exact k_C66_sign. Qed.
Print Assumptions C66_sign.
(** C66: tanh. *)
Theorem C66_tanh : correct (fun _ => True) tanh tanh_forward tanh_backward.
Proof. exact k_C66_tanh. Qed.
Print Assumptions C66_tanh.
(** C66: the logistic function. *)
Theorem C66_sigmoid : correct (fun _ => True) (fun v => 1 / (1 + exp (- v))) sigmoid_forward sigmoid_backward.
Proof. exact k_C66_sigmoid. Qed.
Print Assumptions C66_sigmoid.
(** C66: exponential. *)
Theorem C66_exp : correct (fun _ => True) exp exp_forward exp_backward.
Proof. exact k_C66_exp. Qed.
Print Assumptions C66_exp.
(** C66: logarithm of positive entries. *)
Theorem C66_log : correct (fun v => 0 < v) ln log_forward log_backward.
Proof. exact k_C66_log. Qed.
Print Assumptions C66_log.
(** C66: reciprocal of non-zero entries. *)
Theorem C66_reciprocal : correct (fun v => v <> 0) (fun v => 1 / v) reciprocal_forward reciprocal_backward.
Proof. exact k_C66_reciprocal. Qed.
Print Assumptions C66_reciprocal.
(** C66: square root of positive entries. *)
Theorem C66_sqrt : correct (fun v => 0 < v) sqrt sqrt_forward sqrt_backward.
Proof. exact k_C66_sqrt. Qed.
Print Assumptions C66_sqrt.
(** C66: square. *)
Theorem C66_square : correct (fun _ => True) (fun v => v ^ 2) square_forward square_backward.
Proof. exact k_C66_square. Qed.
Print Assumptions C66_square.
(** C66: sine. *)
Theorem C66_sin : correct (fun _ => True) sin sin_forward sin_backward.
Proof. exact k_C66_sin. Qed.
Print Assumptions C66_sin.
(** C66: cosine. *)
Theorem C66_cos : correct (fun _ => True) cos cos_forward cos_backward.
Proof. exact k_C66_cos. Qed.
Print Assumptions C66_cos.
(** C66: clamping to [lo, hi], at entries other than the two ends. *)
Theorem C66_hardtanh : forall lo hi, lo < hi -> correct (fun v => v <> lo /\ v <> hi) (fun v => Rmin (Rmax lo v) hi) (hardtanh_forward lo hi) hardtanh_backward.
Proof. exact k_C66_hardtanh. Qed.
Print Assumptions C66_hardtanh.
(** C66: clamping to one value. *)
Theorem C66_hardtanh_equal : forall c, correct (fun _ => True) (fun _ => c) (hardtanh_forward c c) hardtanh_backward.
Proof. exact k_C66_hardtanh_equal. Qed.
Print Assumptions C66_hardtanh_equal.
(** C66: clamping to [0, 6]. *)
Theorem C66_relu6 : correct (fun v => v <> 0 /\ v <> 6) (fun v => Rmin (Rmax 0 v) 6) relu6_forward relu6_backward.
Proof. exact k_C66_relu6. Qed.
Print Assumptions C66_relu6.
(** C66: dropout with p < 1 divides the entries whose draw exceeds p by 1 - p and zeroes the others; the gradient is treated alike. *)
Theorem C66_dropout : forall p draw x, p < 1 -> rshape draw = rshape x ->
  rshape (snd (dropout_forward p true draw x)) = rshape x /\ (forall ix, rat (snd (dropout_forward p true draw x)) ix = dropped p (rat draw ix) (rat x ix)) /\
  differentiates (dropout_forward p true draw) dropout_backward x.
Proof. exact k_C66_dropout. Qed.
Print Assumptions C66_dropout.
(** C66: feature dropout decides once per entry of the first two dimensions. *)
Theorem C66_feature_dropout : forall p draw x, p < 1 ->
  rshape (snd (feature_dropout_forward p true draw x)) = rshape x /\ (forall ix, rat (snd (feature_dropout_forward p true draw x)) ix = dropped p (rat draw (firstn 2 ix)) (rat x ix)) /\
  differentiates (feature_dropout_forward p true draw) dropout_backward x.
Proof. exact k_C66_feature_dropout. Qed.
Print Assumptions C66_feature_dropout.
(** C66: outside training dropout is the identity. *)
Theorem C66_dropout_eval : forall p draw, correct (fun _ => True) (fun v => v) (dropout_forward p false draw) dropout_backward /\ correct (fun _ => True) (fun v => v) (feature_dropout_forward p false draw) dropout_backward.
Proof. exact k_C66_dropout_eval. Qed.
Print Assumptions C66_dropout_eval.
(** C66: quotient of encrypted tensors, with respect to both. *)
Theorem C66_div : forall x y, rshape x = rshape y -> entries (fun v => v <> 0) y ->
  (forall ix, rat (snd (div_forward x y)) ix = rat x ix / rat y ix) /\ differentiates2 div_forward div_backward x y.
Proof. exact k_C66_div. Qed.
Print Assumptions C66_div.
(** C66: division by a public tensor. *)
Theorem C66_div_public : forall y x, rshape x = rshape y -> (forall ix, rat (snd (div_public_forward y x)) ix = rat x ix / rat y ix) /\ differentiates (div_public_forward y) div_public_backward x.
Proof. exact k_C66_div_public. Qed.
Print Assumptions C66_div_public.
(** C66: right division, with respect to both. *)
Theorem C66_rdiv : forall x y, rshape x = rshape y -> entries (fun v => v <> 0) x ->
  (forall ix, rat (snd (rdiv_forward x y)) ix = rat y ix / rat x ix) /\ differentiates2 rdiv_forward rdiv_backward x y.
Proof. exact k_C66_rdiv. Qed.
Print Assumptions C66_rdiv.
(** C66: the gradient of a polynomial is exact for any number of coefficients ... *)
Theorem C66_polynomial : forall coeffs x, coeffs <> [] ->
  (forall ix, rat (snd (polynomial_forward coeffs x)) ix = power_series 1 coeffs (rat x ix)) /\
  differentiates (polynomial_forward coeffs) (fun c g => match polynomial_backward c g with Some (d, _) => d | None => g end) x.
Proof. exact k_C66_polynomial. Qed.
Print Assumptions C66_polynomial.
(** C66 refuted for the coefficients: the backward pass multiplies the caller's coefficient tensor; afterwards entry i holds (i+1) times what it held. *)
Theorem C66_polynomial_coefficients_refuted : forall coeffs x g, coeffs <> [] ->
  exists d new, polynomial_backward (fst (polynomial_forward coeffs x)) g = Some (d, new) /\ length new = length coeffs /\ forall i, (i < length coeffs)%nat -> nth i new 0 = INR (i + 1) * nth i coeffs 0.
Proof. exact k_C66_polynomial_coefficients_refuted. Qed.
Print Assumptions C66_polynomial_coefficients_refuted.
(** C66: with no coefficient at all the backward pass raises. *)
Theorem C66_polynomial_empty : forall x g, polynomial_backward (fst (polynomial_forward [] x)) g = None.
Proof. exact k_C66_polynomial_empty. Qed.
Print Assumptions C66_polynomial_empty.
(** C66: integer powers, when p - 1 is 0 or one of the exponents that [pow] gets right (plus or minus 2^k and 3*2^k). *)
Theorem C66_pow : forall p, pow_exact (p - 1) -> correct (fun v => v <> 0) (fun v => powerRZ v p) (pow_forward p) pow_backward.
Proof. exact k_C66_pow. Qed.
Print Assumptions C66_pow.
(** C66 refuted for every other p: the result is another power and the gradient is not its derivative, at any non-zero entry. *)
Theorem C66_pow_refuted : forall p, p <> 0%Z -> ~ pow_exact (p - 1) ->
  (forall v, v <> 0 -> rat (snd (pow_forward p (scalar v))) [] = powerRZ v (effectiveZ (p - 1) + 1)) /\ effectiveZ (p - 1) <> (p - 1)%Z /\
  forall v, v <> 0 -> ~ differentiates (pow_forward p) pow_backward (scalar v).
Proof. exact k_C66_pow_refuted. Qed.
Print Assumptions C66_pow_refuted.
(** C66: [pos_pow] with a whole exponent, when [pow] gets p and p - 1 right. *)
Theorem C66_pos_pow_whole : forall p, pow_exact p -> pow_exact (p - 1) -> correct (fun v => 0 < v) (fun v => powerRZ v p) (pos_pow_forward (Whole p)) pos_pow_backward.
Proof. exact k_C66_pos_pow_whole. Qed.
Print Assumptions C66_pos_pow_whole.
(** C66: [pos_pow] with a fractional exponent computes the power ... *)
Theorem C66_pos_pow_value : forall q x, entries (fun v => 0 < v) x -> computes (fun v => Rpower v q) (pos_pow_forward (Fractional q)) x.
Proof. exact k_C66_pos_pow_value. Qed.
Print Assumptions C66_pos_pow_value.
(** C66 refuted for the gradient of [pos_pow] with a fractional exponent: the incoming gradient is multiplied by v^(q(q-1)) instead of q v^(q-1); at v = 1, by 1 instead of q. *)
Theorem C66_pos_pow_refuted : forall q, q <> 1 -> ~ differentiates (pos_pow_forward (Fractional q)) pos_pow_backward (scalar 1).
Proof. exact k_C66_pos_pow_refuted. Qed.
Print Assumptions C66_pos_pow_refuted.

(** A 1 x 3 tensor (2, -3, 1/2) and a positive one (4, 1, 1/4). *)
Definition x3 := mkR [1; 3]%nat (fun ix => match ix with [_; O] => 2 | [_; S O] => -3 | _ => 1/2 end).
Definition p3 := mkR [1; 3]%nat (fun ix => match ix with [_; O] => 4 | [_; S O] => 1 | _ => 1/4 end).
Definition ones := mkR [1; 3]%nat (fun _ => 1).
Ltac lst := repeat (apply (f_equal2 (@cons R)); [unfold Rdiv; try lra; field|]); reflexivity.
Lemma x3_entries (P : R -> Prop) : P 2 -> P (-3) -> P (1/2) -> entries P x3.
Proof. intros A B C ix V. destruct ix as [|i [|[|[|k]] [|]]]; cbn in V |- *; tauto. Qed.
Lemma p3_entries (P : R -> Prop) : P 4 -> P 1 -> P (1/4) -> entries P p3.
Proof. intros A B C ix V. destruct ix as [|i [|[|[|k]] [|]]]; cbn in V |- *; tauto. Qed.
Example C66_cases : entries (fun v => v <> 0) x3 /\ entries (fun v => 0 < v) p3 /\ entries (fun v => v <> -1 /\ v <> 1) x3 /\ entries (fun v => v <> 0 /\ v <> 6) x3 /\ rshape x3 = rshape p3 /\ entries (fun v => v <> 0) p3.
Proof. repeat match goal with |- _ /\ _ => split end; try apply x3_entries; try apply p3_entries; try lra; try reflexivity. Qed.
(** the gradients there: relu (1, 0, 1), abs (1, -1, 1), sqrt (1/4, 1/2, 1), hardtanh (0, 0, 1) *)
Example C66_relu_case : map (rat (relu_backward (fst (relu_forward x3)) ones)) (indices [1; 3]%nat) = [1; 0; 1].
Proof. cbn. rewrite (gt_1 2), (gt_0 (-3)), (gt_1 (1/2)) by lra. lst. Qed.
Example C66_abs_case : map (rat (abs_backward (fst (abs_forward x3)) ones)) (indices [1; 3]%nat) = [1; -1; 1].
Proof. cbn. unfold sign. rewrite (ltz_pos 2), (ltz_neg (-3)), (ltz_pos (1/2)) by lra. lst. Qed.
Example C66_sqrt_case : map (rat (sqrt_backward (fst (sqrt_forward p3)) ones)) (indices [1; 3]%nat) = [1/4; 1/2; 1].
Proof.
  cbn. unfold inv_sqrt. replace (sqrt 4) with 2 by (symmetry; apply sqrt_lem_1; lra). replace (sqrt (1/4)) with (1/2) by (symmetry; apply sqrt_lem_1; lra). rewrite sqrt_1. lst.
Qed.
Example C66_hardtanh_case : map (rat (hardtanh_backward (fst (hardtanh_forward (-1) 1 x3)) ones)) (indices [1; 3]%nat) = [0; 0; 1].
Proof. unfold hardtanh_forward. destruct (Req_EM_T (-1) 1); [lra|]. cbn. rewrite (gt_1 (2 - -1)), (gt_0 (1 - 2)), (gt_0 (-3 - -1)), (gt_1 (1 - -3)), (gt_1 (1/2 - -1)), (gt_1 (1 - 1/2)) by lra. lst. Qed.
(** dropout with p = 1/2 and draws equal to the entries of p3: the last entry is dropped, the others doubled *)
Example C66_dropout_case : map (rat (snd (dropout_forward (1/2) true p3 x3))) (indices [1; 3]%nat) = [4; -6; 0] /\ map (rat (dropout_backward (fst (dropout_forward (1/2) true p3 x3)) ones)) (indices [1; 3]%nat) = [2; 2; 0].
Proof. cbn. destruct (Rlt_dec (1/2) 4); [|lra]. destruct (Rlt_dec (1/2) 1); [|lra]. destruct (Rlt_dec (1/2) (1/4)); [lra|]. split; lst. Qed.
Example C66_div_case : map (rat (snd (div_backward (fst (div_forward x3 p3)) ones))) (indices [1; 3]%nat) = [-1/8; 3; -8].
Proof. cbn. unfold Rsqr. lst. Qed.
(** 5 v - 2 v^2 + v^3 at (2, -3, 1/2); afterwards the coefficients are 5, -4, 3 *)
Example C66_polynomial_case : map (rat (snd (polynomial_forward [5; -2; 1] x3))) (indices [1; 3]%nat) = [10; -60; 17/8] /\
  exists d, polynomial_backward (fst (polynomial_forward [5; -2; 1] x3)) ones = Some (d, [5; -4; 3]) /\ map (rat d) (indices [1; 3]%nat) = [9; 44; 15/4].
Proof.
  split; [cbn; lst|]. eexists. split.
  - cbn [polynomial_forward fst polynomial_backward times_arange]. replace (5 * INR (0 + 1)) with 5 by (cbn; lra). replace (-2 * INR (1 + 1)) with (-4) by (cbn; lra). replace (1 * INR (2 + 1)) with 3 by (cbn; lra). reflexivity.
  - cbn. lst.
Qed.
Example C66_pow_case : pow_exact (7 - 1) /\ pow_exact (-2 - 1) /\ ~ pow_exact (6 - 1) /\ rat (snd (pow_forward 6 (scalar 2))) [] = 128 /\ rat (pow_backward (fst (pow_forward 6 (scalar 2))) (scalar 1)) [] = 384.
Proof.
  split; [right; exists 1%nat; right; reflexivity|]. split; [right; exists 0%nat; right; reflexivity|]. split; [intros H; apply effectiveZ_exact in H; discriminate H|]. split; [cbn; lra|cbn; lra].
Qed.
Example C66_pos_pow_case : pow_exact 3 /\ pow_exact 2 /\ rat (pos_pow_backward (fst (pos_pow_forward (Fractional (1/2)) (scalar 1))) (scalar 1)) [] = 1.
Proof. split; [right; exists 0%nat; right; reflexivity|]. split; [right; exists 1%nat; left; reflexivity|]. cbn. rewrite ln_1, !Rmult_0_l, exp_0. lra. Qed.

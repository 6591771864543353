(** C64: gradients of matrix products. *)
Require Import List ZArith Bool Arith Lia.
From Verif Require Import Ring64 Tensor Tensor_proofs Gradfn Broadcast_claims Gradfn_claims Matmul Matmul_claims.
Import ListNotations.
Open Scope Z_scope.

(** Matrices and broadcast batches of matrices: both gradients are exact and of the operand's shape. *)
Theorem C64_matrices : forall x0 y0, (2 <= rank x0)%nat -> (2 <= rank y0)%nat -> batches_nonempty (shape x0) (shape y0) ->
  gradient_of (fun x => matmul x y0) (fun g => option_map fst (matmul_backward x0 y0 g)) (shape x0) /\ gradient_of (fun y => matmul x0 y) (fun g => option_map snd (matmul_backward x0 y0 g)) (shape y0).
Proof. exact k_matmul. Qed.
Print Assumptions C64_matrices.

(** Vectors and matrices without batch dimensions. *)
Theorem C64_vectors : forall x0 y0, (1 <= rank x0 <= 2)%nat -> (1 <= rank y0 <= 2)%nat ->
  gradient_of (fun x => matmul x y0) (fun g => option_map fst (matmul_backward x0 y0 g)) (shape x0) /\ gradient_of (fun y => matmul x0 y) (fun g => option_map snd (matmul_backward x0 y0 g)) (shape y0).
Proof. exact k_matmul_vectors. Qed.
Print Assumptions C64_vectors.

Theorem C64_dot : forall x0 y0, gradient_of (fun x => dot x y0) (fun g => option_map fst (dot_backward x0 y0 g)) (shape x0) /\ gradient_of (fun y => dot x0 y) (fun g => option_map snd (dot_backward x0 y0 g)) (shape y0).
Proof. exact k_dot. Qed.
Print Assumptions C64_dot.
Theorem C64_ger : forall x0 y0, gradient_of (fun x => ger x y0) (fun g => option_map fst (ger_backward x0 y0 g)) (shape x0) /\ gradient_of (fun y => ger x0 y) (fun g => option_map snd (ger_backward x0 y0 g)) (shape y0).
Proof. exact k_ger. Qed.
Print Assumptions C64_ger.

(** A vector times a batch of matrices, and a batch times a vector: the product is defined, and the backward function raises on every gradient of its shape. *)
Theorem C64_vector_batch_refuted : forall x y k by_ b m, shape x = [k] -> shape y = by_ ++ [b] ++ [k; m] -> b <> 1%nat -> exists z, matmul x y = Some z /\ forall g, shape g = shape z -> matmul_backward x y g = None.
Proof. intros x y k by_ b m Hx Hy N. destruct (k_vector_batch_forward x y k by_ b m Hx Hy) as (z & E & S). exists z. split; [exact E|]. intros g Hg. rewrite S in Hg. exact (k_vector_batch x y k by_ b m g Hx Hy N Hg). Qed.
Print Assumptions C64_vector_batch_refuted.
Theorem C64_batch_vector_refuted : forall x y k b0 bx n, shape x = (b0 :: bx) ++ [n; k] -> shape y = [k] -> n <> 1%nat -> exists z, matmul x y = Some z /\ forall g, shape g = shape z -> matmul_backward x y g = None.
Proof. intros x y k b0 bx n Hx Hy N. destruct (k_batch_vector_forward x y k b0 bx n Hx Hy) as (z & E & S). exists z. split; [exact E|]. intros g Hg. rewrite S in Hg. exact (k_batch_vector x y k b0 bx n g Hx Hy N Hg). Qed.
Print Assumptions C64_batch_vector_refuted.

(** Concrete cases. *)
Definition read (o : option tensor) : option (list nat * list Z) := option_map (fun x => (shape x, map (at_ x) (indices (shape x)))) o.
Definition a0 : tensor := mkT [2; 1; 3]%nat (fun ix => Z.of_nat (3 * pos 0 ix + pos 2 ix)).
Definition b0 : tensor := mkT [3; 2]%nat (fun ix => Z.of_nat (2 * pos 0 ix + pos 1 ix)).
Example C64_case_batched : (2 <= rank a0)%nat /\ (2 <= rank b0)%nat /\ batches_nonempty (shape a0) (shape b0) /\ read (matmul a0 b0) = Some ([2; 1; 2]%nat, [10; 13; 28; 40]) /\
  option_map (fun p => (read (Some (fst p)), read (Some (snd p)))) (matmul_backward a0 b0 (mkT [2; 1; 2]%nat (fun _ => 1))) = Some (Some ([2; 1; 3]%nat, [1; 5; 9; 1; 5; 9]), Some ([3; 2]%nat, [3; 3; 5; 5; 7; 7])).
Proof.
  split; [cbn; lia|split; [cbn; lia|split; [|split; reflexivity]]]. intros t E. injection E as <-. split; intros d Hd E; cbn in *; [|lia]. destruct d; [discriminate|lia].
Qed.
Example C64_case_vector : read (matmul (mkT [3]%nat (fun ix => Z.of_nat (pos 0 ix))) b0) = Some ([2]%nat, [10; 13]) /\
  option_map (fun p => (read (Some (fst p)), read (Some (snd p)))) (matmul_backward (mkT [3]%nat (fun ix => Z.of_nat (pos 0 ix))) b0 (mkT [2]%nat (fun _ => 1))) = Some (Some ([3]%nat, [1; 5; 9]), Some ([3; 2]%nat, [0; 0; 1; 1; 2; 2])).
Proof. split; reflexivity. Qed.
Example C64_case_refuted : shape (mkT [2; 3; 1]%nat (fun _ => 1)) = [] ++ [2]%nat ++ [3; 1]%nat /\ 2%nat <> 1%nat.
Proof. split; [reflexivity|discriminate]. Qed.

(** C50: reducing a broadcast gradient. *)
Require Import List ZArith Bool Arith Lia.
From Verif Require Import Ring64 Tensor Tensor_proofs Gradfn Broadcast_claims.
Import ListNotations.
Open Scope Z_scope.

(** _inverse_broadcast returns a tensor of the operand's shape and is the adjoint of broadcasting the operand. *)
Theorem C50_adjoint : forall s t g x, broadcasts s t -> nonempty s t -> shape g = t -> shape x = s -> exists g', inverse_broadcast g s = Some g' /\ shape g' = s /\ inner g (expand x t) = inner g' x.
Proof. exact k_C50. Qed.
Print Assumptions C50_adjoint.

(** Each element of the result is the sum of the gradient over exactly the positions to which that element was copied. *)
Theorem C50_sums : forall s t g g' jx, broadcasts s t -> nonempty s t -> shape g = t -> inverse_broadcast g s = Some g' -> valid s jx -> at_ g' jx = sums t (fun ix => if index_eqb (bindex s ix) jx then at_ g ix else 0).
Proof. exact k_C50_fibres. Qed.
Print Assumptions C50_sums.

(** A dimension of size 1 broadcast against an empty one is not summed: the result has the gradient's size 0 there instead of the operand's size 1. *)
Theorem C50_empty_refuted : forall s g, broadcasts s (shape g) -> length s = length (shape g) -> forall d, (d < length s)%nat -> pos d s = 1%nat -> pos d (shape g) = 0%nat -> exists g', inverse_broadcast g s = Some g' /\ shape g' <> s.
Proof. intros s g B L d. exact (k_C50_empty s g B L d). Qed.
Print Assumptions C50_empty_refuted.

(** Concrete cases: a 1x2 operand broadcast to 2x3x2. *)
Definition grad0 : tensor := mkT [2; 3; 2]%nat (fun ix => Z.of_nat (6 * pos 0 ix + 2 * pos 1 ix + pos 2 ix)).
Example C50_case : broadcasts [1; 2]%nat [2; 3; 2]%nat /\ nonempty [1; 2]%nat [2; 3; 2]%nat /\
  option_map (fun g => (shape g, map (at_ g) (indices (shape g)))) (inverse_broadcast grad0 [1; 2]%nat) = Some ([1; 2]%nat, [30; 36]).
Proof.
  split; [split; [cbn; lia|]|split; [|reflexivity]].
  - intros [|[|d]] H; cbn in *; [right|left|lia]; reflexivity.
  - intros [|[|d]] H E; cbn in *; [discriminate|discriminate|lia].
Qed.
Example C50_case_scalar : option_map (fun g => (shape g, at_ g [])) (inverse_broadcast grad0 []) = Some ([], 66).
Proof. reflexivity. Qed.
Example C50_case_empty : broadcasts [1; 2]%nat [0; 2]%nat /\ option_map shape (inverse_broadcast (mkT [0; 2]%nat (fun _ => 0)) [1; 2]%nat) = Some [0; 2]%nat.
Proof. split; [split; [cbn; lia|]|reflexivity]. intros [|[|d]] H; cbn in *; [right|left|lia]; reflexivity. Qed.

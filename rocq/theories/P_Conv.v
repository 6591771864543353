(** C65: gradients of convolutions and average pooling. *)
Require Import List ZArith Bool Arith Lia.
From Verif Require Import Ring64 Tensor Tensor_proofs Gradfn Gradfn_claims Conv Conv_claims.
Import ListNotations.
Open Scope Z_scope.

(** Every stride, padding, dilation and number of spatial dimensions: where the gradient is supported, both gradients are exact and of the operand's shape. *)
Theorem C65_conv : forall stride padding dilation groups x0 w0, supported groups x0 w0 ->
  gradient_of (fun x => conv stride padding dilation groups x w0) (fun g => option_map fst (conv_backward stride padding dilation groups x0 w0 g)) (shape x0) /\
  gradient_of (fun w => conv stride padding dilation groups x0 w) (fun g => option_map snd (conv_backward stride padding dilation groups x0 w0 g)) (shape w0).
Proof. exact k_conv. Qed.
Print Assumptions C65_conv.

Theorem C65_avg_pool : forall c kernel stride padding size, (1 <= pos 1 size)%nat -> gradient_of (avg_pool c kernel stride padding) (avg_pool_backward c kernel stride padding size) size.
Proof. exact k_avg_pool. Qed.
Print Assumptions C65_avg_pool.

(** Grouped convolutions with several input channels per group can be computed but never differentiated. *)
Theorem C65_groups_refuted : forall stride padding dilation groups x w y, conv stride padding dilation groups x w = Some y -> (1 < groups)%nat -> (1 < pos 1 (shape w))%nat ->
  forall g, shape g = shape y -> conv_backward stride padding dilation groups x w g = None.
Proof. exact k_conv_groups. Qed.
Print Assumptions C65_groups_refuted.

(** Concrete cases. *)
Definition read (o : option tensor) : option (list nat * list Z) := option_map (fun x => (shape x, map (at_ x) (indices (shape x)))) o.
Definition read2 (o : option (tensor * tensor)) : option (option (list nat * list Z) * option (list nat * list Z)) := option_map (fun p => (read (Some (fst p)), read (Some (snd p)))) o.
(** one input channel of length 4, padding 1, stride 2, kernel 3: two positions *)
Definition x1 : tensor := mkT [1; 1; 4]%nat (fun ix => Z.of_nat (1 + pos 2 ix)).
Definition w1 : tensor := mkT [1; 1; 3]%nat (fun ix => Z.of_nat (10 + pos 2 ix)).
Example C65_case_conv1d : supported 1 x1 w1 /\ read (conv [2]%nat [1]%nat [1]%nat 1 x1 w1) = Some ([1; 1; 2]%nat, [11 * 1 + 12 * 2; 10 * 2 + 11 * 3 + 12 * 4]) /\
  read2 (conv_backward [2]%nat [1]%nat [1]%nat 1 x1 w1 (mkT [1; 1; 2]%nat (fun ix => Z.of_nat (1 + pos 2 ix)))) = Some (Some ([1; 1; 4]%nat, [11; 12 + 20; 22; 24]), Some ([1; 1; 3]%nat, [2 * 2; 1 + 2 * 3; 2 + 2 * 4])).
Proof. split; [cbv; auto|split; reflexivity]. Qed.
(** depthwise with two outputs per group, dilation 2, two images: two input elements are outside the window *)
Definition x2 : tensor := mkT [2; 2; 4]%nat (fun ix => Z.of_nat (8 * pos 0 ix + 4 * pos 1 ix + pos 2 ix)).
Definition w2 : tensor := mkT [4; 1; 2]%nat (fun ix => Z.of_nat (1 + pos 0 ix + pos 2 ix)).
Example C65_case_depthwise : supported 2 x2 w2 /\ read (conv [3]%nat [0]%nat [2]%nat 2 x2 w2) = Some ([2; 4; 1]%nat, [4; 6; 36; 46; 28; 46; 92; 118]) /\
  read2 (conv_backward [3]%nat [0]%nat [2]%nat 2 x2 w2 (mkT [2; 4; 1]%nat (fun _ => 1))) = Some (Some ([2; 2; 4]%nat, [3; 0; 5; 0; 7; 0; 9; 0; 3; 0; 5; 0; 7; 0; 9; 0]), Some ([4; 1; 2]%nat, [8; 12; 8; 12; 16; 20; 16; 20])).
Proof. split; [cbv; auto|split; vm_compute; reflexivity]. Qed.
Example C65_case_conv2d : read (conv [1; 1]%nat [0; 0]%nat [1; 1]%nat 1 (mkT [1; 1; 2; 3]%nat (fun ix => Z.of_nat (3 * pos 2 ix + pos 3 ix))) (mkT [1; 1; 2; 2]%nat (fun _ => 1))) = Some ([1; 1; 1; 2]%nat, [8; 12]) /\
  read (avg_pool 5 [1; 2]%nat [1; 2]%nat [0; 0]%nat (mkT [1; 1; 1; 5]%nat (fun ix => Z.of_nat (pos 3 ix)))) = Some ([1; 1; 1; 2]%nat, [5; 25]) /\
  read (avg_pool_backward 5 [1; 2]%nat [1; 2]%nat [0; 0]%nat [1; 1; 1; 5]%nat (mkT [1; 1; 1; 2]%nat (fun ix => Z.of_nat (1 + pos 3 ix)))) = Some ([1; 1; 1; 5]%nat, [5; 5; 10; 10; 0]).
Proof. split; [|split]; vm_compute; reflexivity. Qed.
Example C65_case_groups : read (conv [1]%nat [0]%nat [1]%nat 2 (mkT [1; 4; 1]%nat (fun ix => Z.of_nat (pos 1 ix))) (mkT [2; 2; 1]%nat (fun _ => 1))) = Some ([1; 2; 1]%nat, [1; 5]) /\ (1 < 2)%nat /\ (1 < pos 1 [2; 2; 1])%nat.
Proof. split; [reflexivity|cbn; lia]. Qed.

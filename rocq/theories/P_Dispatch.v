(** Property theorems: which calls run, and which are recorded for backpropagation (C100). *)
Require Import String List Bool Arith.
From Verif Require Import Dispatch Dispatch_claims.
Import ListNotations.
Open Scope string_scope.

(** C100: a call of a function with a gradient records self and all tensors among the positional arguments, in order, exactly if autograd is on and one of them requires a gradient; the value then comes from the AutogradFunction, and otherwise from the method of the object if there is one. *)
Theorem C100_call : forall (rows : nat -> nat) (requires : nat -> bool) (differentiable : string -> list bool) (enabled : bool) (self : nat) (n : string) (args kwargs : list arg),
  In n registry -> forallb no_dict args = true ->
  call rows requires has has_gradient differentiable enabled self n args kwargs =
    (if enabled && existsb requires (self :: flat_map tensors args) then Runs (Forward n) (Some (differentiable n, map Known (self :: flat_map tensors args)))
     else if has n then Runs (Method n false) None else Runs (Forward n) None, false).
Proof. exact k_C100_call. Qed.
Print Assumptions C100_call.
(** C100: crypten.cat and crypten.stack record the tensors of the sequence. *)
Theorem C100_static : forall (rows : nat -> nat) (requires : nat -> bool) (differentiable : string -> list bool) (enabled : bool) (n : string) (args kwargs : list arg),
  In n ["cat"; "stack"] -> forallb no_dict args = true ->
  call_plain rows requires has has_gradient differentiable enabled None n args kwargs =
    if enabled && existsb requires (flat_map tensors args) then Runs (Forward n) (Some (differentiable n, map Known (flat_map tensors args))) else Runs (Method n false) None.
Proof. exact k_C100_static. Qed.
Print Assumptions C100_static.
(** C100: x.f_(…) raises an error if autograd is on and x requires a gradient; otherwise it computes x.f(…) and copies the result into x. *)
Theorem C100_in_place : forall (rows : nat -> nat) (requires : nat -> bool) (differentiable : string -> list bool) (enabled : bool) (self : nat) (n : string) (args kwargs : list arg),
  In n registry -> ends_with "_" n = false ->
  call rows requires has has_gradient differentiable enabled self (n ++ "_") args kwargs =
    if enabled && requires self then (Fails NoInPlace, false) else (fst (call rows requires has has_gradient differentiable enabled self n args kwargs), true).
Proof. exact k_C100_call_in_place. Qed.
Print Assumptions C100_in_place.
(** C100: the in-place form loses the gradient of its arguments: x.f(y) requires a gradient and x.f_(y) does not, without an error. *)
Theorem C100_in_place_refuted : forall (rows : nat -> nat) (requires : nat -> bool) (differentiable : string -> list bool) (self y : nat) (n : string),
  In n registry -> ends_with "_" n = false -> requires self = false -> requires y = true -> existsb (fun b => b) (differentiable n) = true ->
  returned_requires requires self (call rows requires has has_gradient differentiable true self n [Ten y] []) = Some true /\
  returned_requires requires self (call rows requires has has_gradient differentiable true self (n ++ "_") [Ten y] []) = Some false.
Proof. exact k_C100_call_in_place_refuted. Qed.
Print Assumptions C100_in_place_refuted.
(** C100: a function without a gradient gives, of a tensor that requires one, a result that does not: the error that the documentation promises is never raised, whatever is registered. *)
Theorem C100_silent_refuted : forall (rows : nat -> nat) (requires : nat -> bool) (differentiable : string -> list bool) (enabled : bool) (self : nat) (n : string) (args kwargs : list arg),
  In n ["expand"; "repeat"; "unfold"; "unbind"; "split"; "conv_transpose1d"; "conv_transpose2d"] ->
  call rows requires has has_gradient differentiable enabled self n args kwargs = (Runs (Method n enabled) None, false) /\
  returned_requires requires self (call rows requires has has_gradient differentiable enabled self n args kwargs) = Some false.
Proof. exact k_C100_call_direct_refuted. Qed.
Print Assumptions C100_silent_refuted.
Theorem C100_no_error : forall (own registered : string -> bool) (enabled self_requires : bool) (n : string), lookup own registered enabled self_requires n <> Error NotImplemented.
Proof. exact k_C100_no_error. Qed.
Print Assumptions C100_no_error.
(** C100: a tensor that is passed by keyword or in a dict is not recorded: the result does not require a gradient, though it does when the tensor is passed by position. *)
Theorem C100_keyword_refuted : forall (rows : nat -> nat) (requires : nat -> bool) (differentiable : string -> list bool) (self : nat) (n : string) (y : nat),
  In n registry -> In n direct -> requires self = false -> requires y = true -> existsb (fun b => b) (differentiable n) = true ->
  returned_requires requires self (call rows requires has has_gradient differentiable true self n [Ten y] []) = Some true /\
  returned_requires requires self (call rows requires has has_gradient differentiable true self n [] [Ten y]) = Some false /\
  returned_requires requires self (call rows requires has has_gradient differentiable true self n [Dict [Ten y]] []) = Some false.
Proof. exact k_C100_call_keyword_refuted. Qed.
Print Assumptions C100_keyword_refuted.
(** C100: an operator of the class does what its function does, and what the attribute of its name does. *)
Theorem C100_operators : forall (rows : nat -> nat) (requires : nat -> bool) (differentiable : string -> list bool) (enabled : bool) (self : nat) (op n : string) (args : list arg),
  In (op, n) operators ->
  operate rows requires has has_gradient differentiable enabled self op args = call rows requires has has_gradient differentiable enabled self n args [] /\
  (in_place n = false -> call rows requires has has_gradient differentiable enabled self op args [] = call rows requires has has_gradient differentiable enabled self n args []).
Proof. exact k_C100_operators. Qed.
Print Assumptions C100_operators.
(** C100: x ** p and c / x are type errors, though the attributes __pow__ and __rtruediv__ of x can be called. *)
Theorem C100_operators_refuted : forall (rows : nat -> nat) (requires : nat -> bool) (differentiable : string -> list bool) (enabled : bool) (self : nat) (op : string) (args : list arg),
  In op ["__pow__"; "__rtruediv__"] -> forallb no_dict args = true ->
  operate rows requires has has_gradient differentiable enabled self op args = (Fails Unsupported, false) /\
  exists c r, call rows requires has has_gradient differentiable enabled self op args [] = (Runs c r, false).
Proof. exact k_C100_operators_refuted. Qed.
Print Assumptions C100_operators_refuted.
(** C100: every encrypted argument gets its own gradient in backpropagation exactly if no plain argument that the function returns a gradient for comes before an encrypted one. *)
Theorem C100_alignment : forall params : list (option nat),
  (forall gs : list nat, length gs = length params -> hand_out (tracked_of params) gs = Some (intended params gs)) <-> encrypted_first params.
Proof. exact k_C100_alignment. Qed.
Print Assumptions C100_alignment.
(** C100: x.batchnorm(weight, bias) with a plain weight and an encrypted bias: the bias gets the gradient of the weight. *)
Theorem C100_alignment_refuted : forall (G : Type) (x bias : nat) (gx gw gb : G), hand_out (tracked_of [Some x; None; Some bias]) [gx; gw; gb] = Some [(x, gx); (bias, gw)].
Proof. exact @k_C100_alignment_refuted. Qed.
Print Assumptions C100_alignment_refuted.
(** C100: each of these functions, called on a tensor that requires a gradient with autograd on, is recorded. *)
Theorem C100_which : forall (rows : nat -> nat) (requires : nat -> bool) (differentiable : string -> list bool) (self : nat) (n : string), In n differentiable_functions -> requires self = true ->
  call rows requires has has_gradient differentiable true self n [] [] = (Runs (Forward n) (Some (differentiable n, [Known self])), false).
Proof. exact k_C100_which. Qed.
Print Assumptions C100_which.
(** C100: the attributes of the tape, backward and detach_ included, are the object's own, whatever functions are registered or missing and whether the tensor requires a gradient. *)
Theorem C100_protected : forall (own registered : string -> bool) (enabled self_requires : bool) (n : string),
  In n ["__dict__"; "__class__"; "requires_grad"; "grad"; "grad_fn"; "grad_expected"; "grad_received"; "children"; "ctx"; "backward"; "detach"; "detach_"; "_reset_gradients"] -> lookup own registered enabled self_requires n = Own n.
Proof. exact k_C100_protected. Qed.
Print Assumptions C100_protected.
(** C100: a required function that a subclass does not implement is an error with autograd off, whatever is registered, and never the AutogradFunction, which would call itself. *)
Theorem C100_required : forall (own registered : string -> bool) (self_requires : bool) (n : string),
  In n ["_ltz"; "add"; "avg_pool1d"; "avg_pool2d"; "clone"; "conv1d"; "conv2d"; "matmul"; "neg"] -> own n = false -> lookup own registered false self_requires n = Error NoAttribute.
Proof. exact k_C100_required. Qed.
Print Assumptions C100_required.
(** C100: tensor - x runs -x + tensor with autograd as it is, and is not recorded as one function; the attribute x.__rsub__ of a tensor that requires a gradient is. *)
Theorem C100_rsub : forall (rows : nat -> nat) (requires : nat -> bool) (differentiable : string -> list bool) (enabled : bool) (self : nat) (args : list arg), operate rows requires has has_gradient differentiable enabled self "__rsub__" args = (Runs (Method "__rsub__" enabled) None, false) /\
  (requires self = true -> forallb no_dict args = true -> call rows requires has has_gradient differentiable true self "__rsub__" args [] = (Runs (Forward "__rsub__") (Some (differentiable "__rsub__", map Known (self :: flat_map tensors args))), false)).
Proof. exact k_C100_rsub. Qed.
Print Assumptions C100_rsub.

(** tensors 0 to 3, of which 2 requires a gradient *)
Definition needs_two (i : nat) : bool := Nat.eqb i 2.
Definition one_result (n : string) : list bool := if String.eqb n "max" then [true; false] else [true].
Definition here := call (fun _ => 2) needs_two has has_gradient one_result.
Example a_product : here true 0 "mul" [Ten 2] [] = (Runs (Forward "mul") (Some ([true], [Known 0; Known 2])), false) /\ here false 0 "mul" [Ten 2] [] = (Runs (Method "mul" false) None, false) /\ here true 0 "__mul__" [Ten 1] [] = (Runs (Method "mul" false) None, false).
Proof. repeat split. Qed.
Example a_loss : here true 2 "cross_entropy" [Ten 3] [Plain false] = (Runs (Forward "cross_entropy") (Some ([true], [Known 2; Known 3])), false) /\ here true 0 "cross_entropy" [Ten 1] [] = (Runs (Forward "cross_entropy") None, false).
Proof. repeat split. Qed.
Example a_concatenation : call_plain (fun _ => 2) needs_two has has_gradient one_result true None "cat" [Seq [Ten 0; Seq [Ten 2; Ten 1]]; Plain false] [] = Runs (Forward "cat") (Some ([true], [Known 0; Known 2; Known 1])).
Proof. reflexivity. Qed.
Example in_place_forms : here true 2 "add_" [Ten 0] [] = (Fails NoInPlace, false) /\ here true 0 "add_" [Ten 2] [] = (Runs (Forward "add") (Some ([true], [Known 0; Known 2])), true) /\ returned_requires needs_two 0 (here true 0 "add_" [Ten 2] []) = Some false /\ here false 2 "relu_" [] [] = (Runs (Method "relu" false) None, true).
Proof. repeat split. Qed.
Example a_lost_gradient : returned_requires needs_two 2 (here true 2 "expand" [Plain true] []) = Some false /\ returned_requires needs_two 2 (here true 2 "reshape" [Plain true] []) = Some true.
Proof. split; reflexivity. Qed.
Example operator_forms : operate (fun _ => 2) needs_two has has_gradient one_result true 2 "__iadd__" [Ten 0] = (Fails NoInPlace, false) /\ operate (fun _ => 2) needs_two has has_gradient one_result true 2 "__imatmul__" [Ten 0] = (Runs (Forward "matmul") (Some ([true], [Known 2; Known 0])), false) /\ operate (fun _ => 2) needs_two has has_gradient one_result true 2 "__pow__" [Plain false] = (Fails Unsupported, false) /\ here true 2 "__pow__" [Plain false] [] = (Runs (Forward "pow") (Some ([true], [Known 2])), false).
Proof. repeat split. Qed.
Example encrypted_before_plain : encrypted_first [Some 1; Some 2; None] /\ ~ encrypted_first [Some 1; None; Some 2].
Proof.
  split; [exists [1; 2], 1; reflexivity|]. intros H. pose proof (proj2 (C100_alignment _) H [10; 20; 30] eq_refl) as E. discriminate E.
Qed.
Example names : In "square" differentiable_functions /\ needs_two 2 = true /\ lookup (fun n => negb (String.eqb n "neg")) has_gradient false true "neg" = Error NoAttribute /\ lookup (fun n => negb (String.eqb n "relu")) has_gradient false true "relu" = NoCtx "relu" /\ lookup has has_gradient true true "detach_" = Own "detach_" /\ lookup has has_gradient true true "relu_" = Error NoInPlace.
Proof. split; [apply mem_in; reflexivity|]. repeat split. Qed.

(** Programs of tracked operations over the numbers the encrypted tensors stand for: running one records the tape that CrypTensor.backward walks (Autograd.v).
    Conventions as in Realgrad.v: rounding and approximation errors are left out.  Not modelled: the operations of gradients.py that are not listed in [op]. *)
Require Import List Reals ZArith Arith Bool.
From Verif Require Import Ring64 Tensor Rtensor Realgrad Realloss Realred Autograd.
Import ListNotations.
Open Scope R_scope.

(** *** _inverse_broadcast, gradients.py:58-76.  The assertion of line 71 is left out: the gradient has the size of the result, so its rank is never too small. *)
Definition rsum_dim (d : nat) (keepdim : bool) (g : rtensor) : rtensor := rreduce (Dim d keepdim) rsum g.
Fixpoint rdrop_leading (k : nat) (g : rtensor) : rtensor := match k with O => g | S k => rdrop_leading k (rsum_dim 0 false g) end.
Definition raccumulate (input_size : list nat) (g : rtensor) : rtensor :=
  fold_left (fun g d => if Nat.eqb (pos d input_size) 1 && Nat.ltb 1 (pos d (rshape g)) then rsum_dim d true g else g) (seq 0 (length (rshape g))) g.
Definition rinverse_broadcast (g : rtensor) (input_size : list nat) : rtensor :=
  match input_size with
  | [] => reduce_all (rsums (rshape g)) g
  | _ => raccumulate input_size (rdrop_leading (length (rshape g) - length input_size) g)
  end.
(** a product of the gradient and a saved tensor, broadcast to the size of the gradient *)
Definition rmul_to (g y : rtensor) : rtensor := mkR (rshape g) (fun ix => rat g ix * rat y (bindex (rshape y) ix)).
(** x.matmul(y), x.t() of matrices *)
Definition rmatmul (x y : rtensor) : rtensor := mkR [pos 0 (rshape x); pos 1 (rshape y)] (fun ix => rsumn (pos 1 (rshape x)) (fun l => rat x [pos 0 ix; l] * rat y [l; pos 1 ix])).
Definition rtranspose (x : rtensor) : rtensor := mkR [pos 1 (rshape x); pos 0 (rshape x)] (fun ix => rat x [pos 1 ix; pos 0 ix]).

(** the operations; [Scale], [Shift] and [Rsub] have a Python number as their other operand; the losses have an encrypted target *)
Inductive op := Neg | Relu | Tanh | Sigmoid | Exp | Log | Reciprocal | Sqrt | Square | Sin | Cos | Abs
  | Scale (c : R) | Shift (c : R) | Rsub (c : R) | Add | Sub | Mul | Div | Matmul | Transpose | Sum (m : mode) | Mean (m : mode) | Softmax (d : nat) | LogSoftmax (d : nat)
  | Bce | BceLogits | CrossEntropy.
Definition same_size (x y : rtensor) : bool := if list_eq_dec Nat.eq_dec (rshape x) (rshape y) then true else false.
Definition dim_ok (m : mode) (x : rtensor) : bool := match m with All => true | Dim d _ => Nat.ltb d (length (rshape x)) | Except _ => false end.
Definition unary {C} (r : C * rtensor) (backward : C -> rtensor -> rtensor) : option (rtensor * (rtensor -> list rtensor)) := Some (snd r, fun g => [backward (fst r) g]).
(** grad_fn.forward(ctx, *args) and the function that grad_fn.backward(ctx, _) then is; [None]: an exception.
    neg 470-478; mul, add, __rsub__ with numbers 656-726 (_ensure_tensor makes the number a 0-d tensor, whose gradient is also computed); add, sub, mul 656-726;
    div 775-798; matmul 730-772 and t 159-166 of matrices; sum 1130-1158; losses 1900-2023 (the target is marked non-differentiable). *)
Definition forward (o : op) (args : list rtensor) : option (rtensor * (rtensor -> list rtensor)) :=
  match o, args with
  | Neg, [x] => Some (rmap Ropp x, fun g => [rmap Ropp g])
  | Relu, [x] => unary (relu_forward x) relu_backward
  | Tanh, [x] => unary (tanh_forward x) tanh_backward
  | Sigmoid, [x] => unary (sigmoid_forward x) sigmoid_backward
  | Exp, [x] => unary (exp_forward x) exp_backward
  | Log, [x] => unary (log_forward x) log_backward
  | Reciprocal, [x] => unary (reciprocal_forward x) reciprocal_backward
  | Sqrt, [x] => unary (sqrt_forward x) sqrt_backward
  | Square, [x] => unary (square_forward x) square_backward
  | Sin, [x] => unary (sin_forward x) sin_backward
  | Cos, [x] => unary (cos_forward x) cos_backward
  | Abs, [x] => unary (abs_forward x) abs_backward
  | Scale c, [x] => Some (rmap (fun v => v * c) x, fun g => [rinverse_broadcast (rmap (fun v => v * c) g) (rshape x); rinverse_broadcast (rmul g x) []])
  | Shift c, [x] => Some (rmap (fun v => v + c) x, fun g => [rinverse_broadcast g (rshape x); rinverse_broadcast g []])
  | Rsub c, [x] => Some (rmap (fun v => - v + c) x, fun g => [rmap Ropp (rinverse_broadcast g (rshape x)); rinverse_broadcast g []])
  | Add, [x; y] => match rbroadcast Rplus x y with Some z => Some (z, fun g => [rinverse_broadcast g (rshape x); rinverse_broadcast g (rshape y)]) | None => None end
  | Sub, [x; y] => match rbroadcast Rminus x y with Some z => Some (z, fun g => [rinverse_broadcast g (rshape x); rmap Ropp (rinverse_broadcast g (rshape y))]) | None => None end
  | Mul, [x; y] => match rbroadcast Rmult x y with Some z => Some (z, fun g => [rinverse_broadcast (rmul_to g y) (rshape x); rinverse_broadcast (rmul_to g x) (rshape y)]) | None => None end
  | Div, [x; y] =>
      let r := rmap Rinv y in
      match rbroadcast Rmult x r with
      | Some z => Some (z, fun g => [rinverse_broadcast (rmul_to g r) (rshape x); rinverse_broadcast (rmap Ropp (rmul_to (rmul_to g (rmap Rsqr r)) x)) (rshape r)])
      | None => None
      end
  | Matmul, [x; y] => match rshape x, rshape y with
      | [_; k], [k'; _] => if Nat.eqb k k' then Some (rmatmul x y, fun g => [rinverse_broadcast (rmatmul g (rtranspose y)) (rshape x); rinverse_broadcast (rmatmul (rtranspose x) g) (rshape y)]) else None
      | _, _ => None end
  | Transpose, [x] => match rshape x with [_; _] => Some (rtranspose x, fun g => [rtranspose g]) | _ => None end
  | Sum m, [x] => if dim_ok m x then Some (rreduce m rsum x, fun g => [match rshape x with [] => g | s => spread m s g end]) else None
  | Mean m, [x] => if dim_ok m x && Nat.ltb 0 (nelement x) then unary (mean_forward m x) mean_backward else None
  | Softmax d, [x] => if Nat.ltb d (length (rshape x)) then unary (softmax_forward d x) softmax_backward else None
  | LogSoftmax d, [x] => if Nat.ltb d (length (rshape x)) then unary (log_softmax_forward d x) log_softmax_backward else None
  | Bce, [x; y] => if same_size x y then unary (bce_forward y x) bce_backward else None
  | BceLogits, [x; y] => if same_size x y then unary (bce_logits_forward y x) bce_logits_backward else None
  | CrossEntropy, [x; y] => if same_size x y && negb (is_0d x) then unary (cross_entropy_forward y x) cross_entropy_backward else None
  | _, _ => None
  end.
(** ctx.mark_non_differentiable(target) *)
Definition loss (o : op) : bool := match o with Bce | BceLogits | CrossEntropy => true | _ => false end.
Definition unmarked (o : op) (args : list nat) : list nat := if loss o then skipn 1 args else [].

(** *** Programs in single assignment form: tensor [k] is made by instruction [k]. *)
Inductive step := Leaf (requires : bool) (x : rtensor) | Call (o : op) (args : list nat).
Definition empty : rtensor := mkR [] (fun _ => 0).
(** cryptensor.py:228-235: torch.ones_like for tensors of one element *)
Definition unit_of (x : rtensor) : option (index -> R) := if Nat.eqb (nelement x) 1 then Some (fun _ => 1) else None.
(** autograd_forward, cryptensor.py:320-363: the tensors so far and the tape *)
Definition execute (st : option (list rtensor * list (instr (index -> R)))) (i : step) : option (list rtensor * list (instr (index -> R))) :=
  match st with
  | None => None
  | Some (vals, tape) =>
      match i with
      | Leaf r x => Some (vals ++ [x], tape ++ [Input r (unit_of x)])
      | Call o args =>
          if forallb (fun a => Nat.ltb a (length vals)) args then
            match forward o (map (fun a => nth a vals empty) args) with
            | Some (y, b) => Some (vals ++ [y], tape ++ [Apply args (unmarked o args) (fun g => map rat (b (mkR (rshape y) g))) (unit_of y)])
            | None => None
            end
          else None
      end
  end.
Definition train (p : list step) : option (list rtensor * list (instr (index -> R))) := fold_left execute p (Some ([], [])).
(** [add_] on gradients *)
Definition gplus (a b : index -> R) : index -> R := fun ix => a ix + b ix.

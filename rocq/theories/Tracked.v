(** What operations compute when one of their arguments requires a gradient (crypten/gradients.py).

    cryptensor.py:308-420: with autograd enabled and an argument that requires a gradient, [x.f(...)] runs the method [forward] of the
    gradient function registered for "f" instead of the method [f] of the tensor; operations inside [forward] run without autograd.
    Most [forward] methods only call the method they replace.  Here are those that compute something of their own, on shares, at one
    element; the methods they replace are in Compare.v, Maximum.v and Regular.v.  Left out: the tensors saved for the backward pass
    (Realgrad.v), and the rounding of a Python float to float32 by [_ensure_tensor] (gradients.py:49-55). *)
Require Import ZArith QArith List Bool.
From Verif Require Import Ring64 Encoder Arith Beaver Trunc Provider Binary Compare Maximum Regular.
Import ListNotations.
Open Scope Z_scope.

(** the number that a Python int or float is *)
Definition number (y : arg) : Q := match y with AInt k => inject_Z k | AFloat q => q | AEnc _ => 0%Q end.

Section Tracked.
  Context {pr : provider}.
  Variable D : Z.

  (** gradients.py:482-492 relu: [input.mul(input.gt(0.0))] *)
  Definition relu_tracked (x : num) : run pr num := mask <- n_gt D x (AFloat 0%Q) ;; mul_num x mask.

  (** [x.mul(y)] with a Python number (arithmetic.py:422-427, 338-404) *)
  Definition mul_scalar (x : num) (y : arg) : run pr num :=
    match y with AInt k => ret (muli_num k x) | AFloat q => mulf_num x q | AEnc y => mul_num x y end.
  (** gradients.py:585-611 hardtanh.  [intermediate[0]], [intermediate[1]]: whether x > min_val, max_val > x. *)
  Definition hardtanh_tracked (x : num) (lo hi : arg) : run pr num :=
    if Qeq_bool (number lo) (number hi) then z <- next_zero pr ;; ret (add_num (mkNum z D) lo)
    else
      above <- n_gt D (sub_num x lo) (AInt 0) ;; below <- n_gt D (add_num (neg_num x) hi) (AInt 0) ;;
      let grad := sub_num (add_num above (AEnc below)) (AInt 1) in
      result <- mul_num grad x ;;
      l <- mul_scalar (one_minus above) lo ;; let result := add_num result (AEnc l) in
      h <- mul_scalar (one_minus below) hi ;; ret (add_num result (AEnc h)).
  (** gradients.py:629-641 relu6 *)
  Definition relu6_tracked (x : num) : run pr num :=
    above <- n_gt D x (AInt 0) ;; below <- n_gt D (add_num (neg_num x) (AInt 6)) (AInt 0) ;;
    let grad := sub_num (add_num above (AEnc below)) (AInt 1) in
    result <- mul_num grad x ;; h <- mul_scalar (one_minus below) (AInt 6) ;; ret (add_num result (AEnc h)).

  Variable chk : check.
  (** gradients.py:712-719 mul by a Python int: [_ensure_tensor] makes it an integer tensor, which is encoded (arithmetic.py:367) and
      divided away again (391-395), while [x.mul(k)] multiplies the shares *)
  Definition mul_int_tracked (x : num) (k : Z) : runo pr num := mulpv chk x (encodeZ (n_sc x) k).
  (** gradients.py:850-857 pow with an int power p > 0 *)
  Definition pow_tracked (x : num) (p : Z) : runo pr num := g <~ pow_num D chk x (p - 1) ;; mulv chk g x.

  Variable p : nat.
  Variable local_bits : run pr (list Z).
  Variables log_steps cascade_steps isqrt : nat -> nat.
  Local Notation argmin' := (argmin D p local_bits log_steps cascade_steps isqrt).
  Local Notation max_dim' := (max_dim D p local_bits log_steps cascade_steps isqrt).
  (** gradients.py:1281-1308 min without [dim] of a tensor with more than one element: [input.mul(input.argmin(one_hot=one_hot)).sum()],
      where the result of argmin is the list of indicators or the index (maximum.py:37-41, 316-325) *)
  Definition min_tracked (one_hot : bool) (m : method) (xs : list num) : run pr num :=
    a <- argmin' m xs ;;
    if one_hot then select xs a else k <- one_hot_to_index a ;; z <- mapM (fun x => mul_num x k) xs ;; ret (sum_num z).
  (** gradients.py:1328-1357 max without [dim]: [input.flatten().max(0, one_hot=one_hot)]; the second result is then reshaped to the shape
      of the input, which raises when it is a single index and the input has more elements *)
  Definition max_tracked (one_hot : bool) (m : method) (xs : list num) : runo pr num :=
    r <~ lift (max_dim' m xs) ;;
    if one_hot || Nat.eqb (length xs) 1 then okr (fst r) else _ <~ lift (one_hot_to_index (pr := pr) (snd r)) ;; raise.
End Tracked.

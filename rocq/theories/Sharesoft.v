(** softmax (crypten/common/functions/approximations.py:409-424) on shares, with the rounding of every operation; conventions as in Shareapprox.v.
    One line of the tensor; an operation on a tensor handles its elements one after another. *)
Require Import ZArith List Bool QArith.
From Verif Require Import Ring64 Encoder Arith Beaver Trunc Provider Binary Compare Maximum Regular Shareapprox.
Import ListNotations.
Open Scope Z_scope.

Section Softmax.
  Context {pr : provider}.
  (** the default scale and precision, the local random bits, the numbers of steps of the maximum methods (Maximum.v), the method *)
  Variables (D : Z) (p : nat) (local_bits : run pr (list Z)) (log_steps cascade_steps isqrt : nat -> nat) (me : method).
  Variable chk : check.
  (** 412-418: a line of one element is [self.new(torch.ones_like(self.data))], an encryption of 1.
      420-427: [d] = exp_iterations, [k] = reciprocal_nr_iters; the denominator is known to be positive *)
  Definition softmaxv (d k : nat) (xs : list num) : runo pr (list num) :=
    match xs with
    | [_] => z <~ lift (next_zero pr) ;; okr [add_num (mkNum z D) (AInt 1)]
    | _ =>
        m <~ lift (max_dim D p local_bits log_steps cascade_steps isqrt me xs) ;;
        let logits := map (fun x => sub_num x (AEnc (fst m))) xs in
        numerator <~ mapO (expv chk d) logits ;;
        inv <~ reciprocal_posv chk d k (sum_num numerator) ;;
        mapO (fun y => mulv chk y inv) numerator
    end.
End Softmax.

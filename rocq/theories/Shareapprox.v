(** exp, reciprocal and sigmoid (crypten/common/functions/approximations.py) on shares, with the rounding of every operation; conventions as in Regular.v.
    One element.  [chk] is the validation of divisions (Regular.v): [no_check] is the default configuration. *)
Require Import ZArith List Bool QArith.
From Verif Require Import Ring64 Encoder Arith Beaver Trunc Provider Binary Compare Maximum Regular.
Import ListNotations.
Open Scope Z_scope.

Section Approximations.
  Context {pr : provider}.
  (** scale of the default encoder, as in Compare.v *)
  Variable D : Z.
  Variable chk : check.

  Fixpoint repeatv {A} (k : nat) (f : A -> runo pr A) (x : A) : runo pr A :=
    match k with O => okr x | S k => y <~ f x ;; repeatv k f y end.

  (** approximations.py:34-52, [d] = exp_iterations *)
  Definition expv (d : nat) (x : num) : runo pr num :=
    q <~ divv chk x (2 ^ Z.of_nat d) ;; repeatv d (squarev chk) (add_num q (AInt 1)).

  (** approximations.py:158-161: first estimate *)
  Definition nr_initialv (d : nat) (x : num) : runo pr num :=
    e <~ expv d (one_minus (muli_num 2 x)) ;; okr (add_num (muli_num 3 e) (AFloat (3 # 1000))).
  (** 165-166, an encrypted [result] *)
  Definition nr_stepv (x r : num) : runo pr num :=
    q <~ squarev chk r ;; p <~ mulv chk q x ;; okr (add_num r (AEnc (sub_num r (AEnc p)))).
  (** 167-168, [result] a number: the factor [result * result] is a number too; [2 * result - t] is [__rsub__] *)
  Definition nr_firstv (x : num) (v : Q) : runo pr num :=
    t <~ mulpv chk x (encodeQ (n_sc x) (v * v)) ;; okr (add_num (neg_num t) (AFloat (2 * v))).
  (** 156-169 with the Newton method and a positive input; no initial value configured *)
  Definition reciprocal_posv (d iters : nat) (x : num) : runo pr num :=
    r <~ nr_initialv d x ;; repeatv iters (nr_stepv x) r.
  (** ... and at least one iteration from a configured number [v] *)
  Definition reciprocal_fromv (v : Q) (iters : nat) (x : num) : runo pr num :=
    r <~ nr_firstv x v ;; repeatv (iters - 1) (nr_stepv x) r.
  (** 150-154 *)
  Definition reciprocalv (d iters : nat) (x : num) : runo pr num :=
    sgn <~ lift (n_sign D x) ;; p <~ mulv chk sgn x ;; r <~ reciprocal_posv d iters p ;; mulv chk sgn r.

  (** approximations.py:298-318, reciprocal method.  [self._ltz()], [self.mul(sign)], and at the end [pos_output.where(1 - ltz, 1 - pos_output)] (logic.py:112-130) *)
  Definition wherev (x c y : num) : runo pr num :=
    ym <~ mulv chk (one_minus c) y ;; xm <~ mulv chk x c ;; okr (add_num xm (AEnc ym)).
  Definition sigmoidv (d : nat) (x : num) : runo pr num :=
    l <~ lift (ltz D x) ;;
    p <~ mulv chk x (one_minus (muli_num 2 l)) ;;
    e <~ expv d (neg_num p) ;;
    r <~ reciprocal_fromv (3 # 4) 3 (add_num e (AInt 1)) ;;
    wherev r (one_minus l) (one_minus r).
  (** 348-350: tanh by the reciprocal, [self.mul(2).sigmoid().mul(2).sub(1)] *)
  Definition tanhv (d : nat) (x : num) : runo pr num :=
    r <~ sigmoidv d (muli_num 2 x) ;; okr (sub_num (muli_num 2 r) (AInt 1)).
End Approximations.

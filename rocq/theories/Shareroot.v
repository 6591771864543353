(** inv_sqrt and sqrt (crypten/common/functions/approximations.py:178-221) on shares, with the rounding of every operation; conventions as in Shareapprox.v.  One element.
    No initial value configured (with one, the code fails: C72_initial_refuted). *)
Require Import ZArith List Bool QArith.
From Verif Require Import Ring64 Encoder Arith Beaver Trunc Provider Binary Compare Maximum Regular Shareapprox.
Import ListNotations.
Open Scope Z_scope.

Section Roots.
  Context {pr : provider}.
  Variable chk : check.
  (** 197-198: [exp(self.div(2).add(0.2).neg()).mul(2.2).add(0.2)], [y -= self.div(1024)]; [d] = exp_iterations *)
  Definition root_initialv (d : nat) (x : num) : runo pr num :=
    h <~ divv chk x 2 ;; e <~ expv chk d (neg_num (add_num h (AFloat (1 # 5)))) ;; m <~ mulpv chk e (encodeQ (n_sc e) (11 # 5)) ;;
    k <~ divv chk x 1024 ;; okr (sub_num (add_num m (AFloat (1 # 5))) (AEnc k)).
  (** 203-204: [y.mul_(3 - self * y.square()).div_(2)] *)
  Definition root_stepv (x y : num) : runo pr num :=
    q <~ squarev chk y ;; p <~ mulv chk x q ;; m <~ mulv chk y (add_num (neg_num p) (AInt 3)) ;; divv chk m 2.
  (** 178-205, [iters] = sqrt_nr_iters *)
  Definition inv_sqrtv (d iters : nat) (x : num) : runo pr num := y <~ root_initialv d x ;; repeatv iters (root_stepv x) y.
  (** 208-224: [inv_sqrt(self).mul_(self)] *)
  Definition sqrtv (d iters : nat) (x : num) : runo pr num := y <~ inv_sqrtv d iters x ;; mulv chk y x.
End Roots.

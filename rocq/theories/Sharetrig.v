(** cos and sin (crypten/common/functions/approximations.py:224-272) on shares, with the rounding of every operation; conventions as in Shareapprox.v. *)
Require Import ZArith List Bool QArith.
From Verif Require Import Ring64 Encoder Arith Beaver Trunc Provider Binary Compare Maximum Regular Shareapprox.
Import ListNotations.
Open Scope Z_scope.

Section Trigonometric.
  Context {pr : provider}.
  Variable chk : check.
  (** 238-243: the body of the loop, from (re, im); [im.mul_(re)] and the doubling of its shares happen after both squares are taken *)
  Definition eix_stepv (p : num * num) : runo pr (num * num) :=
    let '(re, im) := p in
    a2 <~ squarev chk re ;; b2 <~ squarev chk im ;; m <~ mulv chk im re ;; okr (sub_num a2 (AEnc b2), muli_num 2 m).
  (** 224-245, [k] = trig_iterations.  [re -= im.square()] with the number 1 for re is [__rsub__]: minus the square, plus one *)
  Definition eixv (k : nat) (x : num) : runo pr (num * num) :=
    im <~ divv chk x (2 ^ Z.of_nat k) ;; sq <~ squarev chk im ;; repeatv (k - 1) eix_stepv (one_minus sq, muli_num 2 im).
  (** 248-272 *)
  Definition cossinv (k : nat) (x : num) : runo pr (num * num) := eixv k x.
  Definition cosv (k : nat) (x : num) : runo pr num := p <~ cossinv k x ;; okr (fst p).
  Definition sinv (k : nat) (x : num) : runo pr num := p <~ cossinv k x ;; okr (snd p).
End Trigonometric.

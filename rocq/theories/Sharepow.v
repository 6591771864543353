(** pow (crypten/common/functions/power.py:16-45) on shares for every integer exponent, with the rounding of every operation; conventions as in
    Shareapprox.v.  One element.  Not modelled: the TypeError for an exponent that is no integer. *)
Require Import ZArith List Bool QArith.
From Verif Require Import Ring64 Encoder Arith Beaver Trunc Provider Binary Compare Maximum Regular Shareapprox Sharelog Sharerecip.
Import ListNotations.
Open Scope Z_scope.

Section Power.
  Context {pr : provider}.
  (** scale of the default encoder, as in Compare.v *)
  Variable D : Z.
  Variable chk : check.
  (** power.py:29-32 are the negative exponents, with the configured reciprocal (no input_in_01); 33-45 are [pow_num] (Regular.v) *)
  Definition powerv (c : rconfig) (x : num) (p : Z) : runo pr num :=
    if p <? -1 then y <~ recipv D chk c false x ;; pow_num D chk y (- p)
    else if p =? -1 then recipv D chk c false x
    else pow_num D chk x p.
End Power.

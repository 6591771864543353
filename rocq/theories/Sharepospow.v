(** pos_pow (crypten/common/functions/power.py:48-60) on shares, with the rounding of every operation; conventions as in Shareapprox.v.  One element.
    Not modelled: exponents that are public tensors. *)
Require Import ZArith List Bool QArith.
From Verif Require Import Ring64 Encoder Arith Beaver Trunc Provider Binary Compare Maximum Regular Shareapprox Sharelog Sharerecip Sharepow.
Import ListNotations.
Open Scope Z_scope.

(** power.py:58, [int(p) == p] of a float, which is a rational number here *)
Definition whole (q : Q) : bool := Qnum q mod Zpos (Qden q) =? 0.
Section Power.
  Context {pr : provider}.
  (** scale of the default encoder, as in Compare.v *)
  Variable D : Z.
  Variable chk : check.
  (** power.py:60, [self.log().mul_(p).exp()] *)
  Definition exp_logv (c : rconfig) (x : num) (p : coeff) : runo pr num :=
    l <~ logv chk (r_exp_iterations c) (r_log_exp_iterations c) (r_log_order c) (r_log_iterations c) x ;; m <~ mulc chk l p ;; expv chk (r_exp_iterations c) m.
  (** power.py:58-60; the exponent is an int, a float or an encrypted number.  [pow] turns a float that is whole into an int (21-22). *)
  Definition pos_powv (c : rconfig) (x : num) (p : coeff) : runo pr num :=
    match p with
    | KInt k => powerv D chk c x k
    | KFloat q => if whole q then powerv D chk c x (Qnum q / Zpos (Qden q)) else exp_logv c x p
    | KEnc _ => exp_logv c x p
    end.
End Power.

(** norm (crypten/common/functions/power.py:100-126) with the exponents that Sharenorm.v leaves out, on shares, with the rounding of every operation;
    conventions as in Sharenorm.v. *)
Require Import ZArith List Bool QArith.
From Verif Require Import Ring64 Encoder Arith Beaver Trunc Provider Binary Compare Maximum Regular Shareapprox Sharelog Sharerecip Sharepow Sharepospow.
Import ListNotations.
Open Scope Z_scope.

(** the number p, which must not be encrypted (105, 123-126) *)
Definition public_number (p : coeff) : option Q := match p with KInt k => Some (inject_Z k) | KFloat r => Some r | KEnc _ => None end.
Section Norms.
  Context {pr : provider}.
  (** scale of the default encoder, as in Compare.v *)
  Variable D : Z.
  Variable chk : check.
  (** power.py:119-122, [self.abs().pos_pow(p).sum().pos_pow(1 / p)] for a number p, an int or a float; [1 / p] is always a float, taken as exact here.
      The assertion p >= 1 is line 106; the cases 1, 2 and infinity (107-118) are in Sharenorm.v *)
  Definition normpv (c : rconfig) (p : coeff) (xs : list num) : runo pr num :=
    match public_number p with
    | Some r => if negb (Qle_bool 1 r) then raise else
        a <~ mapO (fun x => lift (n_abs D x)) xs ;; q <~ mapO (fun x => pos_powv D chk c x p) a ;; pos_powv D chk c (sum_num q) (KFloat (/ r))
    | None => raise
    end.
End Norms.

(** erf (crypten/common/functions/approximations.py) on shares, with the rounding of every operation; conventions as in Shareapprox.v.  One element.
    Python floats are exact here, except that 2 / sqrt(pi) is the float64 nearest to it, written in decimal. *)
Require Import ZArith List Bool QArith.
From Verif Require Import Ring64 Encoder Arith Beaver Trunc Provider Binary Compare Maximum Regular Shareapprox.
Import ListNotations.
Open Scope Z_scope.

(** math.factorial *)
Fixpoint factorial (n : nat) : positive := match n with O => 1 | S m => Pos.of_succ_nat m * factorial m end%positive.
(** approximations.py:403: [((-1) ** n) / (math.factorial(n) * (2 * n + 1))] *)
Definition multiplier (n : nat) : Q := (if Nat.even n then 1 else -1) # (factorial n * Pos.of_succ_nat (2 * n)).
(** 405: [2.0 / math.sqrt(math.pi)] *)
Definition two_over_root_pi : Q := 11283791670955126 # 10000000000000000.

Section Erf.
  Context {pr : provider}.
  Variable D : Z.
  Variable chk : check.
  (** 402-404; [pos_pow] with a whole exponent is [pow] (power.py:58-59) *)
  Fixpoint erf_loop (ns : list nat) (x output : num) : runo pr num :=
    match ns with
    | [] => okr output
    | n :: r => t <~ pow_num D chk x (2 * Z.of_nat n + 1) ;; m <~ mulc chk t (KFloat (multiplier n)) ;; erf_loop r x (add_num output (AEnc m))
    end.
  (** 395-405; [iters] = erf_iterations *)
  Definition erfv (iters : nat) (x : num) : runo pr num :=
    o <~ erf_loop (seq 1 iters) x x ;; mulc chk o (KFloat two_over_root_pi).
End Erf.

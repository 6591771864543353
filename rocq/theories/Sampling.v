(** Sampling and dropout on encrypted tensors (crypten/common/functions/sampling.py, dropout.py, crypten/__init__.py), one element. *)
Require Import ZArith QArith List Bool.
From Verif Require Import Ring64 Encoder Arith Beaver Trunc Provider Binary Compare Maximum Regular.
Import ListNotations.
Open Scope Z_scope.

Section Sampling.
  Context {pr : provider}.
  Variable D : Z.
  Variable p : nat.
  Variable local_bits : run pr (list Z).
  Local Notation rand := (rand_num D p local_bits).

  (** sampling.py:53-57 [x.bernoulli()] *)
  Definition bernoulli (x : num) : run pr num := u <- rand ;; n_gt D x (AEnc u).
  (** __init__.py:505-511 [crypten.bernoulli(t)] of an encrypted tensor or of a public tensor of floats (elements left unrounded) *)
  Definition crypten_bernoulli (x : arg) : run pr num := u <- rand ;; n_lt D u x.
  (** sampling.py:90-109 [weighted_sample] over the elements of a vector *)
  Definition weighted_sample (ws : list num) : run pr (num * list num) := a <- weighted_index D p local_bits ws ;; v <- select ws a ;; ret (v, a).

  Variable chk : check.
  (** arithmetic.py:447-482 [x.div(y)] with a float y that is not integral: multiplied by the reciprocal (float32 rounding left out) *)
  Definition div_float (x : num) (y : Q) : runo pr num := mulpv chk x (encodeQ (n_sc x) (/ y)).
  (** dropout.py:15-51; [q] the probability; [self] itself is returned for q = 0 and, in place, outside training *)
  Definition dropout (x : num) (q : Q) (training : bool) : runo pr num :=
    if Qeq_bool q 0 then okr x
    else if Qeq_bool q 1 then okr (sub_num x (AEnc x))
    else if negb (Qle_bool q 0) && negb (Qle_bool 1 q) then
      if training then u <~ lift rand ;; m <~ lift (n_gt D u (AFloat q)) ;; d <~ div_float x (1 - q) ;; lift (mul_num d m)
      else okr x
    else raise.
  (** gradients.py:495-521, the same when x requires a gradient: [u] is a public random number that all parties draw alike; p = 1 divides by zero *)
  Definition dropout_tracked (x : num) (q : Q) (training : bool) (u : Q) : runo pr num :=
    if training then mulpv chk x (encodeQ (n_sc x) (if Qle_bool u q then 0 else / (1 - q))) else okr x.
End Sampling.

(** Which draws the truncations of a training loop (Training.v) depend on with three or more parties: the masks of [truncate], as in Chance.v.
    The comparisons behind a mask and the product with a mask (gradients.py:482-492, module.py:338-341) truncate nothing. *)
Require Import ZArith QArith List Bool.
From Verif Require Import Ring64 Encoder Arith Beaver Trunc Provider Binary Compare Maximum Regular Optim Program Training Chance.
Import ListNotations.
Open Scope Z_scope.

(** module.py:338-341 squares the gradient, which truncates once ([square_], arithmetic.py:597-600) *)
Definition tmask_draws (n : nat) (x : tinstr) : nat := match x with Plain x => mask_draws n x | Mask _ | Gate _ _ => 0 | Clip _ _ => n end%nat.
Definition tdraws (n : nat) (prog : list tinstr) : nat := fold_right (fun x k => (tmask_draws n x + k)%nat) 0%nat prog.

(** RAPPORLoss (crypten/nn/loss.py:172-200, crypten/gradients.py:1954-1998) and its gradient on shares, with the rounding of every operation; conventions as in Shareloss.v.
    [alpha] is a float, taken as a rational; [1 - alpha] and [2 * alpha - 1] are exact.  Not modelled: [skip_forward]. *)
Require Import ZArith List Bool QArith.
From Verif Require Import Ring64 Encoder Arith Beaver Trunc Provider Binary Compare Maximum Regular Shareapprox Sharesoft Sharelog Sharerecip Shareloss.
Import ListNotations.
Open Scope Z_scope.

Section Rappor.
  Context {pr : provider}.
  Variable D : Z.
  Variable chk : check.
  Variables (d d' order iters : nat).
  Variable alpha : Q.
  (** 1967: [alpha * pred + (1 - alpha) * (1 - pred)] *)
  Definition normalizedv (s : num) : runo pr num :=
    a <~ mulc chk s (KFloat alpha) ;; b <~ mulc chk (one_minus s) (KFloat (1 - alpha)) ;; okr (add_num a (AEnc b)).
  (** 1968-1971: [pred * (1 - pred)] times the reciprocal of [pred_normalized * (1 - pred_normalized)] *)
  Definition correctionv (c : rconfig) (s p : num) : runo pr num :=
    u <~ mulv chk s (one_minus s) ;; v <~ mulv chk p (one_minus p) ;; r <~ recipv D chk c true v ;; mulv chk u r.
  (** 1956-1986 with alpha not 0: what is saved, and the loss *)
  Definition rapporv (c : rconfig) (xs ys : list num) : runo pr (list (num * num) * num) :=
    ss <~ mapO (sigmoidv D chk d) xs ;; ps <~ mapO normalizedv ss ;; cs <~ zipO (correctionv c) ss ps ;;
    l <~ bcev chk d d' order iters ps ys ;; okr (combine ps cs, l).
  (** 1995-1998 *)
  Definition rappor_grad_itemv (N : Z) (g : num) (pc : num * num) (y : num) : runo pr num :=
    q <~ divv chk (sub_num (fst pc) (AEnc y)) N ;; r <~ mulc chk q (KFloat (2 * alpha - 1)) ;; u <~ mulv chk r (snd pc) ;; mulv chk u g.
  Definition rappor_gradv (g : num) (saved : list (num * num)) (ys : list num) : runo pr (list num) :=
    zipO (rappor_grad_itemv (Z.of_nat (length ys)) g) saved ys.
  (** forward, then backward with what was saved; 1963-1965 and 1992-1993: alpha = 0 is the loss of the sigmoids themselves *)
  Definition rappor_bothv (c : rconfig) (g : num) (xs ys : list num) : runo pr (num * list num) :=
    if Qeq_bool alpha 0 then bce_logits_bothv D chk d d' order iters g xs ys
    else r <~ rapporv c xs ys ;; z <~ rappor_gradv g (fst r) ys ;; okr (snd r, z).
End Rappor.

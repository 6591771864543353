(** Logistic regression on shares: a Linear module with one output, BCEWithLogitsLoss and the SGD optimiser, trained on one batch for several epochs, with the rounding of every operation.

    Forward pass nn/module.py:1894-1898 and gradients.py:1929-1946 (Shareloss.v), backward pass cryptensor.py:213-267 with gradients.py:1948-1951, 665-671, 755-757, 165-166, update optim/sgd.py:94-139 without
    momentum, weight decay and threshold (the defaults).  Simplifications: as in Program.v (one triple per product of a matrix product); the learning rate is an exact rational; each result is a new value where
    the code writes in place ([mul_], [sub_]); the weights are updated before the bias, one after the other, as in sgd.py:118-137. *)
Require Import ZArith QArith List Bool.
From Verif Require Import Ring64 Encoder Arith Beaver Trunc Provider Binary Compare Maximum Regular Shareapprox Sharesoft Sharelog Sharerecip Program Shareloss.
Import ListNotations.
Open Scope Z_scope.

Section Logit.
  Context {pr : provider}.
  (** scale of the default encoder, as in Compare.v *)
  Variable D : Z.
  Variable chk : check.
  (** exp_iterations, log_exp_iterations, log_order, log_iterations *)
  Variables (d d' order iters : nat).

  (** module.py:1894-1898 for one example and one output: [x.matmul(weight.t()).add(bias)] *)
  Definition scorev (w : list num) (b : num) (x : list num) : runo pr num := z <~ dotv chk (combine x w) ;; okr (add_num z (AEnc b)).
  (** sgd.py:137: [p.sub_(d_p.mul(lr))] *)
  Definition updatev (rate : Q) (p g : num) : runo pr num := u <~ mulpv chk g (encodeQ D rate) ;; okr (sub_num p (AEnc u)).
  (** gradients.py:757: a row of [self_.transpose(-2, -1)], all examples' values of one feature *)
  Definition column (X : list (list num)) (i : nat) : list num := map (fun x => nth i x nil_num) X.
  (** zero_grad, forward, loss, backward, step: the loss, the new weights and bias.  [onesv] is the gradient backward starts with (cryptensor.py:224-228); AutogradMatMul.backward (gradients.py:755-757) also computes
      the gradient of the input, which is dropped *)
  Definition epochv (rate : Q) (X : list (list num)) (Y : list num) (wb : list num * num) : runo pr (num * (list num * num)) :=
    zs <~ mapO (scorev (fst wb) (snd wb)) X ;;
    r <~ bce_logitsv D chk d d' order iters zs Y ;;
    one <~ onesv D ;;
    gs <~ logits_gradv chk one (fst r) Y ;;
    dx <~ mapO (fun g => mapO (fun w => dotv chk [(g, w)]) (fst wb)) gs ;;
    dw <~ mapO (fun i => dotv chk (combine (column X i) gs)) (seq 0 (length (fst wb))) ;;
    w' <~ zipO (updatev rate) (fst wb) dw ;;
    b' <~ updatev rate (snd wb) (sum_num gs) ;;
    okr (snd r, (w', b')).
  (** [t] epochs: the losses, the weights and bias in the end *)
  Fixpoint trainv (rate : Q) (X : list (list num)) (Y : list num) (t : nat) (wb : list num * num) : runo pr (list num * (list num * num)) :=
    match t with
    | O => okr ([], wb)
    | S t => r <~ epochv rate X Y wb ;; q <~ trainv rate X Y t (snd r) ;; okr (fst r :: fst q, snd q)
    end.
End Logit.

(** L1Loss, BCELoss, BCEWithLogitsLoss and CrossEntropyLoss (crypten/nn/loss.py:70-169, crypten/gradients.py:1900-1951, 2001-2025) and their gradients on shares, with the rounding of every operation; conventions as in
    Shareapprox.v.  Predictions and targets are lists of elements, for the cross entropy lists of rows; stacked tensors are computed one after the other.
    Not modelled: RAPPORLoss, [skip_forward] (which returns an encryption of 0 after the first step), cross entropy with one class or more than two dimensions. *)
Require Import ZArith List Bool QArith.
From Verif Require Import Ring64 Encoder Arith Beaver Trunc Provider Binary Compare Maximum Regular Shareapprox Sharesoft Sharelog Sharerecip.
Import ListNotations.
Open Scope Z_scope.

Section Losses.
  Context {pr : provider}.
  (** scale of the default encoder, as in Compare.v *)
  Variable D : Z.
  Variable chk : check.
  (** exp_iterations, log_exp_iterations, log_order, log_iterations *)
  Variables (d d' order iters : nat).

  (** [.mean()] of all elements (regular.py:151-161) *)
  Definition mean_allv (xs : list num) : runo pr num := ms <~ meanv chk [xs] ;; okr (hd nil_num ms).
  (** loss.py:85-87: [(x - y).abs().mean()] *)
  Definition l1v (xs ys : list num) : runo pr num :=
    a <~ zipO (fun x y => lift (n_abs D (sub_num x (AEnc y)))) xs ys ;; mean_allv a.

  (** gradients.py:1910-1913 for one element: [target * log_pos + (1.0 - target) * log_neg] *)
  Definition bce_itemv (p y : num) : runo pr num :=
    lp <~ log01v chk d d' order iters p ;; lq <~ log01v chk d d' order iters (one_minus p) ;;
    a <~ mulv chk y lp ;; b <~ mulv chk (one_minus y) lq ;; okr (add_num a (AEnc b)).
  (** 1914: [-(loss_values.mean())] *)
  Definition bcev (ps ys : list num) : runo pr num :=
    l <~ zipO bce_itemv ps ys ;; m <~ mean_allv l ;; okr (neg_num m).
  (** 1916-1923: [grad = rec_neg * (1.0 - target) - rec_pos * target], [grad.div_(target.nelement()).mul_(grad_output)]; [c] the configuration of reciprocal *)
  Definition bce_grad_itemv (c : rconfig) (N : Z) (g p y : num) : runo pr num :=
    rp <~ recipv D chk c true p ;; rq <~ recipv D chk c true (one_minus p) ;;
    a <~ mulv chk rq (one_minus y) ;; b <~ mulv chk rp y ;;
    q <~ divv chk (sub_num a (AEnc b)) N ;; mulv chk q g.
  Definition bce_gradv (c : rconfig) (g : num) (ps ys : list num) : runo pr (list num) :=
    zipO (bce_grad_itemv c (Z.of_nat (length ys)) g) ps ys.

  (** 1929-1946: the sigmoids, which are saved, and the loss of them *)
  Definition bce_logitsv (xs ys : list num) : runo pr (list num * num) :=
    ss <~ mapO (sigmoidv D chk d) xs ;; l <~ bcev ss ys ;; okr (ss, l).
  (** 1948-1951 and 2021-2025: [(saved - target).div(N).mul_(grad_output)] *)
  Definition diff_gradv (N : Z) (g : num) (ss ys : list num) : runo pr (list num) :=
    zipO (fun s y => q <~ divv chk (sub_num s (AEnc y)) N ;; mulv chk q g) ss ys.
  Definition logits_gradv (g : num) (ss ys : list num) : runo pr (list num) := diff_gradv (Z.of_nat (length ys)) g ss ys.
  (** forward, then backward with the saved sigmoids *)
  Definition bce_logits_bothv (g : num) (xs ys : list num) : runo pr (num * list num) :=
    r <~ bce_logitsv xs ys ;; z <~ logits_gradv g (fst r) ys ;; okr (snd r, z).

  (** CrossEntropyLoss.forward squeezes both arguments (loss.py:143-147): [target.size(0)] is the number of rows, but the number of classes if there is one row *)
  Definition first_size {A} (rows : list (list A)) : nat := match rows with [r] => length r | _ => length rows end.
  Variables (p : nat) (local_bits : run pr (list Z)) (log_steps cascade_steps isqrt : nat -> nat) (me : method).
  (** 2018: [softmax.log(input_in_01=True).mul_(target).neg_()] of one element *)
  Definition ce_itemv (s y : num) : runo pr num :=
    l <~ log01v chk d d' order iters s ;; z <~ mulv chk l y ;; okr (neg_num z).
  (** 2004-2019; [k] = reciprocal_nr_iters.  The softmax, which is saved, and the loss *)
  Definition cross_entropyv (k : nat) (rows targets : list (list num)) : runo pr (list (list num) * num) :=
    ss <~ mapO (softmaxv D p local_bits log_steps cascade_steps isqrt me chk d k) rows ;;
    ls <~ zipO (fun s y => zipO ce_itemv s y) ss targets ;;
    q <~ divv chk (sum_num (concat ls)) (Z.of_nat (first_size targets)) ;; okr (ss, q).
  (** 2021-2025 *)
  Definition ce_gradv (g : num) (ss targets : list (list num)) : runo pr (list (list num)) :=
    zipO (diff_gradv (Z.of_nat (first_size targets)) g) ss targets.
  (** forward, then backward with the saved softmax *)
  Definition cross_entropy_bothv (k : nat) (g : num) (rows targets : list (list num)) : runo pr (num * list (list num)) :=
    r <~ cross_entropyv k rows targets ;; z <~ ce_gradv g (fst r) targets ;; okr (snd r, z).
End Losses.

(** Softmax and the loss functions (crypten/gradients.py) over the numbers the encrypted tensors stand for; conventions as in Realgrad.v.
    Dimensions are already normalised ([d] counts from the front); prediction and target have one size. *)
Require Import List Reals ZArith Arith Bool.
From Verif Require Import Ring64 Tensor Rtensor Realgrad.
Import ListNotations.
Open Scope R_scope.

(** the largest of the first [n] values of a line *)
Fixpoint rmaxn (n : nat) (f : nat -> R) : R := match n with O => 0 | S O => f O | S m => Rmax (rmaxn m f) (f m) end.
Definition size (d : nat) (x : rtensor) : nat := pos d (rshape x).
Definition is_0d (x : rtensor) : bool := match rshape x with [] => true | _ => false end.

(** approximations.py:409-424 *)
Definition softmax (d : nat) (x : rtensor) : rtensor :=
  if is_0d x || Nat.eqb (size d x) 1 then rmap (fun _ => 1) x
  else
    let maximum_value := along d (rmaxn (size d x)) x in
    let logits := rmap2 Rminus x maximum_value in
    let numerator := rmap exp logits in
    let inv_denominator := along d (fun l => / rsumn (size d x) l) numerator in
    rmul numerator inv_denominator.
(** approximations.py:427-445 *)
Definition log_softmax (d : nat) (x : rtensor) : rtensor :=
  if is_0d x || Nat.eqb (size d x) 1 then rmap (fun _ => 0) x
  else
    let maximum_value := along d (rmaxn (size d x)) x in
    let logits := rmap2 Rminus x maximum_value in
    let normalize_term := along d (rsumn (size d x)) (rmap exp logits) in
    rmap2 Rminus logits (rmap ln normalize_term).
(** gradients.py:1389-1404 *)
Definition softmax_forward (d : nat) (x : rtensor) : (rtensor * nat) * rtensor := let probs := softmax d x in ((probs, d), probs).
Definition softmax_backward (saved : rtensor * nat) (g : rtensor) : rtensor :=
  let '(probs, d) := saved in
  if is_0d g || Nat.eqb (size d g) 1 then rmap (fun _ => 0) g
  else rmul (rmap2 Rplus g (rmap Ropp (along d (rsumn (size d g)) (rmul probs g)))) probs.
(** gradients.py:1407-1422 *)
Definition log_softmax_forward (d : nat) (x : rtensor) : (rtensor * nat) * rtensor := let probs := log_softmax d x in ((probs, d), probs).
Definition log_softmax_backward (saved : rtensor * nat) (g : rtensor) : rtensor :=
  let '(probs, d) := saved in
  if is_0d g || Nat.eqb (size d g) 1 then rmap (fun _ => 0) g
  else let z := rmap exp probs in rmap2 Rminus g (rmul z (along d (rsumn (size d g)) g)).

(** regular.py:151-161 [mean()] of all entries; the product with a scalar [grad_output] *)
Definition mean_all (x : rtensor) : rtensor := reduce_all (fun f => rsums (rshape x) f / INR (nelement x)) x.
Definition times (g x : rtensor) : rtensor := rmap (fun v => v * rat g []) x.
Definition neg (x : rtensor) : rtensor := rmap Ropp x.
(** target * log_pos + (1 - target) * log_neg *)
Definition log_likelihood (target p : rtensor) : rtensor :=
  let log_pos := rmap ln p in let log_neg := rmap ln (rmap (fun v => 1 - v) p) in
  rmap2 Rplus (rmul target log_pos) (rmul (rmap (fun v => 1 - v) target) log_neg).
(** gradients.py:1900-1923.  Not modelled: [skip_forward], which replaces the loss by 0. *)
Definition bce_forward (target pred : rtensor) : (rtensor * rtensor) * rtensor := ((pred, target), neg (mean_all (log_likelihood target pred))).
Definition bce_backward (saved : rtensor * rtensor) (g : rtensor) : rtensor :=
  let '(pred, target) := saved in
  let rec_pos := rmap Rinv pred in let rec_neg := rmap Rinv (rmap (fun v => 1 - v) pred) in
  let grad := rmap2 Rminus (rmul rec_neg (rmap (fun v => 1 - v) target)) (rmul rec_pos target) in
  times g (rmap (fun v => v / INR (nelement target)) grad).
(** gradients.py:1926-1951 *)
Definition bce_logits_forward (target logit : rtensor) : (rtensor * rtensor) * rtensor :=
  let out := rmap sigmoid logit in ((target, out), neg (mean_all (log_likelihood target out))).
Definition bce_logits_backward (saved : rtensor * rtensor) (g : rtensor) : rtensor :=
  let '(target, out) := saved in times g (rmap (fun v => v / INR (nelement target)) (rmap2 Rminus out target)).
(** gradients.py:1954-1998 *)
Definition rappor_forward (alpha : R) (target logit : rtensor) : (rtensor * rtensor * option rtensor * R) * rtensor :=
  let pred := rmap sigmoid logit in
  if Req_EM_T alpha 0 then ((target, pred, None, alpha), neg (mean_all (log_likelihood target pred)))
  else
    let pn := rmap (fun v => alpha * v + (1 - alpha) * (1 - v)) pred in
    let correction := rmul (rmap (fun v => v * (1 - v)) pred) (rmap (fun v => / (v * (1 - v))) pn) in
    ((target, pn, Some correction, alpha), neg (mean_all (log_likelihood target pn))).
Definition rappor_backward (saved : rtensor * rtensor * option rtensor * R) (g : rtensor) : rtensor :=
  let '(target, pn, correction, alpha) := saved in
  let grad := rmap (fun v => v / INR (nelement target)) (rmap2 Rminus pn target) in
  match correction with
  | None => times g grad
  | Some c => times g (rmul (rmap (fun v => v * (2 * alpha - 1)) grad) c)
  end.
(** gradients.py:2001-2023.  [None]: [target.size(0)] of a 0-d tensor *)
Definition class_dim (x : rtensor) : nat := if Nat.ltb 1 (length (rshape x)) then 1 else 0.
Definition cross_entropy_forward (target pred : rtensor) : (rtensor * rtensor) * rtensor :=
  let sm := softmax (class_dim pred) pred in
  let loss_values := neg (rmul (rmap ln sm) target) in
  ((sm, target), reduce_all (fun f => rsums (rshape pred) f / INR (size 0 target)) loss_values).
Definition cross_entropy_backward (saved : rtensor * rtensor) (g : rtensor) : rtensor :=
  let '(sm, target) := saved in times g (rmap (fun v => v / INR (size 0 target)) (rmap2 Rminus sm target)).

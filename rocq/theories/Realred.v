(** Reductions and batch normalisation (crypten/gradients.py) over the numbers the encrypted tensors stand for; conventions as in Realgrad.v.
    Dimensions are already normalised, except where the code itself computes with them ([cosine_similarity]). *)
Require Import List Reals ZArith Arith Bool.
From Verif Require Import Ring64 Tensor Rtensor Realgrad Realloss.
Import ListNotations.
Open Scope R_scope.

(** What is reduced together: everything ([dim=None]), dimension [d], or everything but dimension [d] (a list of dimensions, as batchnorm uses). *)
Inductive mode := All | Dim (d : nat) (keepdim : bool) | Except (d : nat).
Definition oshape (m : mode) (s : list nat) : list nat :=
  match m with All => [] | Dim d true => upd d 1%nat s | Dim d false => del d s | Except d => [pos d s] end.
(** the input entries reduced into output entry [o] *)
Definition members (m : mode) (s : list nat) (o : index) : list index :=
  match m with
  | All => indices s
  | Dim d true => map (fun i => upd d i o) (seq 0 (pos d s))
  | Dim d false => map (fun i => ins d i o) (seq 0 (pos d s))
  | Except d => map (ins d (pos 0 o)) (indices (del d s))
  end.
(** the output entry an input entry goes to *)
Definition out (m : mode) (ix : index) : index :=
  match m with All => [] | Dim d true => upd d O ix | Dim d false => del d ix | Except d => [pos d ix] end.
Definition rreduce (m : mode) (F : list R -> R) (x : rtensor) : rtensor := mkR (oshape m (rshape x)) (fun o => F (map (rat x) (members m (rshape x) o))).
(** [unsqueeze]/reshape and broadcasting back to the size of the input *)
Definition spread (m : mode) (s : list nat) (y : rtensor) : rtensor := mkR s (fun ix => rat y (out m ix)).

(** regular.py:151-161 [mean].  The divisor is an integer quotient; Python raises when the result is empty. *)
Definition divisor (m : mode) (x : rtensor) : nat := (nelement x / product (oshape m (rshape x)))%nat.
Definition mean (m : mode) (x : rtensor) : rtensor := rreduce m (fun l => rsum l / INR (divisor m x)) x.
(** gradients.py:1187-1221; [mean] over a list of dimensions has no gradient function ([input_size[dim]]) *)
Definition mean_forward (m : mode) (x : rtensor) : (list nat * mode) * rtensor := ((rshape x, m), mean m x).
Definition mean_backward (saved : list nat * mode) (g : rtensor) : rtensor :=
  let '(s, m) := saved in
  match s with
  | [] => g
  | _ => let n := match m with Dim d _ => pos d s | _ => product s end in rmap (fun v => v * (1 / INR n)) (spread m s g)
  end.
(** regular.py:164-199 [var]; [m'] is the same mode with the dimension kept *)
Definition var (m : mode) (unbiased : bool) (x : rtensor) : rtensor :=
  let mu := spread m (rshape x) (mean m x) in
  let sq := rmap (fun v => v * v) (rmap2 Rminus x mu) in
  let d := if unbiased then divisor m x else (divisor m x - 1)%nat in
  rreduce m (fun l => if Nat.leb d 1 then rsum l else rsum l / INR d) sq.
(** gradients.py:1224-1277 *)
Definition var_forward (m : mode) (unbiased : bool) (x : rtensor) : (rtensor * rtensor * nat * mode) * rtensor :=
  ((x, spread m (rshape x) (mean m x), if unbiased then divisor m x else (divisor m x - 1)%nat, m), var m unbiased x).
Definition var_backward (saved : rtensor * rtensor * nat * mode) (g : rtensor) : rtensor :=
  let '(x, mu, d, m) := saved in
  let numerator := rmul (rmap (fun v => v * 2) (rmap2 Rminus x mu)) (spread m (rshape x) g) in
  if Nat.eqb d 0 then numerator else rmap (fun v => v / INR d) numerator.
(** Maxima: [pick] stands for the argmax protocol on one group (C32: the position of a maximal element, chosen at random among ties).
    gradients.py:1327-1372: the maximum is the sum of the entries times the one-hot tensor; the gradient goes where the one-hot tensor is 1. *)
Definition one_hot (pick : list R -> nat) (m : mode) (x : rtensor) : rtensor :=
  mkR (rshape x) (fun ix => let g := members m (rshape x) (out m ix) in if index_eqb (nth (pick (map (rat x) g)) g []) ix then 1 else 0).
Definition max_forward (pick : list R -> nat) (m : mode) (x : rtensor) : (mode * rtensor) * rtensor :=
  let a := one_hot pick m x in ((m, a), rreduce m rsum (rmul x a)).
Definition max_backward (saved : mode * rtensor) (g : rtensor) : rtensor :=
  let '(m, a) := saved in match rshape a with [] => g | _ => rmul (spread m (rshape a) g) a end.
(** gradients.py:1280-1324; maximum.py:44-48: the argmin is the argmax of the negation *)
Definition min_forward (pick : list R -> nat) (m : mode) (x : rtensor) : (mode * rtensor) * rtensor :=
  let a := one_hot pick m (rmap Ropp x) in ((m, a), rreduce m rsum (rmul x a)).
Definition min_backward := max_backward.
(** power.py:100-126 and gradients.py:1089-1125 [norm], p = 2 and p = 1, with [dim=None] or [keepdim=True] (so that the gradient broadcasts against the input) *)
Definition norm2_forward (m : mode) (x : rtensor) : (rtensor * rtensor * mode) * rtensor :=
  let n := rreduce m (fun l => sqrt (rsum l)) (rmap (fun v => v * v) x) in ((x, n, m), n).
Definition norm2_backward (saved : rtensor * rtensor * mode) (g : rtensor) : rtensor :=
  let '(x, n, m) := saved in rmul (spread m (rshape x) g) (rmap2 Rdiv x (spread m (rshape x) n)).
(** other exponents: [pos_pow] is exp(p log .) for a fractional exponent and [pow] for a whole one; the root is always [pos_pow(1/p)] (1/p is not whole for p > 1) *)
Definition pos_pow (e : exponent) (v : R) : R := match e with Whole p => powi v p | Fractional q => exp (ln v * q) end.
Definition exp_value (e : exponent) : R := match e with Whole p => IZR p | Fractional q => q end.
Definition exp_pred (e : exponent) : exponent := match e with Whole p => Whole (p - 1) | Fractional q => Fractional (q - 1) end.
Definition normp_forward (e : exponent) (m : mode) (x : rtensor) : (rtensor * rtensor * exponent * mode) * rtensor :=
  let n := rreduce m (fun l => exp (ln (rsum l) * (1 / exp_value e))) (rmap (pos_pow e) (rmap (fun v => v * sign v) x)) in ((x, n, e, m), n).
Definition norm1_forward (m : mode) (x : rtensor) : (rtensor * rtensor * exponent * mode) * rtensor :=
  let n := rreduce m rsum (rmap (fun v => v * sign v) x) in ((x, n, Whole 1, m), n).
Definition normp_backward (saved : rtensor * rtensor * exponent * mode) (g : rtensor) : rtensor :=
  let '(x, n, e, m) := saved in
  let s := rmap sign x in let a := rmul x s in
  rmul (spread m (rshape x) g) (rmul (rmap (pos_pow (exp_pred e)) (rmap2 Rdiv a (spread m (rshape x) n))) s).
(** ... [dim] without [keepdim]: gradients.py:1113-1115 discards the result of [grad_output.unsqueeze(dim)], so the reduced tensors are broadcast from the right.
    [None]: sizes that do not broadcast. *)
Definition rbroadcast (op : R -> R -> R) (x y : rtensor) : option rtensor :=
  match bshape (rshape x) (rshape y) with Some t => Some (mkR t (fun ix => op (rat x (bindex (rshape x) ix)) (rat y (bindex (rshape y) ix)))) | None => None end.
Definition norm2_backward_nokeep (saved : rtensor * rtensor * mode) (g : rtensor) : option rtensor :=
  let '(x, n, m) := saved in match rbroadcast Rdiv x n with Some q => rbroadcast Rmult g q | None => None end.
(** gradients.py:1007-1061 [cosine_similarity] with 0 <= dim, along a dimension of size other than 1 *)
Definition dot (d : nat) (x y : rtensor) : rtensor := rreduce (Dim d false) rsum (rmul x y).
Definition inv_norm (d : nat) (x : rtensor) : rtensor := rreduce (Dim d false) (fun l => inv_sqrt (rsum l)) (rmap Rsqr x).
Definition cosine_forward (d : nat) (x y : rtensor) : (rtensor * rtensor * rtensor * rtensor * nat) * rtensor :=
  ((x, y, inv_norm d x, inv_norm d y, d), rmul (dot d x y) (rmul (inv_norm d x) (inv_norm d y))).
Definition cosine_backward (saved : rtensor * rtensor * rtensor * rtensor * nat) (g : rtensor) : rtensor * rtensor :=
  let '(x, y, nx, ny, d) := saved in let sp := spread (Dim d false) (rshape x) in
  let dt := sp (dot d x y) in
  let scale := rmul (sp nx) (sp ny) in
  let grad a b na := rmul (rmul (rmap2 Rminus b (rmul dt (rmul a (rmap Rsqr (sp na))))) scale) (sp g) in
  (grad x y nx, grad y x ny).
(** ... along a dimension of size 1: the sign of the product, gradient zero *)
Definition cosine1_forward (d : nat) (x y : rtensor) : unit * rtensor := (tt, rreduce (Dim d false) rsum (rmap sign (rmul x y))).
Definition cosine1_backward (d : nat) (s : list nat) (_ : unit) (g : rtensor) : rtensor * rtensor := let z := mkR s (fun _ => 0) in (z, z).
(** ... of vectors with dim = -1: [dim + 1] is 0, the stacking dimension, so the "norms" are those of the pairs (x_i, y_i), and [inv_norms.prod(0)] is the product over i *)
Definition cosine_last_forward (x y : rtensor) : R :=
  let n := size 0 x in
  rsumn n (fun i => rat x [i] * rat y [i]) * fold_right Rmult 1 (map (fun i => inv_sqrt (Rsqr (rat x [i]) + Rsqr (rat y [i]))) (seq 0 n)).

(** Batch normalisation, gradients.py:1750-1898.  x has size (N, C, ...); weight, bias and statistics have size (C).  The result is a record of what is saved.
    Not modelled: the optional [inv_var] argument. *)
Definition channel := Except 1.
Definition moments (x : rtensor) : rtensor * rtensor := (mean channel x, var channel true x).
Definition bn_norm (eps : R) (mu v x : rtensor) : rtensor * rtensor :=
  let inv := rmap (fun a => inv_sqrt (a + eps)) v in (rmul (rmap2 Rminus x (spread channel (rshape x) mu)) (spread channel (rshape x) inv), inv).
Definition bn_output (xn weight bias : rtensor) : rtensor := rmap2 Rplus (rmul xn (spread channel (rshape xn) weight)) (spread channel (rshape xn) bias).
Definition bn_train_forward (eps : R) (x weight bias : rtensor) : (rtensor * rtensor * rtensor) * rtensor :=
  let '(mu, v) := moments x in let '(xn, inv) := bn_norm eps mu v x in ((xn, weight, inv), bn_output xn weight bias).
Definition bn_eval_forward (eps : R) (mu v x weight bias : rtensor) : (rtensor * rtensor * rtensor) * rtensor :=
  let '(xn, inv) := bn_norm eps mu v x in ((xn, weight, inv), bn_output xn weight bias).
(** gradients.py:1796-1798: new running mean and variance *)
Definition bn_running (momentum : R) (running batch : rtensor) : rtensor := rmap2 (fun r b => r * (1 - momentum) + b * momentum) running batch.
Definition bn_backward (training : bool) (saved : rtensor * rtensor * rtensor) (g : rtensor) : rtensor * rtensor * rtensor :=
  let '(xn, weight, inv) := saved in let s := rshape g in
  let grad_weight := rreduce channel rsum (rmul g xn) in
  let grad_bias := rreduce channel rsum g in
  let gw := rmul g (spread channel s weight) in
  let grad_input := rmul gw (spread channel s inv) in
  let num_element := product (del 1 s) in
  let grad_input :=
    if training then
      let factor := spread channel s (rmap (fun v => v / - INR num_element) inv) in
      let grad_mean := rmul (spread channel s (rreduce channel rsum gw)) factor in
      let grad_std := rmul (rmul xn (spread channel s (rreduce channel rsum (rmul xn gw)))) factor in
      rmap2 Rplus (rmap2 Rplus grad_input grad_mean) grad_std
    else grad_input in
  (grad_input, grad_weight, grad_bias).

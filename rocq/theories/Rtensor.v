(** Tensors of real numbers: encrypted tensors by the numbers they stand for.  Rounding to fixed point and the errors of the approximations (common/functions/approximations.py) are left out here. *)
Require Import List Reals ZArith Arith Bool.
From Verif Require Import Ring64 Tensor.
Import ListNotations.
Open Scope R_scope.

Record rtensor := mkR { rshape : list nat; rat : index -> R }.
Definition rsum (l : list R) : R := fold_right Rplus 0 l.
Definition rsums (s : list nat) (f : index -> R) : R := rsum (map f (indices s)).
Definition rsumn (n : nat) (f : nat -> R) : R := rsum (map f (seq 0 n)).
Definition nelement (x : rtensor) : nat := product (rshape x).
(** elementwise; binary operations on tensors of one size (broadcasting of gradients is the subject of C50) *)
Definition rmap (f : R -> R) (x : rtensor) : rtensor := mkR (rshape x) (fun ix => f (rat x ix)).
Definition rmap2 (f : R -> R -> R) (x y : rtensor) : rtensor := mkR (rshape x) (fun ix => f (rat x ix) (rat y ix)).
Definition rmul := rmap2 Rmult.
(** reductions along one dimension; a keepdim result is used by broadcasting it back: [along d f x] is the tensor of x's size holding f of x's line through each index *)
Definition line (d : nat) (x : rtensor) (ix : index) (i : nat) : R := rat x (upd d i ix).
Definition along (d : nat) (f : (nat -> R) -> R) (x : rtensor) : rtensor := mkR (rshape x) (fun ix => f (line d x ix)).
Definition reduce (d : nat) (keepdim : bool) (f : (nat -> R) -> R) (x : rtensor) : rtensor :=
  if keepdim then mkR (upd d 1%nat (rshape x)) (fun ix => f (fun i => rat x (upd d i ix))) else mkR (del d (rshape x)) (fun ix => f (fun i => rat x (ins d i ix))).
Definition reduce_all (f : (index -> R) -> R) (x : rtensor) : rtensor := mkR [] (fun _ => f (rat x)).
(** g.unsqueeze(d) or the kept dimension, broadcast along dimension d to [s] *)
Definition unreduce (d : nat) (keepdim : bool) (s : list nat) (g : rtensor) : rtensor := mkR s (fun ix => rat g (if keepdim then upd d O ix else del d ix)).

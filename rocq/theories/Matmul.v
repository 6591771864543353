(** Matrix products and their gradient functions, crypten/gradients.py:729-773, 953-981. *)
Require Import List ZArith Bool Arith.
From Verif Require Import Ring64 Tensor Gradfn.
Import ListNotations.
Open Scope Z_scope.

(** torch.matmul (trusted) of tensors with at least two dimensions: the leading dimensions are broadcast *)
Definition mm (x y : tensor) : option tensor :=
  match rev (shape x), rev (shape y) with
  | k :: n :: bx, m :: k' :: by_ =>
      if Nat.eqb k k' then
        do t <- bshape (rev bx) (rev by_);
        Some (mkT (t ++ [n; m]) (fun ix => let b := firstn (length t) ix in let i := pos (length t) ix in let j := pos (S (length t)) ix in
          sumn k (fun l => at_ x (bindex (rev bx) b ++ [i; l]) * at_ y (bindex (rev by_) b ++ [l; j]))))
      else None
  | _, _ => None
  end.
Definition drop_dim (d : nat) (x : tensor) : tensor := mkT (del d (shape x)) (fun ix => at_ x (ins d 0 ix)).
(** a vector on the left is a row, on the right a column, and that dimension is removed from the result *)
Definition matmul (x y : tensor) : option tensor :=
  if Nat.eqb (rank x) 0 || Nat.eqb (rank y) 0 then None else
  do x' <- (if Nat.eqb (rank x) 1 then unsqueeze 0 x else Some x);
  do y' <- (if Nat.eqb (rank y) 1 then unsqueeze 1 y else Some y);
  do z <- mm x' y';
  let z := if Nat.eqb (rank y) 1 then drop_dim (rank z - 1) z else z in
  Some (if Nat.eqb (rank x) 1 then drop_dim (if Nat.eqb (rank y) 1 then rank z - 1 else rank z - 2) z else z).

(** AutogradMatMul.backward, 736-773 *)
Definition squeeze_vector (g : tensor) : option tensor := let g := squeeze_all g in if Nat.ltb (rank g) 1 then unsqueeze 0 g else Some g.
Definition matmul_backward (x y g : tensor) : option (tensor * tensor) :=
  do (x', g) <- (if Nat.ltb (rank x) 2 then do x' <- unsqueeze 0 x; do g <- unsqueeze 0 g; Some (x', g) else Some (x, g));
  do (y', g) <- (if Nat.ltb (rank y) 2 then do y' <- unsqueeze 1 y; do g <- unsqueeze 1 g; Some (y', g) else Some (y, g));
  do yt <- transpose (-2) (-1) y'; do gx <- matmul g yt;
  do xt <- transpose (-2) (-1) x'; do gy <- matmul xt g;
  do gx <- (if Nat.ltb (rank x) 2 then squeeze_vector gx else Some gx);
  do gy <- (if Nat.ltb (rank y) 2 then squeeze_vector gy else Some gy);
  do gx <- inverse_broadcast gx (shape x); do gy <- inverse_broadcast gy (shape y);
  Some (gx, gy).
(** AutogradDot, AutogradGer: 953-981 *)
Definition dot (x y : tensor) : option tensor := match shape x, shape y with [_], [_] => matmul x y | _, _ => None end.
Definition dot_backward (x y g : tensor) : option (tensor * tensor) := do gx <- mul g y; do gy <- mul g x; Some (gx, gy).
Definition ger (x y : tensor) : option tensor := match shape x, shape y with [n], [m] => Some (mkT [n; m] (fun ix => at_ x [pos 0 ix] * at_ y [pos 1 ix])) | _, _ => None end.
Definition ger_backward (x y g : tensor) : option (tensor * tensor) := do gx <- matmul g y; do gy <- matmul x g; Some (gx, gy).

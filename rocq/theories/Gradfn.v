(** Gradient functions, crypten/gradients.py. *)
Require Import List ZArith Bool Arith.
From Verif Require Import Ring64 Tensor.
Import ListNotations.
Open Scope Z_scope.

(** *** _inverse_broadcast, gradients.py:58-76 *)
(** lines 68-69: while grad_output.dim() > len(input_size): grad_output.sum(0, keepdim=False) *)
Fixpoint drop_leading (k : nat) (g : tensor) : tensor := match k with O => g | S k => drop_leading k (sum_dim 0 false g) end.
(** lines 73-75: for dim in range(grad_output.dim()) *)
Definition accumulate (input_size : list nat) (g : tensor) : tensor :=
  fold_left (fun g d => if Nat.eqb (pos d input_size) 1 && Nat.ltb 1 (pos d (shape g)) then sum_dim d true g else g) (seq 0 (rank g)) g.
Definition inverse_broadcast (g : tensor) (input_size : list nat) : option tensor :=
  match input_size with
  | [] => Some (sum_all g)
  | _ => let g := drop_leading (rank g - length input_size) g in
         if Nat.eqb (rank g) (length input_size) then Some (accumulate input_size g) else None
  end.

Definition bind {A B} (o : option A) (f : A -> option B) : option B := match o with Some a => f a | None => None end.
Notation "'do' x <- o ; f" := (bind o (fun x => f)) (at level 200, x pattern, o at level 100, f at level 200).

(** AutogradT, AutogradTranspose, AutogradPermute, AutogradFlip, AutogradClone: gradients.py:158-217 *)
Definition t_backward (g : tensor) : option tensor := t_ g.
Definition transpose_backward (dim1 dim2 : Z) (g : tensor) : option tensor := transpose dim2 dim1 g.
Fixpoint find_z (k : Z) (l : list Z) : option Z := match l with [] => None | x :: l => if x =? k then Some 0 else option_map (Z.add 1) (find_z k l) end.
Fixpoint all_some {A} (l : list (option A)) : option (list A) := match l with [] => Some [] | Some a :: l => option_map (cons a) (all_some l) | None :: _ => None end.
(** dims.index(x) raises when a dimension is not listed as such *)
Definition permute_backward (dims : list Z) (g : tensor) : option tensor :=
  do inds <- all_some (map (fun x => find_z (Z.of_nat x) dims) (seq 0 (length dims))); permute inds g.
Definition flip_backward (dims : list Z) (g : tensor) : option tensor := flip dims g.
Definition clone_backward (g : tensor) : option tensor := Some g.
(** AutogradCat, AutogradStack: 220-244 *)
Definition cat_backward (d : Z) (inputs : list tensor) (g : tensor) : option (list tensor) :=
  do sections <- all_some (map (fun x => option_map (fun k => pos k (shape x)) (dimn d (rank x))) inputs); split sections d g.
Definition stack_backward (d : Z) (g : tensor) : option (list tensor) := unbind d g.
(** AutogradView, AutogradReshape, AutogradFlatten: 247-283 *)
Definition reshape_backward (input_size : list nat) (g : tensor) : option tensor := reshape input_size g.
(** AutogradNarrow: 286-305; Python list assignment raises outside of the list *)
Definition set_z (i : Z) (v : Z) (l : list Z) : option (list Z) :=
  let n := Z.of_nat (length l) in
  let i := if i <? 0 then i + n else i in
  if (0 <=? i) && (i <? n) then Some (firstn (Z.to_nat i) l ++ v :: skipn (S (Z.to_nat i)) l) else None.
Definition narrow_backward (size dim start len : Z) (g : tensor) : option tensor :=
  let dim' := Z.of_nat (rank g) - 1 - dim in
  do p <- set_z (2 * dim') start (repeat 0 (2 * rank g));
  do p <- set_z (2 * dim' + 1) (size - len - start) p;
  pad p 0 g.
(** AutogradTake without dim: 308-331 (grad_flat[flat_index] = grad_output_flat) *)
Definition take_backward (size ishape : list nat) (idx : index -> nat) (g : tensor) : option tensor := assign_flat size ishape idx g.
(** AutogradIndexSelect, AutogradGather: 334-358 *)
Definition index_select_backward (size : list nat) (d : Z) (idx : list nat) (g : tensor) : option tensor := index_add_zeros size d idx g.
Definition gather_backward (size : list nat) (d : Z) (ishape : list nat) (idx : index -> nat) (g : tensor) : option tensor := scatter_add_zeros size d ishape idx g.
(** AutogradRoll: 379-404; lists of shifts and dims, or one shift without dims *)
Definition roll_backward (shifts dims : list Z) (g : tensor) : option tensor := roll_dims (rev (map Z.opp shifts)) (rev dims) g.
Definition roll_flat_backward (shift : Z) (g : tensor) : option tensor := Some (roll_flat (- shift) g).
(** AutogradSqueeze: 407-439, AutogradUnsqueeze: 442-452 *)
Definition squeeze_dims (d : Z) (size : list nat) : list Z := match dimn d (length size) with Some k => if Nat.eqb (pos k size) 1 then [d] else [] | None => [] end.
Definition squeeze_all_dims (size : list nat) : list Z := map Z.of_nat (filter (fun k => Nat.eqb (pos k size) 1) (seq 0 (length size))).
Definition squeeze_backward (dims : list Z) (g : tensor) : option tensor := fold_left (fun g d => do g <- g; unsqueeze d g) dims (Some g).
Definition unsqueeze_backward (d : Z) (g : tensor) : option tensor := squeeze d g.
(** AutogradNeg: 470-478 *)
Definition neg_backward (g : tensor) : option tensor := Some (neg g).
(** AutogradAdd, Sub, RSub, Mul: 656-726 *)
Definition add_backward (input_size1 input_size2 : list nat) (g : tensor) : option tensor * option tensor := (inverse_broadcast g input_size1, inverse_broadcast g input_size2).
Definition sub_backward (input_size1 input_size2 : list nat) (g : tensor) : option tensor * option tensor := (inverse_broadcast g input_size1, option_map neg (inverse_broadcast g input_size2)).
Definition rsub_backward (input_size1 input_size2 : list nat) (g : tensor) : option tensor * option tensor := (option_map neg (inverse_broadcast g input_size1), inverse_broadcast g input_size2).
Definition mul_backward (self other g : tensor) : option tensor * option tensor :=
  ((do m <- mul g other; inverse_broadcast m (shape self)), (do m <- mul g self; inverse_broadcast m (shape other))).
(** AutogradSum: 1130-1158 *)
Definition sum_forward (dim : option Z) (keepdim : bool) (x : tensor) : option tensor :=
  match dim with None => Some (sum_all x) | Some d => do d <- dimn d (rank x); Some (sum_dim d keepdim x) end.
Definition sum_backward (input_size : list nat) (dim : option Z) (keepdim : bool) (g : tensor) : option tensor :=
  match input_size with
  | [] => Some g
  | _ => do g <- match dim with Some d => if keepdim then Some g else unsqueeze d g | None => Some g end; mul g (ones input_size)
  end.
(** AutogradCumsum: 1161-1171, AutogradTrace: 1174-1184 *)
Definition cumsum_backward (d : Z) (g : tensor) : option tensor := do g <- flip [d] g; do g <- cumsum d g; flip [d] g.
Definition trace_backward (size0 : nat) (g : tensor) : option tensor := mul (eye size0) g.
(** AutogradPad: 1425-1441 *)
Fixpoint pad_backward_from (k : nat) (padding : list Z) (g : tensor) : option tensor :=
  match padding with
  | b :: a :: padding =>
      let d := Z.of_nat (rank g) - Z.of_nat k - 1 in
      do n <- dimn d (rank g);
      do g <- narrow d b (Z.of_nat (pos n (shape g)) - a - b) g;
      pad_backward_from (S k) padding g
  | _ => Some g
  end.
Definition pad_backward (padding : list Z) (g : tensor) : option tensor := pad_backward_from 0 padding g.

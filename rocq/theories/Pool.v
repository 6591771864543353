(** Max pooling: rearranging an input so that each window is a row, and the gradient, crypten/common/functions/pooling.py. *)
Require Import ZArith List Bool.
From Verif Require Import Ring64.
Import ListNotations.
Open Scope Z_scope.

(** Python's [range(n)] *)
Definition zrange (n : Z) : list Z := map Z.of_nat (seq 0 (Z.to_nat n)).
Definition pair := (Z * Z)%type.

(** _pooling_output_shape, pooling.py:321-339 *)
Definition pooling_output_shape (input_size kernel_size pad_l pad_r stride dilation : Z) (ceil_mode : bool) : Z :=
  let numerator := input_size + pad_l + pad_r - dilation * (kernel_size - 1) - 1 in
  let numerator := if ceil_mode then numerator + (stride - 1) else numerator in
  let output_size := numerator / stride + 1 in
  if ceil_mode && (input_size + pad_l <=? (output_size - 1) * stride) then output_size - 1 else output_size.

(** torch.nn.functional.pad with [(l, r, t, b)] of a tensor of [n] planes of [H] rows of [W] elements, given as the list of its elements;
    a negative number removes elements. *)
Definition pad2d (n H W l r t b v : Z) (data : list Z) : list Z :=
  flat_map (fun k => flat_map (fun y => map (fun x =>
    if (t <=? y) && (y <? t + H) && (l <=? x) && (x <? l + W) then nth (Z.to_nat (k * (H * W) + (y - t) * W + (x - l))) data 0 else v)
    (zrange (W + l + r))) (zrange (H + t + b))) (zrange n).

(** torch's [take] with non-negative indices; [None]: index out of range *)
Definition take1 (data : list Z) (i : Z) : option Z := nth_error data (Z.to_nat i).
Fixpoint all_some {A} (l : list (option A)) : option (list A) :=
  match l with [] => Some [] | o :: r => match o, all_some r with Some a, Some m => Some (a :: m) | _, _ => None end end.
Definition take (data : list Z) (idx : list (list Z)) : option (list (list Z)) := all_some (map (fun row => all_some (map (take1 data) row)) idx).

(** the first part of the index computation, pooling.py:403-410, for rows of [W] elements; one list per window *)
Definition plane_indices (W h w : Z) (k s d : pair) : list (list Z) :=
  let row := map (fun c => c * snd d) (zrange (snd k)) in
  let ker := flat_map (fun a => map (fun c => c + a * fst d * W) row) (zrange (fst k)) in
  let line := map (fun j => map (fun x => x + j * snd s) ker) (zrange w) in
  flat_map (fun i => map (map (fun x => x + i * fst s * W)) line) (zrange h).
(** pooling.py:412-416: [sizes] are the sizes of dimensions -2, -3, ... *)
Fixpoint stack_leading (offset : Z) (sizes : list Z) (idx : list (list Z)) : list (list Z) :=
  match sizes with
  | m :: ((e :: _) as r) => stack_leading (offset * m) r (flat_map (fun i => map (map (fun x => x + i * (offset * m))) idx) (zrange e))
  | _ => idx
  end.

(** _pool2d_reshape, pooling.py:342-419, with int arguments already made pairs.  [lead]: the sizes of dimensions -3, -4, ...
    The result is the list of rows (one per window) and the last two sizes of the output. *)
Definition pool2d_reshape (lead : list Z) (H W : Z) (k padding s d : pair) (ceil_mode : bool) (pad_value : Z) (data : list Z) : option (list (list Z) * pair) :=
  let '(p0, p1, p2, p3) := (fst padding, fst padding, snd padding, snd padding) in
  let h := pooling_output_shape H (fst k) p0 p1 (fst s) (fst d) ceil_mode in
  let w := pooling_output_shape W (snd k) p2 p3 (snd s) (snd d) ceil_mode in
  let n := fold_right Z.mul 1 lead in
  let input := pad2d n H W p0 p1 p2 p3 pad_value data in
  let H1 := H + p2 + p3 in let W1 := W + p0 + p1 in
  let u3 := if ceil_mode then h * fst s + (fst k - 1) * fst d - H1 else 0 in
  let u1 := if ceil_mode then w * snd s + (snd k - 1) * snd d - W1 else 0 in
  let input := if ceil_mode then pad2d n H1 W1 0 u1 0 u3 pad_value input else input in
  let H2 := H1 + u3 in let W2 := W1 + u1 in
  match take input (stack_leading W2 (H2 :: lead) (plane_indices W2 h w k s d)) with
  | Some rows => Some (rows, (h, w))
  | None => None
  end.

(** *** _max_pool2d_backward, pooling.py:56-145, on one plane.  [kernels] holds for each window the gradient times the one-hot argmax,
    one entry per kernel position; the operations are local, on every party's share. *)
Fixpoint add_at (i : nat) (v : Z) (l : list Z) : list Z :=
  match l, i with [], _ => [] | x :: r, O => wadd x v :: r | x :: r, S j => x :: add_at j v r end.
Definition add_all (l : list Z) (us : list (Z * Z)) : list Z := fold_left (fun l u => add_at (Z.to_nat (fst u)) (snd u) l) us l.
(** Python's [start : start + k * d : d] in a dimension of [size] elements *)
Definition slice (start k d size : Z) : list Z := filter (fun y => y <? size) (map (fun a => start + a * d) (zrange k)).
(** [result[ys, xs] += block]: the shapes must agree, up to a block dimension of one, which broadcasts *)
Definition add_block (W : Z) (k : pair) (ys xs : list Z) (block : list Z) (result : list Z) : option (list Z) :=
  let ok l m := (Z.of_nat (length l) =? m) || ((m =? 1) && (Nat.eqb (length l) 0)) in
  if ok ys (fst k) && ok xs (snd k) then
    Some (add_all result (flat_map (fun a => map (fun c => (nth (Z.to_nat a) ys 0 * W + nth (Z.to_nat c) xs 0, nth (Z.to_nat (a * snd k + c)) block 0)) (zrange (Z.of_nat (length xs)))) (zrange (Z.of_nat (length ys)))))
  else None.
Definition crop (W : Z) (y0 y1 x0 x1 : Z) (data : list Z) : list Z :=
  flat_map (fun y => map (fun x => nth (Z.to_nat (y * W + x)) data 0) (map (fun x => x0 + x) (zrange (x1 - x0)))) (map (fun y => y0 + y) (zrange (y1 - y0))).
(** [h], [w]: the size of the gradient plane; [out]: the size of the input plane of the forward pass.
    [None]: an exception.  pooling.py:119-124 takes the extra rows from the width and the extra columns from the height. *)
Definition max_pool2d_backward (h w : Z) (out : pair) (k padding s d : pair) (ceil_mode : bool) (kernels : list (list Z)) : option (list Z) :=
  let c0 := if ceil_mode then w * snd s + (snd k - 1) * snd d - snd out else 0 in
  let c1 := if ceil_mode then h * fst s + (fst k - 1) * fst d - fst out else 0 in
  let R := fst out + 2 * fst padding + c0 in let C := snd out + 2 * snd padding + c1 in
  let result := fold_left (fun acc i => fold_left (fun acc j =>
      match acc with
      | Some l => add_block C k (slice (fst s * i) (fst k) (fst d) R) (slice (snd s * j) (snd k) (snd d) C) (nth (Z.to_nat (i * w + j)) kernels []) l
      | None => None
      end) (zrange w) acc) (zrange h) (Some (repeat 0 (Z.to_nat (R * C)))) in
  option_map (crop C (fst padding) (R - c0 - fst padding) (snd padding) (C - c1 - snd padding)) result.

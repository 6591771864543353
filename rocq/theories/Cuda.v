(** Integer products on a GPU through float64 blocks, crypten/cuda/cuda_tensor.py. *)
Require Import ZArith List Permutation.
From Verif Require Import Ring64 Arith Beaver.
Import ListNotations.
Open Scope Z_scope.

(** *** The tables, cuda_tensor.py:37-50 *)
(** __BLOCK_SIZE: [math.ceil(64 / nblocks)] *)
Definition block_size (nb : nat) : Z := (64 + Z.of_nat nb - 1) / Z.of_nat nb.
(** the pairs [(idx, shift)] of __INDICES and __SHIFTS *)
Definition index_shifts (nb : nat) : list (nat * Z) :=
  flat_map (fun i => flat_map (fun j => let s := Z.of_nat (i + j) * block_size nb in if 64 <=? s then [] else [((i * nb + j)%nat, s)]) (seq 0 nb)) (seq 0 nb).

(** __encode_as_fp64, cuda_tensor.py:156-167: block [i] of every element.  The blocks are below 2^22, so [.double()] is exact. *)
Definition block (nb i : nat) (x : Z) : Z := Z.land (wshr x (block_size nb * Z.of_nat i)) (2 ^ block_size nb - 1).
Definition blocks (nb i : nat) (xs : list Z) : list Z := map (block nb i) xs.

(** A sum computed by a float64 kernel: some order, some grouping. *)
Inductive tree := Nil | Leaf (p : Z) | Node (a b : tree).
Fixpoint leaves (t : tree) : list Z := match t with Nil => [] | Leaf p => [p] | Node a b => leaves a ++ leaves b end.

Section Cuda.
  (** rounding of an integer to a float64 value *)
  Variable rnd : Z -> Z.
  Fixpoint eval (t : tree) : Z := match t with Nil => 0 | Leaf p => rnd p | Node a b => rnd (eval a + eval b) end.
  (** the order in which the kernel sums the products of block pair [idx] for one output element *)
  Variable order : nat -> list Z -> tree.
  Definition fl_sum (idx : nat) (l : list Z) : Z := eval (order idx l).

  (** one output element of the float64 product of two blocks; [row] lists the operand positions it multiplies *)
  Definition fl_row (idx : nat) (row : list (nat * nat)) (x y : list Z) : Z :=
    fl_sum idx (map (fun p => nth (fst p) x 0 * nth (snd p) y 0) row).
  (** cuda_tensor.py:208-213 and 260-262: [repeat] makes span entry [idx] of x block [idx mod nb], [repeat_interleave] that of y block [idx / nb] *)
  Definition z_encoded (nb idx : nat) (row : list (nat * nat)) (x y : list Z) : Z :=
    fl_row idx row (blocks nb (idx mod nb) x) (blocks nb (idx / nb) y).
  (** __decode_as_int64, cuda_tensor.py:169-187 *)
  Definition decode (nb : nat) (z : nat -> Z) : Z := wrap (zsum (map (fun p => wshl (z (fst p)) (snd p)) (index_shifts nb))).
  Definition gpu_bil (nb : nat) (T : list (list (nat * nat))) (x y : list Z) : list Z :=
    map (fun row => decode nb (fun idx => z_encoded nb idx row x y)) T.

  (** matmul of [n*k] by [k*m], cuda_tensor.py:243-278 *)
  Definition gpu_matmul (n k m : nat) (x y : list Z) : list Z := gpu_bil (if Nat.ltb k 256 then 3 else 4) (matmul_table n k m) x y.
  (** __patched_conv_ops, cuda_tensor.py:189-223; [T] is the table of the convolution, [ks] the spatial kernel sizes.
      Only [groups = 1] gets here (190-195). *)
  Definition kernel_elements (ks : list nat) : nat := fold_right Nat.mul 1%nat ks.
  Definition gpu_conv (ks : list nat) (T : list (list (nat * nat))) (x y : list Z) : list Z :=
    gpu_bil (if Nat.ltb (kernel_elements ks) 256 then 3 else 4) T x y.

  (** avg_pool2d, cuda_tensor.py:311-342: [W] lists, for each output element, the positions in its window; [divisor] is
      divisor_override or the number of kernel elements. *)
  Definition gpu_avg_pool (W : list (list nat)) (divisor : Z) (x : list Z) : list Z :=
    map (fun win => tdiv (wrap (zsum (map (fun i => wshl (fl_sum i (map (fun p => nth p (blocks 3 i x) 0) win)) (block_size 3 * Z.of_nat i)) (seq 0 3)))) divisor) W.
End Cuda.

(** Convolutions and their gradient functions: crypten/gradients.py:1444-1748, common/util.py:77-113.
    One model for 1-D and 2-D: the spatial dimensions are a list. *)
Require Import List ZArith Bool Arith.
From Verif Require Import Ring64 Tensor Gradfn.
Import ListNotations.
Open Scope Z_scope.

(** output position p, kernel position k and input position q are connected when p * stride + k * dilation = q + padding in every dimension *)
Fixpoint meets (stride padding dilation p k q : list nat) : bool :=
  match stride, padding, dilation, p, k, q with
  | s :: stride, a :: padding, d :: dilation, i :: p, j :: k, l :: q => Nat.eqb (i * s + j * d) (l + a) && meets stride padding dilation p k q
  | [], [], [], [], [], [] => true
  | _, _, _, _, _, _ => false
  end.
(** torch's output size; kernels larger than the padded input are refused *)
Fixpoint conv_size (stride padding dilation size kernel : list nat) : option (list nat) :=
  match stride, padding, dilation, size, kernel with
  | s :: stride, a :: padding, d :: dilation, n :: size, k :: kernel =>
      if Nat.leb 1 s && Nat.leb 1 d && Nat.leb 1 k && Nat.leb (d * (k - 1) + 1) (n + 2 * a)
      then option_map (cons ((n + 2 * a - d * (k - 1) - 1) / s + 1)%nat) (conv_size stride padding dilation size kernel) else None
  | [], [], [], [], [] => Some []
  | _, _, _, _, _ => None
  end.
(** torch.nn.functional.conv1d / conv2d (trusted): cross-correlation of the zero-padded input, in groups *)
Definition conv (stride padding dilation : list nat) (groups : nat) (x w : tensor) : option tensor :=
  match shape x, shape w with
  | B :: C :: L, N :: Cg :: K =>
      if Nat.leb 1 groups && Nat.eqb C (Cg * groups) && Nat.eqb (N mod groups) 0 then
        do P <- conv_size stride padding dilation L K;
        Some (mkT (B :: N :: P) (fun ix => let b := pos 0 ix in let o := pos 1 ix in let p := skipn 2 ix in
          sumn Cg (fun c => sums K (fun k => sums L (fun q => if meets stride padding dilation p k q
            then at_ w (o :: c :: k) * at_ x (b :: (o / (N / groups) * Cg + c)%nat :: q) else 0)))))
      else None
  | _, _ => None
  end.
(** torch's output size of the transposed convolution; the output padding must be smaller than the stride or the dilation *)
Fixpoint conv_transpose_size (stride padding dilation out_padding size kernel : list nat) : option (list nat) :=
  match stride, padding, dilation, out_padding, size, kernel with
  | s :: stride, a :: padding, d :: dilation, o :: out_padding, n :: size, k :: kernel =>
      let r := (Z.of_nat n - 1) * Z.of_nat s - 2 * Z.of_nat a + Z.of_nat d * (Z.of_nat k - 1) + Z.of_nat o + 1 in
      if (Nat.ltb o s || Nat.ltb o d) && (0 <=? r) then option_map (cons (Z.to_nat r)) (conv_transpose_size stride padding dilation out_padding size kernel) else None
  | [], [], [], [], [], [] => Some []
  | _, _, _, _, _, _ => None
  end.
Definition conv_transpose (stride padding dilation out_padding : list nat) (groups : nat) (x w : tensor) : option tensor :=
  match shape x, shape w with
  | B :: N :: P, N' :: Cg :: K =>
      if Nat.leb 1 groups && Nat.eqb N N' && Nat.eqb (N mod groups) 0 then
        do L <- conv_transpose_size stride padding dilation out_padding P K;
        Some (mkT (B :: (Cg * groups)%nat :: L) (fun ix => let b := pos 0 ix in let c := pos 1 ix in let q := skipn 2 ix in
          sumn N (fun o => if Nat.eqb (o / (N / groups)) (c / Cg) then
            sums P (fun p => sums K (fun k => if meets stride padding dilation p k q then at_ x (b :: o :: p) * at_ w (o :: (c mod Cg)%nat :: k) else 0)) else 0)))
      else None
  | _, _ => None
  end.
(** _grad_input_padding, util.py:77-113 *)
Fixpoint grad_input_padding (stride padding dilation size out kernel : list nat) : option (list nat) :=
  match stride, padding, dilation, size, out, kernel with
  | s :: stride, a :: padding, d :: dilation, n :: size, p :: out, k :: kernel =>
      let least := (Z.of_nat p - 1) * Z.of_nat s - 2 * Z.of_nat a + 1 + Z.of_nat d * (Z.of_nat k - 1) in
      let most := least + Z.of_nat s - 1 in
      if (Z.of_nat n <? least) || (most <? Z.of_nat n) then None
      else option_map (cons (Z.to_nat (Z.of_nat n - least))) (grad_input_padding stride padding dilation size out kernel)
  | [], [], [], [], [], [] => Some []
  | _, _, _, _, _, _ => None
  end.
(** tensor.repeat(1, n, 1, ...) *)
Definition repeat1 (n : nat) (x : tensor) : option tensor :=
  match shape x with a :: b :: s => Some (mkT (a :: (n * b)%nat :: s) (fun ix => at_ x (pos 0 ix :: (pos 1 ix mod b)%nat :: skipn 2 ix))) | _ => None end.
(** narrow(2, 0, size), narrow(3, 0, size), ... *)
Fixpoint narrows (d : nat) (kernel : list nat) (x : tensor) : option tensor :=
  match kernel with [] => Some x | k :: kernel => do x <- narrow (Z.of_nat d) 0 (Z.of_nat k) x; narrows (S d) kernel x end.
(** AutogradConv1D.backward 1593-1652, AutogradConv2D.backward 1672-1747 *)
Definition conv_backward (stride padding dilation : list nat) (groups : nat) (x w g : tensor) : option (tensor * tensor) :=
  match shape x, shape w, shape g with
  | B :: C :: L, N :: Cg :: K, gB :: gN :: P =>
      let in_channels := (Cg * groups)%nat in
      if negb (Nat.eqb C in_channels && Nat.eqb gN N && Nat.eqb gB B) then None else
      if Nat.ltb 1 groups && Nat.ltb groups C then None else
      do out_padding <- grad_input_padding stride padding dilation L P K;
      do gx <- conv_transpose stride padding dilation out_padding groups g w;
      do gr <- repeat1 (in_channels / groups) g;
      do gr <- reshape ((B * (in_channels / groups * N))%nat :: 1%nat :: P) gr;
      do x1 <- reshape (1%nat :: (B * C)%nat :: L) x;
      do gw <- conv dilation padding stride (in_channels * B) x1 gr;
      let K' := skipn 2 (shape gw) in
      do gw <- reshape (B :: (pos 1 (shape gw) / B)%nat :: K') gw;
      let gw := sum_dim 0 false gw in
      do gw <- reshape ((in_channels / groups)%nat :: N :: K') gw;
      do gw <- transpose 0 1 gw;
      do gw <- narrows 2 K gw;
      Some (gx, gw)
  | _, _, _ => None
  end.
(** avg_pool2d and its gradient, 1444-1508: [c] stands for 1 / (kernel_size[0] * kernel_size[1]); padded zeros are counted *)
Definition avg_pool (c : Z) (kernel stride padding : list nat) (x : tensor) : option tensor :=
  match shape x with
  | B :: C :: L => do P <- conv_size stride padding (repeat 1%nat (length stride)) L kernel;
      Some (mkT (B :: C :: P) (fun ix => sums kernel (fun k => sums L (fun q => if meets stride padding (repeat 1%nat (length stride)) (skipn 2 ix) k q then c * at_ x (pos 0 ix :: pos 1 ix :: q) else 0))))
  | _ => None
  end.
Definition avg_pool_backward (c : Z) (kernel stride padding : list nat) (input_size : list nat) (g : tensor) : option tensor :=
  match input_size, shape g with
  | B :: C :: L, _ :: _ :: P =>
      do out_padding <- grad_input_padding stride padding (repeat 1%nat (length stride)) L P kernel;
      conv_transpose stride padding (repeat 1%nat (length stride)) out_padding C g (mkT (C :: 1%nat :: kernel) (fun _ => c))
  | _, _ => None
  end.

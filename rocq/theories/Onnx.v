(** Modules for ONNX operators: crypten/nn/module.py:1322-2580, and the converter crypten/nn/onnx_converter.py:164-260.
    Elements are integers; [None] means that the module raises. *)
Require Import List ZArith Bool Arith.
From Verif Require Import Ring64 Tensor Gradfn Conv Graphmod.
Import ListNotations.
Open Scope Z_scope.

(** *** Slice, module.py:1322-1373 *)
(** the loop over the axes, 1360-1365; starts[idx] and ends[idx] raise when the lists are too short *)
Fixpoint slice_axes (idx : nat) (starts ends axes : list Z) (output : tensor) : option tensor :=
  match axes with
  | [] => Some output
  | axis :: axes =>
      do start <- nth_error starts idx;
      do end_ <- nth_error ends idx;
      do d <- dimn axis (rank output);
      let length := Z.min end_ (Z.of_nat (pos d (shape output))) - start in
      do output <- narrow axis start length output;
      slice_axes (S idx) starts ends axes output
  end.
(** starts, ends and axes from the constructor (attributes of the node), 1353-1358 *)
Definition slice (starts ends : list Z) (axes : option (list Z)) (x : tensor) : option tensor :=
  slice_axes 0 starts ends (match axes with Some axes => axes | None => map Z.of_nat (seq 0 (length starts)) end) x.
(** int64 tensor .int(): reduction modulo 2^32 *)
Definition int32 (v : Z) : Z := (v + 2147483648) mod 4294967296 - 2147483648.
(** starts, ends, axes and steps as tensors in the list of inputs, 1338-1352 *)
Definition slice_inputs (starts ends : list Z) (axes steps : option (list Z)) (x : tensor) : option tensor :=
  if match steps with Some steps => forallb (fun s => int32 s =? 1) steps | None => true end
  then slice (map int32 starts) (map int32 ends) axes x else None.

(** *** Expand, module.py:1376-1397 *)
(** 1388-1390; input.size(idx) raises for idx >= input.dim() *)
Fixpoint expand_sizes (idx : nat) (shape : list Z) (size : list nat) : option (list Z) :=
  match shape with
  | [] => Some []
  | s :: shape =>
      do s <- (if s =? 1 then do n <- nth_error size idx; Some (if Nat.ltb 1 n then Z.of_nat n else s) else Some s);
      do shape <- expand_sizes (S idx) shape size; Some (s :: shape)
  end.
(** torch's expand (trusted): sizes aligned at the right, -1 keeps the size of an existing dimension *)
Fixpoint expanded (sizes : list Z) (s : list nat) : option (list nat) :=
  match sizes, s with
  | [], [] => Some []
  | a :: sizes, n :: s =>
      do r <- expanded sizes s;
      if a =? -1 then Some (n :: r) else if (a =? Z.of_nat n) || (Nat.eqb n 1 && (0 <=? a)) then Some (Z.to_nat a :: r) else None
  | _, _ => None
  end.
Definition torch_expand (sizes : list Z) (x : tensor) : option tensor :=
  let lead := (length sizes - rank x)%nat in
  if Nat.ltb (length sizes) (rank x) then None else
  if forallb (fun a => 0 <=? a) (firstn lead sizes) then
    do r <- expanded (skipn lead sizes) (shape x); Some (expand x (map Z.to_nat (firstn lead sizes) ++ r))
  else None.
Definition expand_module (size : list Z) (x : tensor) : option tensor := do sizes <- expand_sizes 0 size (shape x); torch_expand sizes x.

(** *** torch's view and reshape (trusted): one size may be -1, unless the others multiply to zero *)
Definition infer_size (sizes : list Z) (numel : nat) : option (list nat) :=
  let known := product (map Z.to_nat (filter (fun a => negb (a =? -1)) sizes)) in
  if forallb (fun a => -1 <=? a) sizes then
    match length (filter (fun a => a =? -1) sizes) with
    | O => if Nat.eqb known numel then Some (map Z.to_nat sizes) else None
    | S O => if Nat.ltb 0 known && Nat.eqb (numel mod known) 0 then Some (map (fun a => if a =? -1 then (numel / known)%nat else Z.to_nat a) sizes) else None
    | _ => None
    end
  else None.
Definition view (sizes : list Z) (x : tensor) : option tensor := do size <- infer_size sizes (product (shape x)); reshape size x.
(** Flatten, module.py:1473-1504: from_onnx refuses negative axes *)
Definition flatten_module (axis : Z) (x : tensor) : option tensor :=
  if axis <? 0 then None else
  if axis =? 0 then view [1; -1] x
  else if axis <=? Z.of_nat (rank x) then view [Z.of_nat (product (firstn (Z.to_nat axis) (shape x))); -1] x else None.
(** Reshape, module.py:1557-1595 *)
Definition reshape_module (size : list Z) (x : tensor) : option tensor := view size x.

(** *** Gather, module.py:1708-1769 and take, regular.py:135-148 *)
(** an index of a dimension of n elements, from -n to n - 1 *)
Definition wrapped (i : Z) (n : nat) : nat := Z.to_nat (if i <? 0 then i + Z.of_nat n else i).
Definition in_range (ishape : list nat) (idx : index -> Z) (n : nat) : bool := forallb (fun ix => (- Z.of_nat n <=? idx ix) && (idx ix <? Z.of_nat n)) (indices ishape).
(** [ishape], [idx]: the tensor of indices.  tensor[:, ..., index, ...]: the dimensions of the index replace the indexed one (trusted: PyTorch) *)
Definition take (ishape : list nat) (idx : index -> Z) (dimension : option Z) (x : tensor) : option tensor :=
  match dimension, shape x with
  | Some d, _ :: _ =>
      do d <- dimn d (rank x);
      let n := pos d (shape x) in let q := length ishape in
      if in_range ishape idx n
      then Some (mkT (firstn d (shape x) ++ ishape ++ skipn (S d) (shape x)) (fun ix => at_ x (firstn d ix ++ wrapped (idx (firstn q (skipn d ix))) n :: skipn (d + q) ix)))
      else None
  | _, _ => let n := product (shape x) in
      if in_range ishape idx n then Some (mkT ishape (fun ix => at_ x (unravel (shape x) (wrapped (idx ix) n)))) else None
  end.
(** from_onnx, 1761-1769: a missing axis becomes None *)
Definition gather_module (axis : option Z) (ishape : list nat) (idx : index -> Z) (x : tensor) : option tensor := take ishape idx axis x.

(** *** _ConstantPad with the pads as second input, module.py:1785-1799: int32 numbers passed to torch's pad as they are *)
Definition pad_module (pads : list Z) (x : tensor) : option tensor := pad (map int32 pads) 0 x.

(** *** Conv, module.py:1952-2026 *)
Fixpoint every_second {A} (l : list A) : list A := match l with [] => [] | [a] => [a] | a :: _ :: l => a :: every_second l end.
(** bias.unsqueeze(0), then bias.unsqueeze(-1) until the dimensions agree, 2000-2005 *)
Definition add_bias (bias : tensor) (x : tensor) : option tensor :=
  do b <- unsqueeze 0 bias;
  do b <- fold_left (fun b _ => do b <- b; unsqueeze (-1) b) (seq 0 (rank x - rank b)) (Some b);
  add x b.
Definition conv_module (strides pads dilations : list nat) (group : option nat) (x w : tensor) (bias : option tensor) : option tensor :=
  let dim := (rank w - 2)%nat in
  if Nat.eqb dim 1 || Nat.eqb dim 2 then
    do y <- conv strides (every_second pads) dilations (match group with Some g => g | None => 1%nat end) x w;
    match bias with Some b => add_bias b y | None => Some y end
  else None.

(** *** AvgPool2d as imported, module.py:2502-2580: square kernel, stride and padding; _all_the_same(["kernel_shape"]) is true *)
Definition all_the_same (l : list nat) : bool := match l with [] => true | a :: _ => forallb (Nat.eqb a) l end.
Record pool_attributes := mkPool { kernel_shape : list nat; strides : list nat; pads : option (list nat); dilations : option (list nat) }.
(** (kernel_size, stride, padding) of the module; attributes[...][0] raises for empty lists *)
Definition pool_from_onnx (a : pool_attributes) : option (nat * nat * nat) :=
  if all_the_same [1%nat] && all_the_same (strides a) then
    do k <- nth_error (kernel_shape a) 0; do s <- nth_error (strides a) 0; do p <- nth_error (match pads a with Some l => l | None => [0%nat] end) 0;
    Some (k, s, p)
  else None.
(** the module applied: ints stand for both dimensions *)
Definition avg_pool_module (c : Z) (a : pool_attributes) (x : tensor) : option tensor :=
  do (k, s, p) <- pool_from_onnx a; avg_pool c [k; k] [s; s] [p; p] x.

(** *** Clip imported as Hardtanh, module.py:2319-2378: encoded numbers, [S] stands for 1.0; hardtanh is the clamp (C30) *)
Definition clamped (v lo hi : Z) : Z := Z.min (Z.max v lo) hi.
Definition clip_module (S : Z) (min max : option Z) (v : Z) : Z := clamped v (match min with Some m => m | None => - S end) (match max with Some m => m | None => S end).

(** *** Equal, module.py:1442-1455: Python's False, or a tensor *)
Definition equal_module (x y : tensor) : bool + tensor :=
  if index_eqb (shape x) (shape y) then inr (mkT (shape x) (fun ix => if at_ x ix =? at_ y ix then 1 else 0)) else inl false.

(** *** Cast, module.py:1400-1417: the number of the ONNX type indexes torch.onnx.symbolic_helper.scalar_type_to_pytorch_type (trusted) *)
Inductive dtype := Uint8 | Int8 | Int16 | Int32 | Int64 | Float16 | Float32 | Float64 | Complex32 | Complex64 | Complex128 | Bool | Qint8 | Quint8 | Qint32 | Bfloat16.
Definition scalar_type_to_pytorch_type : list dtype := [Uint8; Int8; Int16; Int32; Int64; Float16; Float32; Float64; Complex32; Complex64; Complex128; Bool; Qint8; Quint8; Qint32; Bfloat16].
Definition cast_from_onnx (to : nat) : option dtype := nth_error scalar_type_to_pytorch_type to.
Close Scope Z_scope.

(** *** The converter, onnx_converter.py:164-197: names are numbers, [op] is the type of a node together with its attributes *)
Section Converter.
  Context {V Op : Type}.
  Record onnx_node := mkOnnx { op : Op; node_input : list nat; node_output : list nat }.
  Record onnx_model := mkModel { graph_input : list nat; graph_output : list nat; initializer : list (nat * V); nodes : list onnx_node }.
  (** [is_dropout]: op_type == "Dropout"; [supported]: from_onnx returns a module; [call o vs]: that module applied *)
  Variables (is_dropout supported : Op -> bool) (call : Op -> list V -> V).
  (** Graph.add_module, module.py:637-653: a name is added once *)
  Definition add_module (name : nat) (n : node) (m : list V -> V) (g : list (nat * node * (list V -> V))) : option (list (nat * node * (list V -> V))) :=
    if existsb (fun e => Nat.eqb (fst (fst e)) name) g then None else Some (g ++ [(name, n, m)]).
  Definition output_names (n : onnx_node) : list nat := if is_dropout (op n) then firstn 1 (node_output n) else node_output n.
  Definition add_node (n : onnx_node) (g : list (nat * node * (list V -> V))) :=
    if supported (op n) then match output_names n with [] => None | o :: _ => add_module o (mkNode (node_input n) (Some (output_names n))) (call (op n)) g end else None.
  (** the graph of modules, or None: an assertion fails or an operator is not supported *)
  Definition to_crypten (m : onnx_model) : option (list (nat * node * (list V -> V))) :=
    match graph_input m, graph_output m with
    | _ :: _, [_] =>
        do g <- fold_left (fun g p => do g <- g; add_module (fst p) (mkNode [] None) (fun _ => snd p) g) (initializer m) (Some []);
        fold_left (fun g n => do g <- g; add_node n g) (nodes m) (Some g)
    | _, _ => None
    end.
  (** the imported model called on its arguments, Graph.forward *)
  Definition modules_run (default : V) (g : list (nat * node * (list V -> V))) (k : nat) (vs : list V) : V :=
    match find (fun e => Nat.eqb (fst (fst e)) k) g with Some e => snd e vs | None => default end.
  Definition imported (default : V) (tuple : V -> option (list V)) (g : list (nat * node * (list V -> V))) (m : onnx_model) (fuel : nat) (args : list V) : outcome :=
    forward (modules_run default g) tuple (map fst g) fuel (graph_input m) (graph_output m) args.
End Converter.

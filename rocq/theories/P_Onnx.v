(** C84, C85, C86: modules for ONNX operators and the import of ONNX models, crypten/nn/module.py and crypten/nn/onnx_converter.py. *)
Require Import List ZArith Bool Arith Lia.
From Verif Require Import Ring64 Tensor Gradfn Gradfn_claims Conv Pool Graphmod Onnx Graphmod_claims Onnx_claims Onnx_claims2 Onnx_claims3.
Import ListNotations.
Local Open Scope Z_scope.

(** C84: Slice with axes returns exactly for ranges inside the tensor, and then gives ONNX's slice unless a negative start meets end 0. *)
Theorem C84_slice : forall starts ends axes x, length starts = length axes -> length ends = length axes -> NoDup (map (fun a => dimn a (rank x)) axes) ->
  let es := entries_of axes starts ends in
  (slice starts ends (Some axes) x <> None <-> Forall (accepted (shape x)) es) /\
  forall y, slice starts ends (Some axes) x = Some y -> Forall (fun e => ~ empty_tail e) es -> teq y (onnx_slice es x).
Proof. exact k_C84_slice. Qed.
Print Assumptions C84_slice.
(** C84: Without axes the first dimensions are sliced, in order. *)
Theorem C84_slice_default : forall starts ends x, length ends = length starts -> (length starts <= rank x)%nat ->
  let es := entries_of (map Z.of_nat (seq 0 (length starts))) starts ends in
  (slice starts ends None x <> None <-> Forall (accepted (shape x)) es) /\
  forall y, slice starts ends None x = Some y -> Forall (fun e => ~ empty_tail e) es -> teq y (onnx_slice es x).
Proof. exact k_C84_slice_default. Qed.
Print Assumptions C84_slice_default.
(** C84: The bounds may be given as tensors when they fit in 32 bits; other steps than 1 are refused. *)
Theorem C84_slice_inputs : forall starts ends axes steps x, Forall (fun v => - 2147483648 <= v < 2147483648) (starts ++ ends) -> (forall l v, steps = Some l -> In v l -> - 2147483648 <= v < 2147483648) ->
  slice_inputs starts ends axes steps x = if match steps with Some l => forallb (Z.eqb 1) l | None => true end then slice starts ends axes x else None.
Proof. exact k_C84_slice_inputs. Qed.
Print Assumptions C84_slice_inputs.
(** C84: Refuted: x[-k:0] is empty, the module returns the last k entries. *)
Theorem C84_slice_empty_refuted : forall x s n k, shape x = n :: s -> (0 < k <= n)%nat -> exists y, slice [- Z.of_nat k] [0] None x = Some y /\ shape y = k :: s /\ shape (onnx_slice (entries_of [0] [- Z.of_nat k] [0]) x) = O :: s.
Proof. exact k_C84_slice_empty_refuted. Qed.
Print Assumptions C84_slice_empty_refuted.
(** C84: Refuted: x[-k:] with the end 2^63 - 1 that exporters write, given as a tensor, loses the last entry. *)
Theorem C84_slice_end_refuted : forall x s n k, shape x = n :: s -> (0 < k <= n)%nat -> Z.of_nat n < 2147483648 -> exists y, slice_inputs [- Z.of_nat k] [9223372036854775807] None None x = Some y /\ shape y = (k - 1)%nat :: s /\
  shape (onnx_slice (entries_of [0] [- Z.of_nat k] [9223372036854775807]) x) = k :: s.
Proof. exact k_C84_slice_end_refuted. Qed.
Print Assumptions C84_slice_end_refuted.
(** C84: Expand to as many dimensions as the input has: the result, if any, is ONNX's. *)
Theorem C84_expand : forall size x, length size = rank x -> Forall (fun a => 0 <= a) size ->
  (forall y, expand_module size x = Some y -> onnx_expand (map Z.to_nat size) x = Some y) /\ (~ In O (shape x) -> expand_module size x = onnx_expand (map Z.to_nat size) x).
Proof. exact k_C84_expand. Qed.
Print Assumptions C84_expand.
(** C84: -1 keeps the size of the input, as in torch; smaller numbers are refused. *)
Theorem C84_expand_keeps : forall size x, length size = rank x ->
  (Forall (fun a => -1 <= a) size -> (forall y, expand_module size x = Some y -> onnx_expand (kept_sizes size (shape x)) x = Some y) /\ (~ In O (shape x) -> expand_module size x = onnx_expand (kept_sizes size (shape x)) x)) /\
  (Exists (fun a => a < -1) size -> expand_module size x = None).
Proof. exact k_C84_expand_keeps. Qed.
Print Assumptions C84_expand_keeps.
(** C84: So it is to more dimensions when no size is 1; fewer dimensions are refused. *)
Theorem C84_expand_more : forall size x, Forall (fun a => 0 <= a) size -> ~ In 1 size ->
  ((rank x <= length size)%nat -> expand_module size x = onnx_expand (map Z.to_nat size) x) /\ ((length size < rank x)%nat -> expand_module size x = None).
Proof. exact k_C84_expand_more. Qed.
Print Assumptions C84_expand_more.
(** C84: Refuted: with a leading 1 the sizes are matched at the left: a vector of n entries expanded to (1, n) becomes (n, n). *)
Theorem C84_expand_refuted : forall x n, shape x = [n] -> (1 < n)%nat -> exists y z, expand_module [1; Z.of_nat n] x = Some y /\ shape y = [n; n] /\ onnx_expand [1%nat; n] x = Some z /\ shape z = [1%nat; n].
Proof. exact k_C84_expand_refuted. Qed.
Print Assumptions C84_expand_refuted.
(** C84: Flatten gives the matrix of ONNX's definition for every non-negative axis, unless a leading size is zero. *)
Theorem C84_flatten : forall axis x, (axis <= rank x)%nat -> product (firstn axis (shape x)) <> O ->
  exists y, flatten_module (Z.of_nat axis) x = Some y /\ shape y = [product (firstn axis (shape x)); product (skipn axis (shape x))] /\
    forall ix, valid (shape x) ix -> at_ y [ravel (firstn axis (shape x)) (firstn axis ix); ravel (skipn axis (shape x)) (skipn axis ix)] = at_ x ix.
Proof. exact k_C84_flatten. Qed.
Print Assumptions C84_flatten.
(** C84: Negative axes, axes past the dimensions, and a zero among the leading sizes are refused. *)
Theorem C84_flatten_none : forall axis x, axis < 0 \/ Z.of_nat (rank x) < axis \/ product (firstn (Z.to_nat axis) (shape x)) = O -> flatten_module axis x = None.
Proof. exact k_C84_flatten_none. Qed.
Print Assumptions C84_flatten_none.
(** C84: Reshape is ONNX's when no size is zero. *)
Theorem C84_reshape : forall size x y, ~ In 0 size -> (reshape_module size x = Some y <-> exists t, onnx_size (shape x) size t /\ reshape t x = Some y).
Proof. exact k_C84_reshape. Qed.
Print Assumptions C84_reshape.
(** C84: Refuted: a zero, ONNX's way to keep a size, makes every non-empty input fail. *)
Theorem C84_reshape_zero_refuted : forall size x, In 0 size -> product (shape x) <> O -> reshape_module size x = None.
Proof. exact k_C84_reshape_zero_refuted. Qed.
Print Assumptions C84_reshape_zero_refuted.
(** C84: Gather along a given axis is ONNX's, also for negative indices and axes. *)
Theorem C84_gather : forall axis d ishape idx x, dimn axis (rank x) = Some d ->
  (indices_fit ishape idx (pos d (shape x)) -> exists y, gather_module (Some axis) ishape idx x = Some y /\ onnx_gather d ishape idx x y) /\
  (~ indices_fit ishape idx (pos d (shape x)) -> gather_module (Some axis) ishape idx x = None).
Proof. exact k_C84_gather. Qed.
Print Assumptions C84_gather.
(** C84: Without the axis attribute (default 0) vectors are gathered as ONNX says; *)
Theorem C84_gather_default : forall ishape idx x n, shape x = [n] -> indices_fit ishape idx n -> exists y, gather_module None ishape idx x = Some y /\ onnx_gather 0 ishape idx x y.
Proof. exact k_C84_gather_default. Qed.
Print Assumptions C84_gather_default.
(** C84: Refuted: for more dimensions the flattened tensor is read, and the result has too few dimensions. *)
Theorem C84_gather_default_refuted : forall ishape idx x y, (2 <= rank x)%nat -> gather_module None ishape idx x = Some y -> shape y = ishape /\ ~ onnx_gather 0 ishape idx x y.
Proof. exact k_C84_gather_default_refuted. Qed.
Print Assumptions C84_gather_default_refuted.
(** C85: Pad is ONNX's when the list of pads means the same in both orders, *)
Theorem C85_pad : forall pads x, length pads = (2 * rank x)%nat -> Forall (fun v => - 2147483648 <= v < 2147483648) pads -> order_free (rank x) pads ->
  (forall k, (k < rank x)%nat -> 0 <= Z.of_nat (pos k (shape x)) + nth k pads 0 + nth (k + rank x) pads 0) -> exists y, pad_module pads x = Some y /\ teq y (onnx_pad pads x).
Proof. exact k_C85_pad. Qed.
Print Assumptions C85_pad.
(** C85: for example when all entries are equal; for one dimension always. *)
Theorem C85_pad_uniform : (forall r p, order_free r (repeat p (2 * r))) /\ (forall b a, order_free 1 [b; a]).
Proof. exact k_C85_pad_uniform. Qed.
Print Assumptions C85_pad_uniform.
(** C85: Refuted: the pads of ConstantPad2d(p) on a batch of images pad the batch and the height, not the height and the width. *)
Theorem C85_pad_refuted : forall B C H W p x, shape x = [B; C; H; W] -> 0 < p < 2147483648 -> let pads := [0; 0; p; p; 0; 0; p; p] in
  exists y, pad_module pads x = Some y /\ shape y = [B + 2 * Z.to_nat p; C; H + 2 * Z.to_nat p; W]%nat /\ shape (onnx_pad pads x) = [B; C; H + 2 * Z.to_nat p; W + 2 * Z.to_nat p]%nat.
Proof. exact k_C85_pad_refuted. Qed.
Print Assumptions C85_pad_refuted.
(** C85: Conv (1-D and 2-D, with or without bias) is ONNX's when all pads are equal. *)
Theorem C85_conv : forall strides p dilations group x w bias, (rank w = 3 \/ rank w = 4)%nat -> (forall b, bias = Some b -> shape b = [pos 0 (shape w)]) ->
  let dim := (rank w - 2)%nat in let groups := match group with Some g => g | None => 1%nat end in
  match conv_module strides (repeat p (2 * dim)) dilations group x w bias, onnx_conv strides (repeat p dim) (repeat p dim) dilations groups x w bias with Some y, Some z => teq y z | None, None => True | _, _ => False end.
Proof. exact k_C85_conv. Qed.
Print Assumptions C85_conv.
(** C85: Refuted: the pads p, q of Conv2d(padding=(p, q)) come out as (p, p); with stride 1 the result has another width unless p = q. *)
Theorem C85_conv_refuted : forall p q x w H W kh kw B C N Cg y z, shape x = [B; C; H; W] -> shape w = [N; Cg; kh; kw] -> p <> q ->
  conv_module [1; 1]%nat [p; q; p; q] [1; 1]%nat None x w None = Some y -> onnx_conv [1; 1]%nat [p; q] [p; q] [1; 1]%nat 1 x w None = Some z ->
  shape y = [B; N; H + 2 * p - kh + 1; W + 2 * p - kw + 1]%nat /\ shape z = [B; N; H + 2 * p - kh + 1; W + 2 * q - kw + 1]%nat /\ shape y <> shape z.
Proof. exact k_C85_conv_refuted. Qed.
Print Assumptions C85_conv_refuted.
(** C85: AveragePool with a square kernel, equal strides and equal pads is ONNX's; different strides are refused. *)
Theorem C85_avg_pool : forall c k s p ps d x, ps = Some [p; p; p; p] \/ (ps = None /\ p = O) ->
  avg_pool_module c (mkPool [k; k] [s; s] ps d) x = onnx_avg_pool c [k; k] [s; s] [p; p] [p; p] x /\ forall ks s' , s <> s' -> avg_pool_module c (mkPool ks [s; s'] ps d) x = None.
Proof. exact k_C85_avg_pool. Qed.
Print Assumptions C85_avg_pool.
(** C85: Refuted: the check for square kernels compares a list with one string, so a kernel of kh rows and kw columns becomes kh by kh. *)
Theorem C85_kernel_refuted : forall c kh kw x B C H W y z, shape x = [B; C; H; W] -> kh <> kw -> avg_pool_module c (mkPool [kh; kw] [1; 1]%nat None None) x = Some y -> onnx_avg_pool c [kh; kw] [1; 1]%nat [0; 0]%nat [0; 0]%nat x = Some z ->
  shape y = [B; C; H - kh + 1; W - kh + 1]%nat /\ shape z = [B; C; H - kh + 1; W - kw + 1]%nat /\ shape y <> shape z.
Proof. exact k_C85_kernel_refuted. Qed.
Print Assumptions C85_kernel_refuted.
(** C85: Refuted: the dilation of a MaxPool node is ignored: the module's windows of k by k give another output size than windows k apart by d. *)
Theorem C85_dilation_refuted : forall k d H, (1 < k)%nat -> (1 < d)%nat -> Z.of_nat (d * (k - 1)) < H ->
  pool_from_onnx (mkPool [k; k] [1; 1]%nat None (Some [d; d])) = Some (k, 1%nat, O) /\ pooling_output_shape H (Z.of_nat k) 0 0 1 (Z.of_nat d) false < pooling_output_shape H (Z.of_nat k) 0 0 1 1 false.
Proof. exact k_C85_dilation_refuted. Qed.
Print Assumptions C85_dilation_refuted.
(** C85: Clip with both bounds is ONNX's. *)
Theorem C85_clip : forall S lo hi v, clip_module S (Some lo) (Some hi) v = onnx_clip (Some lo) (Some hi) v.
Proof. exact k_C85_clip. Qed.
Print Assumptions C85_clip.
(** C85: Refuted: a missing bound is replaced by -1 or 1 instead of none. *)
Theorem C85_clip_refuted : forall S lo hi v, 0 < S -> (S < v -> lo <= S -> clip_module S (Some lo) None v = S /\ onnx_clip (Some lo) None v = v) /\ (v < - S -> - S <= hi -> clip_module S None (Some hi) v = - S /\ onnx_clip None (Some hi) v = v) /\ (S < Z.abs v -> clip_module S None None v <> onnx_clip None None v).
Proof. exact k_C85_clip_refuted. Qed.
Print Assumptions C85_clip_refuted.
(** C85: Equal on tensors of one shape compares the elements. *)
Theorem C85_equal : forall x y, shape x = shape y -> exists z, equal_module x y = inr z /\ shape z = shape x /\ forall ix, at_ z ix = (if Z.eq_dec (at_ x ix) (at_ y ix) then 1 else 0).
Proof. exact k_C85_equal. Qed.
Print Assumptions C85_equal.
(** C85: Refuted: shapes that broadcast give Python's False, not a tensor. *)
Theorem C85_equal_refuted : forall x y n, shape x = [n] -> shape y = [] -> bshape (shape x) (shape y) = Some [n] /\ equal_module x y = inl false.
Proof. exact k_C85_equal_refuted. Qed.
Print Assumptions C85_equal_refuted.
(** C85: Refuted: no ONNX type is cast to itself; float becomes int8, and bfloat16 is refused. *)
Theorem C85_cast_refuted : (forall number t, onnx_dtype number = Some t -> cast_from_onnx number <> Some t) /\ cast_from_onnx 1 = Some Int8 /\ cast_from_onnx 16 = None.
Proof. exact k_C85_cast_refuted. Qed.
Print Assumptions C85_cast_refuted.
Local Close Scope Z_scope.
(** C86: a valid ONNX model with one output is imported, and the imported model returns the value ONNX gives to that output. *)
Theorem C86_import : forall (V Op : Type) (sem : Op -> list V -> list V) (is_dropout supported : Op -> bool) (call : Op -> list V -> V) (tuple : V -> option (list V)) (default : V) (m : onnx_model (V := V) (Op := Op)) (args : list V) (o : nat) (v : V), graph_input m <> [] -> length args = length (graph_input m) -> graph_output m = [o] -> named_once m ->
  (forall n, In n (nodes m) -> faithful sem is_dropout supported call tuple n) ->
  (forall n, In n (nodes m) -> NoDup (node_input n)) ->
  (forall n n' x, In n (nodes m) -> In n' (nodes m) -> In x (node_input n') -> ~ In x (dropped is_dropout n)) ->
  (In o (map fst (initializer m)) \/ exists n, In n (nodes m) /\ nth_error (node_output n) 0 = Some o) ->
  onnx_value sem m args o = Some v ->
  exists g, to_crypten is_dropout supported call m = Some g /\ forall fuel, length g <= fuel -> imported default tuple g m fuel args = Returns [v].
Proof. exact @k_C86_import. Qed.
Print Assumptions C86_import.
(** C86: Refuted: a model whose output waits for a name that nothing gives, such as the empty name of an omitted optional input, is imported but never returns. *)
Theorem C86_missing_refuted : forall (V Op : Type) (is_dropout supported : Op -> bool) (call : Op -> list V -> V) (tuple : V -> option (list V)) (default : V) (m : onnx_model (V := V) (Op := Op)) (missing : nat -> Prop) g o args fuel vs, to_crypten is_dropout supported call m = Some g -> graph_output m = [o] -> missing o ->
  (forall x, missing x -> ~ In x (graph_input m) /\ ~ In x (map fst (initializer m))) ->
  (forall n, In n (nodes m) -> (exists x, In x (node_output n) /\ missing x) -> exists x, In x (node_input n) /\ missing x) ->
  imported default tuple g m fuel args <> Returns vs.
Proof. exact @k_C86_missing_refuted. Qed.
Print Assumptions C86_missing_refuted.
(** C86: Refuted: a model whose output uses one value twice, as x * x does, is imported but never returns. *)
Theorem C86_twice_refuted : forall (V Op : Type) (is_dropout supported : Op -> bool) (call : Op -> list V -> V) (tuple : V -> option (list V)) (default : V) (m : onnx_model (V := V) (Op := Op)) n g o args fuel vs, to_crypten is_dropout supported call m = Some g -> graph_output m = [o] -> named_once m -> In n (nodes m) -> nth_error (node_output n) 0 = Some o -> ~ NoDup (node_input n) ->
  imported default tuple g m fuel args <> Returns vs.
Proof. exact @k_C86_twice_refuted. Qed.
Print Assumptions C86_twice_refuted.
(** C86: Refuted: in a model that lists its initializers among the inputs, as older exporters do, the data alone is refused although ONNX gives the output a value. *)
Theorem C86_default_refuted : exists (m : onnx_model (V := nat) (Op := unit)) (sem : unit -> list nat -> list nat) call g, to_crypten (fun _ => false) (fun _ => true) call m = Some g /\ onnx_value sem m [3] 2 = Some 7 /\ (forall vs, sem tt vs = [call tt vs]) /\
  forall tuple default fuel, imported default tuple g m fuel [3] = Raises AssertionError.
Proof. exact k_C86_default_refuted. Qed.
Print Assumptions C86_default_refuted.
(** C86: Refuted: a model that returns its input unchanged is imported but raises ValueError. *)
Theorem C86_identity_refuted : forall (V Op : Type) (is_dropout supported : Op -> bool) (call : Op -> list V -> V) (sem : Op -> list V -> list V) tuple default (x : V) fuel, let m := mkModel (V := V) (Op := Op) [0] [0] [] [] in onnx_value sem m [x] 0 = Some x /\ to_crypten is_dropout supported call m = Some [] /\ imported default tuple [] m fuel [x] = Raises ValueError.
Proof. exact @k_C86_identity_refuted. Qed.
Print Assumptions C86_identity_refuted.

(** *** Cases *)
Local Open Scope Z_scope.
Local Notation read o := (option_map (fun x => (shape x, map (at_ x) (indices (shape x)))) o).
Local Notation m34 := (mkT [3; 4]%nat (fun ix => Z.of_nat (10 * pos 0 ix + pos 1 ix))).
Local Notation v4 := (mkT [4]%nat (fun ix => Z.of_nat (pos 0 ix))).
Example C84_case_slice : NoDup (map (fun a => dimn a 2) [1; 0]) /\ Forall (accepted [3; 4]%nat) (entries_of [1; 0] [1; -2] [3; -1]) /\ Forall (fun e => ~ empty_tail e) (entries_of [1; 0] [1; -2] [3; -1]) /\
  read (slice [1; -2] [3; -1] (Some [1; 0]) m34) = Some ([1; 2]%nat, [11; 12]) /\ read (Some (onnx_slice (entries_of [1; 0] [1; -2] [3; -1]) m34)) = Some ([1; 2]%nat, [11; 12]).
Proof.
  split; [repeat constructor; cbn; intuition discriminate|]. split; [|split; [|split; vm_compute; reflexivity]].
  - repeat constructor; [exists 1%nat; split; [reflexivity|left; cbn; lia]|exists 0%nat; split; [reflexivity|right; cbn; lia]].
  - repeat constructor; intros [A B]; cbn in A, B; lia.
Qed.
Example C84_case_slice_default : read (slice [1] [9] None m34) = Some ([2; 4]%nat, [10; 11; 12; 13; 20; 21; 22; 23]) /\ read (slice_inputs [1] [9] None (Some [1]) m34) = read (slice [1] [9] None m34) /\ slice_inputs [0] [3] None (Some [2]) m34 = None.
Proof. vm_compute. repeat split; reflexivity. Qed.
Example C84_case_slice_wrong : read (slice [-2] [0] None v4) = Some ([2]%nat, [2; 3]) /\ read (Some (onnx_slice (entries_of [0] [-2] [0]) v4)) = Some ([0]%nat, []) /\
  read (slice_inputs [-2] [9223372036854775807] None None v4) = Some ([1]%nat, [2]) /\ read (Some (onnx_slice (entries_of [0] [-2] [9223372036854775807]) v4)) = Some ([2]%nat, [2; 3]).
Proof. vm_compute. repeat split; reflexivity. Qed.
Example C84_case_keeps : read (expand_module [-1; 3] (mkT [2; 1]%nat (fun ix => Z.of_nat (pos 0 ix)))) = Some ([2; 3]%nat, [0; 0; 0; 1; 1; 1]) /\ kept_sizes [-1; 3] [2; 1]%nat = [2; 3]%nat.
Proof. vm_compute. split; reflexivity. Qed.
Example C84_case_expand : read (expand_module [1; 2] (mkT [2; 1]%nat (fun ix => Z.of_nat (pos 0 ix)))) = Some ([2; 2]%nat, [0; 0; 1; 1]) /\ read (expand_module [3; 2] (mkT [2]%nat (fun ix => Z.of_nat (pos 0 ix)))) = Some ([3; 2]%nat, [0; 1; 0; 1; 0; 1]) /\
  read (expand_module [1; 2] (mkT [2]%nat (fun ix => Z.of_nat (pos 0 ix)))) = Some ([2; 2]%nat, [0; 1; 0; 1]) /\ read (onnx_expand [1; 2]%nat (mkT [2]%nat (fun ix => Z.of_nat (pos 0 ix)))) = Some ([1; 2]%nat, [0; 1]).
Proof. vm_compute. repeat split; reflexivity. Qed.
Example C84_case_flatten : read (flatten_module 1 (mkT [2; 1; 2]%nat (fun ix => Z.of_nat (2 * pos 0 ix + pos 2 ix)))) = Some ([2; 2]%nat, [0; 1; 2; 3]) /\ read (flatten_module 0 m34) = Some ([1; 12]%nat, [0; 1; 2; 3; 10; 11; 12; 13; 20; 21; 22; 23]) /\ flatten_module (-1) m34 = None.
Proof. vm_compute. repeat split; reflexivity. Qed.
Example C84_case_reshape : read (reshape_module [2; -1] v4) = Some ([2; 2]%nat, [0; 1; 2; 3]) /\ onnx_size [4]%nat [2; -1] [2; 2]%nat /\ reshape_module [0; 1] v4 = None /\ onnx_size [4]%nat [0; 1] [4; 1]%nat.
Proof.
  split; [vm_compute; reflexivity|]. split; [|split; [vm_compute; reflexivity|]].
  - split; [reflexivity|]. split; [cbn; lia|]. split; [reflexivity|]. intros [|[|k]] a E; cbn in E; try (destruct k; discriminate); injection E as <-; repeat split; try discriminate; cbn; try lia; intros; try reflexivity; try lia.
  - split; [reflexivity|]. split; [cbn; lia|]. split; [reflexivity|]. intros [|[|k]] a E; cbn in E; try (destruct k; discriminate); injection E as <-; repeat split; try discriminate; cbn; try lia; intros; try reflexivity; try lia.
Qed.
Example C84_case_gather : indices_fit [2]%nat (fun i => if Nat.eqb (pos 0 i) 0 then -1 else 0) 4 /\ read (gather_module (Some 1) [2]%nat (fun i => if Nat.eqb (pos 0 i) 0 then -1 else 0) m34) = Some ([3; 2]%nat, [3; 0; 13; 10; 23; 20]) /\
  read (gather_module None [2]%nat (fun i => if Nat.eqb (pos 0 i) 0 then -1 else 0) m34) = Some ([2]%nat, [23; 0]) /\ read (gather_module None [2]%nat (fun i => if Nat.eqb (pos 0 i) 0 then -1 else 0) v4) = Some ([2]%nat, [3; 0]).
Proof. split; [intros i _; destruct (Nat.eqb (pos 0 i) 0); cbn; lia|]. vm_compute. repeat split; reflexivity. Qed.
Example C85_case_pad : order_free 2 [1; 1; 1; 1] /\ read (pad_module [1; 0] v4) = Some ([5]%nat, [0; 0; 1; 2; 3]) /\ read (Some (onnx_pad [1; 0] v4)) = Some ([5]%nat, [0; 0; 1; 2; 3]) /\
  option_map shape (pad_module [0; 0; 1; 1; 0; 0; 1; 1] (mkT [1; 1; 2; 2]%nat (fun _ => 1))) = Some [3; 1; 4; 2]%nat.
Proof. split; [exact (proj1 C85_pad_uniform 2%nat 1)|]. vm_compute. repeat split; reflexivity. Qed.
Example C85_case_conv : let x := mkT [1; 1; 3]%nat (fun ix => Z.of_nat (pos 2 ix + 1)) in let w := mkT [1; 1; 2]%nat (fun _ => 1) in let b := mkT [1]%nat (fun _ => 10) in
  read (conv_module [1]%nat [1; 1]%nat [1]%nat None x w (Some b)) = Some ([1; 1; 4]%nat, [11; 13; 15; 13]) /\ read (onnx_conv [1]%nat [1]%nat [1]%nat [1]%nat 1 x w (Some b)) = Some ([1; 1; 4]%nat, [11; 13; 15; 13]).
Proof. vm_compute. repeat split; reflexivity. Qed.
Example C85_case_conv_wrong : let x := mkT [1; 1; 2; 2]%nat (fun _ => 1) in let w := mkT [1; 1; 1; 1]%nat (fun _ => 1) in
  option_map shape (conv_module [1; 1]%nat [0; 1; 0; 1]%nat [1; 1]%nat None x w None) = Some [1; 1; 2; 2]%nat /\ option_map shape (onnx_conv [1; 1]%nat [0; 1]%nat [0; 1]%nat [1; 1]%nat 1 x w None) = Some [1; 1; 2; 4]%nat.
Proof. vm_compute. repeat split; reflexivity. Qed.
Example C85_case_pool : let x := mkT [1; 1; 2; 3]%nat (fun ix => Z.of_nat (3 * pos 2 ix + pos 3 ix)) in
  read (avg_pool_module 1 (mkPool [2; 2]%nat [1; 1]%nat None None) x) = Some ([1; 1; 1; 2]%nat, [8; 12]) /\ read (onnx_avg_pool 1 [2; 2]%nat [1; 1]%nat [0; 0]%nat [0; 0]%nat x) = Some ([1; 1; 1; 2]%nat, [8; 12]) /\
  option_map shape (avg_pool_module 1 (mkPool [1; 2]%nat [1; 1]%nat None None) x) = Some [1; 1; 2; 3]%nat /\ option_map shape (onnx_avg_pool 1 [1; 2]%nat [1; 1]%nat [0; 0]%nat [0; 0]%nat x) = Some [1; 1; 2; 2]%nat.
Proof. vm_compute. repeat split; reflexivity. Qed.
Example C85_case_dilation : pooling_output_shape 8 2 0 0 1 3 false = 5 /\ pooling_output_shape 8 2 0 0 1 1 false = 7.
Proof. vm_compute. repeat split; reflexivity. Qed.
Example C85_case_clip : clip_module 65536 (Some 0) (Some 393216) 400000 = 393216 /\ clip_module 65536 (Some 0) None 400000 = 65536 /\ onnx_clip (Some 0) None 400000 = 400000.
Proof. vm_compute. repeat split; reflexivity. Qed.
Example C85_case_equal : match equal_module v4 (mkT [4]%nat (fun _ => 2)) with inr z => read (Some z) = Some ([4]%nat, [0; 0; 1; 0]) | inl _ => False end /\ equal_module v4 (mkT [] (fun _ => 2)) = inl false.
Proof. vm_compute. repeat split; reflexivity. Qed.
Example C85_case_cast : onnx_dtype 1 = Some Float32 /\ cast_from_onnx 1 = Some Int8 /\ onnx_dtype 11 = Some Float64 /\ cast_from_onnx 11 = Some Bool.
Proof. vm_compute. repeat split; reflexivity. Qed.
Local Close Scope Z_scope.
(** a model with a parameter, an operator with two outputs and a dropout whose mask is not used: values are lists; 0: sums of pairs, 1: split, 2: dropout *)
Local Notation sem0 := (fun (op : nat) (vs : list (list nat)) => match op with 0 => [[list_sum (concat vs)]] | 1 => [firstn 1 (concat vs); skipn 1 (concat vs)] | _ => [concat vs; [1]] end).
Local Notation call0 := (fun (op : nat) (vs : list (list nat)) => match op with 0 => [list_sum (concat vs)] | _ => concat vs end).
Local Notation tuple0 := (fun v : list nat => Some [firstn 1 v; skipn 1 v]).
Local Notation model0 := (mkModel (V := list nat) (Op := nat) [0] [7] [(1, [4])] [mkOnnx 1 [0] [2; 3]; mkOnnx 2 [3] [4; 5]; mkOnnx 0 [2; 1; 4] [7]]).
Example C86_case_import : named_once model0 /\ (forall n, In n (nodes model0) -> faithful sem0 (Nat.eqb 2) (fun _ => true) call0 tuple0 n) /\ (forall n, In n (nodes model0) -> NoDup (node_input n)) /\
  (forall n n' x, In n (nodes model0) -> In n' (nodes model0) -> In x (node_input n') -> ~ In x (dropped (Nat.eqb 2) n)) /\ onnx_value sem0 model0 [[1; 2; 3]] 7 = Some [10] /\
  exists g, to_crypten (Nat.eqb 2) (fun _ => true) call0 model0 = Some g /\ length g = 4 /\ imported [] tuple0 g model0 4 [[1; 2; 3]] = Returns [[10]].
Proof.
  split; [unfold named_once; cbn; repeat constructor; cbn; intuition discriminate|]. split; [|split; [|split; [|split; [vm_compute; reflexivity|]]]].
  - intros n [<-|[<-|[<-|[]]]]; unfold faithful; (split; [reflexivity|split; [discriminate|]]); intros vs; cbn; split; reflexivity.
  - intros n [<-|[<-|[<-|[]]]]; cbn; repeat constructor; cbn; intuition discriminate.
  - intros n n' x [<-|[<-|[<-|[]]]] [<-|[<-|[<-|[]]]]; cbn; intuition (subst; discriminate).
  - eexists. split; [vm_compute; reflexivity|]. split; vm_compute; reflexivity.
Qed.
(** Clip with an omitted minimum, whose name 9 is empty in ONNX *)
Example C86_case_missing : let m := mkModel (V := list nat) (Op := nat) [0] [2] [(1, [4])] [mkOnnx 0 [0; 9; 1] [2]] in
  exists g, to_crypten (Nat.eqb 2) (fun _ => true) call0 m = Some g /\ (forall x, x = 9 \/ x = 2 -> ~ In x (graph_input m) /\ ~ In x (map fst (initializer m))) /\
    (forall n, In n (nodes m) -> (exists x, In x (node_output n) /\ (x = 9 \/ x = 2)) -> exists x, In x (node_input n) /\ (x = 9 \/ x = 2)) /\ imported [] tuple0 g m 5 [[1]] = Raises ValueError.
Proof.
  cbn zeta. eexists. split; [vm_compute; reflexivity|]. split; [intros x H; cbn; lia|]. split; [|vm_compute; reflexivity]. intros n [<-|[]] _. exists 9. cbn. auto.
Qed.
Example C86_case_twice : let m := mkModel (V := list nat) (Op := nat) [0] [2] [] [mkOnnx 0 [0; 0] [2]] in named_once m /\ ~ NoDup [0; 0] /\ exists g, to_crypten (Nat.eqb 2) (fun _ => true) call0 m = Some g /\ imported [] tuple0 g m 5 [[1]] = Raises ValueError.
Proof. cbn zeta. split; [unfold named_once; cbn; repeat constructor; cbn; intuition discriminate|]. split; [intros N; inversion N as [|? ? N1 _]; apply N1; now left|]. eexists. split; vm_compute; reflexivity. Qed.

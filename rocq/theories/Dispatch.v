(** How a call on a CrypTensor is dispatched and recorded: CrypTensor.__getattribute__, autograd_forward, _find_all_cryptensors, crypten/cryptensor.py.
    Only who computes the value and what is recorded is modelled, not the values. *)
Require Import String List Bool Arith.
Import ListNotations.
Open Scope string_scope.

(** *** Names *)
(** PROTECTED_ATTRIBUTES, cryptensor.py:94-108 *)
Definition protected : list string := ["__dict__"; "__class__"; "requires_grad"; "grad"; "grad_fn"; "grad_expected"; "grad_received"; "children"; "ctx"; "backward"; "detach"; "detach_"; "_reset_gradients"].
(** REQUIRED_FUNCTIONS, cryptensor.py:111-123 *)
Definition required : list string := ["_ltz"; "add"; "avg_pool1d"; "avg_pool2d"; "clone"; "conv1d"; "conv2d"; "copy_"; "div_"; "matmul"; "neg"].
(** PYTHON_BUILTIN, cryptensor.py:129-144 *)
Definition builtins : list (string * string) :=
  [("__abs__", "abs"); ("__neg__", "neg"); ("__pow__", "pow"); ("__add__", "add"); ("__radd__", "add"); ("__sub__", "sub"); ("__rsub__", "__rsub__"); ("__mul__", "mul"); ("__rmul__", "mul");
   ("__div__", "div"); ("__truediv__", "div"); ("__rtruediv__", "__rtruediv__"); ("__matmul__", "matmul"); ("__imatmul__", "matmul")].
Definition mem (n : string) (l : list string) : bool := existsb (String.eqb n) l.
Fixpoint assoc (n : string) (l : list (string * string)) : string := match l with [] => n | (a, b) :: l => if String.eqb n a then b else assoc n l end.
(** name.endswith(suffix), name[:-1] *)
Definition ends_with (suffix n : string) : bool :=
  Nat.leb (String.length suffix) (String.length n) && String.eqb (substring (String.length n - String.length suffix) (String.length suffix) n) suffix.
Definition chop (n : string) : string := substring 0 (String.length n - 1) n.
Definition in_place (n : string) : bool := ends_with "_" n && negb (ends_with "__" n).

(** *** The tables *)
(** @register_function, gradients.py *)
Definition registry : list string :=
  ["t"; "transpose"; "permute"; "flip"; "clone"; "cat"; "stack"; "view"; "reshape"; "flatten"; "narrow"; "take"; "index_select"; "gather"; "scatter"; "roll"; "squeeze"; "unsqueeze"; "__getitem__"; "neg"; "relu"; "dropout"; "_feature_dropout";
   "tanh"; "hardtanh"; "erf"; "relu6"; "add"; "sub"; "__rsub__"; "mul"; "matmul"; "div"; "__rtruediv__"; "polynomial"; "pow"; "pos_pow"; "square"; "sqrt"; "exp"; "log"; "reciprocal"; "dot"; "ger"; "sin"; "cos"; "cosine_similarity"; "abs"; "sign"; "norm";
   "sum"; "cumsum"; "trace"; "mean"; "var"; "min"; "max"; "sigmoid"; "softmax"; "log_softmax"; "pad"; "avg_pool2d"; "max_pool2d"; "conv1d"; "conv2d"; "batchnorm"; "binary_cross_entropy"; "binary_cross_entropy_with_logits"; "rappor_loss"; "cross_entropy"].
(** the functions applied to the shares themselves, whose result is a new tensor made by shallow_copy: regular.py:71-82, 119-148, 285-297 (the names of 14-56 not defined in that file), mpc.py:309-345 *)
Definition direct : list string :=
  ["__getitem__"; "cumsum"; "expand"; "flatten"; "flip"; "gather"; "index_select"; "narrow"; "permute"; "repeat"; "reshape"; "roll"; "squeeze"; "sum"; "t"; "trace"; "transpose"; "unfold"; "unsqueeze"; "view"; "pad"; "unbind"; "split"; "take";
   "avg_pool2d"; "square"; "neg"; "add"; "sub"; "mul"; "matmul"; "conv1d"; "conv2d"; "conv_transpose1d"; "conv_transpose2d"].
(** the attributes of an MPCTensor that the theorems speak about, besides the direct functions: common/functions/*.py, mpc.py, cryptensor.py:488-729 *)
Definition methods : list string :=
  direct ++ ["exp"; "log"; "reciprocal"; "inv_sqrt"; "sqrt"; "cossin"; "cos"; "sin"; "sigmoid"; "tanh"; "erf"; "softmax"; "log_softmax"; "dropout"; "abs"; "eq"; "ge"; "gt"; "hardtanh"; "le"; "lt"; "ne"; "relu"; "sign"; "where"; "argmax"; "argmin"; "max"; "min";
    "adaptive_max_pool2d"; "adaptive_avg_pool2d"; "max_pool2d"; "norm"; "polynomial"; "pos_pow"; "pow"; "cat"; "stack"; "dot"; "ger"; "index_add"; "mean"; "prod"; "scatter"; "scatter_add"; "var"; "bernoulli"; "weighted_index"; "weighted_sample";
    "clone"; "shallow_copy"; "copy_"; "div"; "_ltz"; "__rsub__"; "get_plain_text"; "reveal"; "rand"; "set"; "nelement"; "dim"; "size"; "numel"; "__len__"; "__setitem__"].

(** the operators that the class has: the function of self that they call, cryptensor.py:453-524.  Python looks for the method of an operator in the class, not with __getattribute__; __pow__ and __rtruediv__ are not there. *)
Definition operators : list (string * string) :=
  [("__abs__", "abs"); ("__add__", "add"); ("__radd__", "add"); ("__iadd__", "add_"); ("__sub__", "sub"); ("__isub__", "sub_"); ("__mul__", "mul"); ("__rmul__", "mul"); ("__imul__", "mul_");
   ("__truediv__", "div"); ("__itruediv__", "div_"); ("__neg__", "neg"); ("__matmul__", "matmul"); ("__imatmul__", "matmul")].

(** *** Arguments *)
(** [Plain iterable]: anything that holds no CrypTensor; [Seq]: list, tuple or set; [Dict]: the values of a dict *)
Inductive arg := Ten (i : nat) | Plain (iterable : bool) | Seq (l : list arg) | Dict (l : list arg).
(** a tensor of the program, or one of the new tensors that iterating over a tensor makes *)
Inductive found := Known (i : nat) | Row.
Definition append_found (a b : option (list found)) : option (list found) := match a, b with Some x, Some y => Some (x ++ y)%list | _, _ => None end.

Section Dispatch.
  (** the number of rows of a tensor; which tensors require a gradient; the attributes that the object has; the registered AutogradFunctions (gradients.py:19-48) *)
  Variable rows : nat -> nat.
  Variable requires : nat -> bool.
  Variables own registered : string -> bool.
  (** which of its results an AutogradFunction leaves differentiable (ctx.is_differentiable, 351) *)
  Variable differentiable : string -> list bool.

  (** _find_all_cryptensors, cryptensor.py:20-33, on one input; [None]: TypeError, a value that cannot be iterated over.
      Note 32: the values of a dict are not put in a list, so that a tensor is iterated over. *)
  Fixpoint find (a : arg) : option (list found) :=
    match a with
    | Ten i => Some [Known i]
    | Plain _ => Some []
    | Seq l => (fix all (l : list arg) := match l with [] => Some [] | a :: l => append_found (find a) (all l) end) l
    | Dict l => (fix each (l : list arg) := match l with
        | [] => Some []
        | v :: l => append_found (match v with
                                  | Ten i => Some (repeat Row (rows i))
                                  | Plain iterable => if iterable then Some [] else None
                                  | Seq l => (fix all (l : list arg) := match l with [] => Some [] | a :: l => append_found (find a) (all l) end) l
                                  | Dict _ => Some []
                                  end) (each l) end) l
    end.
  Fixpoint find_all (l : list arg) : option (list found) := match l with [] => Some [] | a :: l => append_found (find a) (find_all l) end.

  Inductive exn := NoInPlace | NotImplemented | NoAttribute | NotIterable | NotCallable | Unsupported.
  (** what attribute lookup gives: the object's attribute; the out-of-place function and copy_; autograd_forward; autograd_forward_no_ctx *)
  Inductive access := Own (n : string) | Copied (n : string) | Tracked (n : string) | NoCtx (n : string) | Error (e : exn).

  (** __getattribute__, cryptensor.py:367-446, for names that are not in-place.  [enabled]: AUTOGRAD_ENABLED.  Every registered class has a forward (gradients.py:143-145), so 419-422 is not reached. *)
  Definition lookup_plain (enabled : bool) (n : string) : access :=
    if negb (registered n) then (if own n then Own n else Error NoAttribute)
    else if enabled then Tracked n
    else if own n then Own n
    else if mem n required then Error NoAttribute
    else NoCtx n.
  Definition lookup (enabled self_requires : bool) (n : string) : access :=
    if mem n protected then Own n
    else if String.eqb n "copy_" then Own "copy_"
    else let n := assoc n builtins in
      if in_place n then (if enabled && self_requires then Error NoInPlace else Copied (chop n))
      else lookup_plain enabled n.

  (** *** Calls *)
  (** the Python function that computes the value: a method of the object, run with autograd as it is, or the forward of an AutogradFunction, run without *)
  Inductive code := Method (n : string) (enabled : bool) | Forward (n : string).
  (** the results: differentiable or not, with these children; [None]: what the method makes of it *)
  Inductive outcome := Runs (c : code) (recorded : option (list bool * list found)) | Fails (e : exn).
  Definition needs (f : found) : bool := match f with Known i => requires i | Row => false end.

  (** autograd_forward, cryptensor.py:320-363; [self]: None for static functions *)
  Definition autograd_forward (self : option nat) (n : string) (args : list arg) : outcome :=
    match find_all args with
    | None => Fails NotIterable
    | Some ts =>
        let children := match self with Some i => Known i :: ts | None => ts end in
        if existsb needs children then Runs (Forward n) (Some (differentiable n, children))
        else match lookup_plain false n with
             | Own n => Runs (Method n false) None
             | NoCtx n => Runs (Forward n) None
             | Error e => Fails e
             | _ => Fails NoAttribute
             end
    end.
  (** self.n(args, kwargs) for names that are not in-place; keyword arguments are passed on, but not looked at.  Without autograd no result is recorded. *)
  Definition call_plain (enabled : bool) (self : option nat) (n : string) (args kwargs : list arg) : outcome :=
    match lookup_plain enabled n with
    | Tracked n => autograd_forward self n args
    | Own n => Runs (Method n enabled) None
    | NoCtx n => Runs (Forward n) None
    | Error e => Fails e
    | Copied _ => Fails NoAttribute
    end.
  (** what self.n(args) does: the outcome, and whether it is then copied into self (oop_and_copy, 401-405) *)
  Definition call (enabled : bool) (self : nat) (n : string) (args kwargs : list arg) : outcome * bool :=
    match lookup enabled (requires self) n with
    | Own n => (Runs (Method n enabled) None, false)
    | Copied n => if mem n protected then (Fails NotCallable, false) else (call_plain enabled (Some self) (assoc n builtins) args kwargs, true)
    | Tracked n => (autograd_forward (Some self) n args, false)
    | NoCtx n => (Runs (Forward n) None, false)
    | Error e => (Fails e, false)
    end.
  (** an operator, named by its method, applied to self; __rsub__ (482-484) is not one function of self, but runs -self + tensor.  [Unsupported]: TypeError. *)
  Definition operate (enabled : bool) (self : nat) (op : string) (args : list arg) : outcome * bool :=
    if String.eqb op "__rsub__" then (Runs (Method "__rsub__" enabled) None, false)
    else if mem op (map fst operators) then call enabled self (assoc op operators) args []
    else (Fails Unsupported, false).
  (** whether the tensor that the call returns requires a gradient: self after copy_, which copies the shares and the ptype only (mpc.py:94-98); a result recorded in the tape;
      the new tensor of a function applied to shares.  [None]: not told by the dispatch. *)
  Definition returned_requires (self : nat) (r : outcome * bool) : option bool :=
    match r with
    | (Fails _, _) => None
    | (Runs _ _, true) => Some (requires self)
    | (Runs _ (Some (d, _)), false) => Some (existsb (fun b => b) d)
    | (Runs (Method n _) None, false) => if mem n direct then Some false else None
    | (Runs (Forward _) None, false) => None
    end.

  (** CrypTensor.backward 246-263: the gradients are handed to the children in order; [None]: the assertion of 256-258 *)
  Definition hand_out {G} (children : list nat) (gradients : list G) : option (list (nat * G)) :=
    if Nat.leb (length children) (length gradients) then Some (combine children gradients) else None.
End Dispatch.

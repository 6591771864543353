(** Programs built from operations on encrypted numbers: what a user's computation (for instance a model's forward pass or a training step)
    executes on one element after another.

    A program is a list of instructions; every instruction reads numbers computed before (registers, by position) and appends its result, so
    a number can be used several times.  Every register has the default encoder.  The instructions are the operations of mpc.py and
    arithmetic.py, each run by the function modelled in Compare.v, Maximum.v and Regular.v.

    Simplification: a matrix product or a convolution is one [IDot] per element of the result, with one Beaver triple per product; the code
    takes one triple of tensors per operation (the opened values are the same by bilinearity, C07).  The order of the elements of a tensor
    is the order of the program. *)
Require Import ZArith QArith List Bool.
From Verif Require Import Ring64 Encoder Arith Beaver Trunc Provider Binary Compare Maximum Regular.
Import ListNotations.
Open Scope Z_scope.

Inductive instr :=
| IAdd (i j : nat) | ISub (i j : nat) | INeg (i : nat)     (* x + y, x - y, -x *)
| IAddZ (i : nat) (k : Z) | IAddQ (i : nat) (q : Q)        (* x + public integer, x + public float *)
| IMulZ (i : nat) (k : Z) | IMulQ (i : nat) (q : Q)        (* x * Python int, x * public float *)
| IMul (i j : nat) | ISquare (i : nat)                     (* x * y, x.square() *)
| IDiv (i : nat) (d : Z)                                   (* x / positive int *)
| IDot (l : list (nat * nat))                              (* an element of x.matmul(y), x.conv2d(y) *)
| IDotQ (l : list (nat * Q))                               (* an element of x.matmul(y), x.conv2d(y) for a public float tensor y *)
| ISum (l : list nat)                                      (* an element of x.sum(dim) or of a sum pool *)
| IRelu (i : nat) | IAbs (i : nat)                         (* x.relu(), x.abs() *)
| IClamp (i : nat) (lo hi : Q)                             (* x.hardtanh(lo, hi), x.relu6() *)
| IMax (l : list nat).                                     (* an element of x.max(dim)[0] or of a max pool *)

Section Run.
  Context {pr : provider}.
  (** the default scale and precision, the local random bits, the numbers of steps of the maximum methods (Maximum.v), the method *)
  Variables (D : Z) (p : nat) (local_bits : run pr (list Z)) (log_steps cascade_steps isqrt : nat -> nat) (me : method).
  Variable chk : check.

  Definition reg (rs : list num) (i : nat) : num := nth i rs nil_num.

  (** arithmetic.py:338-404 with op = matmul or a convolution: the sum of the Beaver products (beaver.py:31-110), then one division *)
  Definition rawv (xy : num * num) : runo pr num :=
    t <~ lift (next_mul pr) ;; let '(a, b, c) := t in okr (mkNum (mul1 a b c (n_sh (fst xy)) (n_sh (snd xy))) (n_sc (fst xy))).
  Definition dotv (l : list (num * num)) : runo pr num :=
    raws <~ mapO rawv l ;;
    match l with
    | [] => raise
    | (x, y) :: _ =>
        match mul_rescale (n_sc x) (n_sc y) with
        | (Some d, s) => divv chk (mkNum (n_sh (sum_num raws)) s) d
        | (None, s) => okr (mkNum (n_sh (sum_num raws)) s)
        end
    end.
  (** ... with a public operand, encoded at the scale of [self] *)
  Definition dotpv (l : list (num * Q)) : runo pr num :=
    match l with
    | [] => raise
    | (x, _) :: _ =>
        let raw := sum_num (map (fun xq => mkNum (mul_int (encodeQ (n_sc x) (snd xq)) (n_sh (fst xq))) (n_sc x)) l) in
        match mul_pub_rescale (n_sc x) with
        | (Some d, s) => divv chk (mkNum (n_sh raw) s) d
        | (None, s) => okr (mkNum (n_sh raw) s)
        end
    end.

  Definition step (x : instr) (rs : list num) : runo pr num :=
    match x with
    | IAdd i j => okr (add_num (reg rs i) (AEnc (reg rs j)))
    | ISub i j => okr (sub_num (reg rs i) (AEnc (reg rs j)))
    | INeg i => okr (neg_num (reg rs i))
    | IAddZ i k => okr (add_num (reg rs i) (AInt k))
    | IAddQ i q => okr (add_num (reg rs i) (AFloat q))
    | IMulZ i k => okr (muli_num k (reg rs i))
    | IMulQ i q => mulpv chk (reg rs i) (encodeQ (n_sc (reg rs i)) q)
    | IMul i j => mulv chk (reg rs i) (reg rs j)
    | ISquare i => squarev chk (reg rs i)
    | IDiv i d => divv chk (reg rs i) d
    | IDot l => dotv (map (fun ij => (reg rs (fst ij), reg rs (snd ij))) l)
    | IDotQ l => dotpv (map (fun iq => (reg rs (fst iq), snd iq)) l)
    | ISum l => okr (sum_num (map (reg rs) l))
    | IRelu i => lift (n_relu D (reg rs i))
    | IAbs i => lift (n_abs D (reg rs i))
    | IClamp i lo hi => lift (hardtanh D (reg rs i) (AFloat lo) (AFloat hi))
    | IMax l => r <~ lift (max_dim D p local_bits log_steps cascade_steps isqrt me (map (reg rs) l)) ;; okr (fst r)
    end.
  (** the inputs followed by the result of every instruction *)
  Fixpoint exec (prog : list instr) (rs : list num) : runo pr (list num) :=
    match prog with [] => okr rs | x :: r => z <~ step x rs ;; exec r (rs ++ [z]) end.
End Run.

(** ** Networks
    The layers of nn/module.py whose forward passes are made of these operations.  [cur] are the registers holding the layer's input, [next]
    is the number of registers in use; a compiled layer is its instructions and the registers of its output. *)
Inductive layer :=
(** Linear, Conv1d, Conv2d with an encrypted model (module.py: [x.matmul(weight.t())] / [conv] followed by [.add(bias)]): for every output
    the products (position in the input, register of the weight) and the register of the bias *)
| Affine (rows : list (list (nat * nat) * nat))
(** the same with a public model *)
| AffineQ (rows : list (list (nat * Q) * Q))
| Relu
(** AvgPool2d (pooling.py:  sum pool, then division by the kernel's size), MaxPool2d: for every output its window, as positions in the input *)
| AvgPool (size : Z) (windows : list (list nat))
| MaxPool (windows : list (list nat)).

Definition at_pos (cur : list nat) (i : nat) : nat := nth i cur 0%nat.
Definition compile1 (cur : list nat) (next : nat) (l : layer) : list instr * list nat :=
  match l with
  | Affine rows =>
      let k := length rows in
      (map (fun r => IDot (map (fun iw => (at_pos cur (fst iw), snd iw)) (fst r))) rows ++
       map (fun jr => IAdd (next + fst jr) (snd (snd jr))) (combine (seq 0 k) rows), seq (next + k) k)
  | AffineQ rows =>
      let k := length rows in
      (map (fun r => IDotQ (map (fun iw => (at_pos cur (fst iw), snd iw)) (fst r))) rows ++
       map (fun jr => IAddQ (next + fst jr) (snd (snd jr))) (combine (seq 0 k) rows), seq (next + k) k)
  | Relu => (map IRelu cur, seq next (length cur))
  | AvgPool size windows =>
      let k := length windows in
      (map (fun w => ISum (map (at_pos cur) w)) windows ++ map (fun j => IDiv (next + j) size) (seq 0 k), seq (next + k) k)
  | MaxPool windows => (map (fun w => IMax (map (at_pos cur) w)) windows, seq next (length windows))
  end.
Fixpoint compile (cur : list nat) (next : nat) (ls : list layer) : list instr * list nat :=
  match ls with
  | [] => ([], cur)
  | l :: r => let '(c, cur') := compile1 cur next l in let '(c', out) := compile cur' (next + length c) r in (c ++ c', out)
  end.

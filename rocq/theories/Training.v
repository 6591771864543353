(** Training a network on encrypted data: the instructions a loop over batches executes, one element after another.

    [Program.v] has the arithmetic; added here are the three things a training step needs besides: the mask of a relu, which the forward
    pass saves and the backward pass uses again, the product with a mask, and the thresholding of a gradient.  Masks have scale 1.

    Simplifications: as in Program.v (one triple per product of a matrix product); public floats are exact rationals (1/N, the learning
    rate); the parts of the backward pass run in the order of the recursion in cryptensor.py:213-267 except that the gradients of a layer's
    parameters are computed together; each result is a new register where the code writes in place ([mul_], [sub_]); C52, C82 and C83 have
    the in-place updates. *)
Require Import ZArith QArith List Bool.
From Verif Require Import Ring64 Encoder Arith Beaver Trunc Provider Binary Compare Maximum Regular Optim Program.
Import ListNotations.
Open Scope Z_scope.

Inductive tinstr :=
| Plain (x : instr)
| Mask (i : nat)             (* a new mask: x.gt(0.0) *)
| Gate (i k : nat)           (* x.mul(mask) *)
| Clip (i : nat) (t : Z).    (* x.mul(x.square().lt(t * t)), module.py:338-341 *)

Section Run.
  Context {pr : provider}.
  Variables (D : Z) (p : nat) (local_bits : run pr (list Z)) (log_steps cascade_steps isqrt : nat -> nat) (me : method).
  Variable chk : check.
  (** registers and masks *)
  Definition tstep (x : tinstr) (st : list num * list num) : runo pr (list num * list num) :=
    let '(rs, ms) := st in
    match x with
    | Plain x => z <~ step D p local_bits log_steps cascade_steps isqrt me chk x rs ;; okr (rs ++ [z], ms)
    | Mask i => g <~ lift (n_gt D (reg rs i) (AFloat 0)) ;; okr (rs, ms ++ [g])
    | Gate i k => z <~ mulv chk (reg rs i) (reg ms k) ;; okr (rs ++ [z], ms)
    | Clip i t => z <~ thresholded D chk t (reg rs i) ;; okr (rs ++ [z], ms)
    end.
  Fixpoint texec (prog : list tinstr) (st : list num * list num) : runo pr (list num * list num) :=
    match prog with [] => okr st | x :: r => st' <~ tstep x st ;; texec r st' end.
End Run.

(** ** The training loop
    A matrix is given by the registers of its elements; [block r c f] computes the r x c matrix with the elements [f a i]. *)
Definition matrix := (nat -> nat -> nat).
Definition block (r c : nat) (f : nat -> nat -> tinstr) : list tinstr := flat_map (fun a => map (f a) (seq 0 c)) (seq 0 r).
Definition placed (next c : nat) : matrix := fun a i => (next + a * c + i)%nat.

(** the layers: Linear with [o] outputs and [k] inputs (module.py:1885-1898), ReLU of width [k] (module.py:2299-2312) *)
Inductive tlayer := Dense (o k : nat) (W : matrix) (b : nat -> nat) | Act (k : nat).

(** what the backward pass leaves: the gradient of every layer's parameters (weights indexed as the weights), the gradient of the layers' input,
    the loss, the number of registers and of masks in use *)
Record pass := mkPass { p_code : list tinstr; p_grads : list (matrix * (nat -> nat)); p_in : matrix; p_loss : nat; p_next : nat; p_masks : nat }.

Section Step.
  (** the batch size, the number of outputs of the network, the registers of the targets, the register of an encrypted 1 (cryptensor.py:227) *)
  Variables (B m : nat) (Y : matrix) (one : nat).
  Definition count : nat := (B * m)%nat.
  (** forward and backward through MSELoss (loss.py:65-67): [(x - y).square().mean()] (regular.py:151-161), then
      AutogradMean (gradients.py:1207-1221), AutogradSquare (gradients.py:892-895), AutogradSub (gradients.py:685-690) *)
  Definition loss_pass (X : matrix) (next masks : nat) : pass :=
    let N := count in
    let d := placed next m in
    let sq := placed (next + N) m in
    let total := (next + 2 * N)%nat in
    let g := placed (next + 2 * N + 2) m in
    let d2 := placed (next + 3 * N + 2) m in
    let out := placed (next + 4 * N + 2) m in
    mkPass (block B m (fun a j => Plain (ISub (X a j) (Y a j))) ++
            block B m (fun a j => Plain (ISquare (d a j))) ++
            [Plain (ISum (flat_map (fun a => map (sq a) (seq 0 m)) (seq 0 B))); Plain (IDiv total (Z.of_nat N))] ++
            block B m (fun a j => Plain (IMulQ one (1 / inject_Z (Z.of_nat N)))) ++
            block B m (fun a j => Plain (IMulQ (d a j) 2)) ++
            block B m (fun a j => Plain (IMul (g a j) (d2 a j))))
           [] out (total + 1)%nat (next + 5 * N + 2)%nat masks.
  (** forward through the layers, the loss, backward through the layers.  Linear: [x.matmul(weight.t()).add(bias)] (module.py:1894-1898);
      backward AutogradAdd (gradients.py:665-671; the bias was broadcast over the batch, [_inverse_broadcast], gradients.py:59-76),
      AutogradMatMul (gradients.py:755-757), AutogradT (gradients.py:165-166).  ReLU: AutogradReLU (gradients.py:482-492). *)
  Fixpoint layers_pass (ls : list tlayer) (X : matrix) (next masks : nat) : pass :=
    match ls with
    | [] => loss_pass X next masks
    | Dense o k W b :: r =>
        let prod := placed next o in
        let out := placed (next + B * o) o in
        let q := layers_pass r out (next + 2 * (B * o)) masks in
        let G := p_in q in
        let db := placed (p_next q) o 0%nat in
        let dX := placed (p_next q + o) k in
        let dW := placed (p_next q + o + B * k) o in
        mkPass (block B o (fun a j => Plain (IDot (map (fun i => (X a i, W j i)) (seq 0 k)))) ++
                block B o (fun a j => Plain (IAdd (prod a j) (b j))) ++
                p_code q ++
                block 1 o (fun _ j => Plain (ISum (map (fun a => G a j) (seq 0 B)))) ++
                block B k (fun a i => Plain (IDot (map (fun j => (G a j, W j i)) (seq 0 o)))) ++
                block k o (fun i j => Plain (IDot (map (fun a => (X a i, G a j)) (seq 0 B)))))
               ((fun j i => dW i j, db) :: p_grads q) dX (p_loss q) (p_next q + o + B * k + k * o)%nat (p_masks q)
    | Act k :: r =>
        let mask := placed masks k in
        let q := layers_pass r (placed next k) (next + B * k) (masks + B * k) in
        mkPass (block B k (fun a i => Mask (X a i)) ++ block B k (fun a i => Gate (X a i) (mask a i)) ++
                p_code q ++
                block B k (fun a i => Gate (p_in q a i) (mask a i)))
               ((fun _ _ => 0%nat, fun _ => 0%nat) :: p_grads q) (placed (p_next q) k) (p_loss q) (p_next q + B * k)%nat (p_masks q)
    end.
End Step.

(** Module.update_parameters (module.py:329-346): thresholding unless [threshold] is None, then [param.sub_(grad.mul_(learning_rate))].
    One parameter of r x c elements: instructions, registers of the new values. *)
Definition update_param (threshold : option Z) (rate : Q) (r c : nat) (W g : matrix) (next : nat) : list tinstr * matrix :=
  let N := (r * c)%nat in
  match threshold with
  | Some t => let g' := placed next c in let u := placed (next + N) c in
      (block r c (fun a i => Clip (g a i) t) ++ block r c (fun a i => Plain (IMulQ (g' a i) rate)) ++ block r c (fun a i => Plain (ISub (W a i) (u a i))),
       placed (next + 2 * N) c)
  | None => let u := placed next c in
      (block r c (fun a i => Plain (IMulQ (g a i) rate)) ++ block r c (fun a i => Plain (ISub (W a i) (u a i))), placed (next + N) c)
  end.
Fixpoint update_layers (threshold : option Z) (rate : Q) (ls : list tlayer) (gs : list (matrix * (nat -> nat))) (next : nat) : list tinstr * list tlayer :=
  match ls, gs with
  | Dense o k W b :: r, (dW, db) :: gr =>
      let '(c1, W') := update_param threshold rate o k W dW next in
      let '(c2, b') := update_param threshold rate 1 o (fun _ => b) (fun _ => db) (next + length c1) in
      let '(c3, r') := update_layers threshold rate r gr (next + length c1 + length c2) in
      (c1 ++ c2 ++ c3, Dense o k W' (b' 0%nat) :: r')
  | Act k :: r, _ :: gr => let '(c, r') := update_layers threshold rate r gr next in (c, Act k :: r')
  | _, _ => ([], [])
  end.

(** for every batch: zero_grad, forward, loss, backward, update_parameters; the instructions, the trained layers, the losses *)
Fixpoint train (B m : nat) (one : nat) (threshold : option Z) (rate : Q) (batches : list (matrix * matrix)) (ls : list tlayer) (next masks : nat) : list tinstr * list tlayer * list nat :=
  match batches with
  | [] => ([], ls, [])
  | (X, Y) :: more =>
      let q := layers_pass B m Y one ls X next masks in
      let '(c, ls') := update_layers threshold rate ls (p_grads q) (p_next q) in
      let '(c', out, losses) := train B m one threshold rate more ls' (p_next q + length c) (p_masks q) in
      (p_code q ++ c ++ c', out, p_loss q :: losses)
  end.

(** The autograd tape: CrypTensor.backward and the recording of operations, crypten/cryptensor.py. *)
Require Import List Bool Arith.
Import ListNotations.

Section Tape.
  (** gradient tensors and [add_] on them (out of place: cryptensor.py:402-418); gradients handed to different tensors are different objects here *)
  Context {G : Type}.
  Variable plus : G -> G -> G.

  (** cryptensor.py:185, 198-205: the fields of a tensor.  [local] is [grad_fn.backward(ctx, _)], [non_diff] is [ctx.non_differentiable] (tensor ids),
      [one] the gradient made for tensors of one element. *)
  Record node := mkNode { requires_grad : bool; grad : option G; grad_fn : bool; expected : nat; received : nat; children : list nat;
                          non_diff : list nat; local : G -> list G; one : option G }.
  Definition heap := nat -> node.
  Definition upd (h : heap) (i : nat) (n : node) : heap := fun j => if Nat.eqb j i then n else h j.

  (** _identify_required_grads, cryptensor.py:207-212.  [fuel]: nesting depth; a child is always older than its parent. *)
  Definition expect_more (n : node) : node := mkNode (requires_grad n) (grad n) (grad_fn n) (S (expected n)) (received n) (children n) (non_diff n) (local n) (one n).
  Fixpoint identify (fuel i : nat) (h : heap) : heap :=
    match fuel with
    | O => h
    | S f => let n := expect_more (h i) in
             let h := upd h i n in
             if Nat.eqb (expected n) 1 then fold_left (fun h c => identify f c h) (children n) h else h
    end.

  (** cryptensor.py:238-242 *)
  Definition receive (n : node) (g : G) : node :=
    mkNode (requires_grad n) (Some (match grad n with None => g | Some a => plus a g end)) (grad_fn n) (expected n) (S (received n)) (children n) (non_diff n) (local n) (one n).
  (** cryptensor.py:265-272 *)
  Definition clean (keep : bool) (n : node) : node :=
    mkNode (requires_grad n) (if keep then grad n else None) (grad_fn n) 0 0 [] (non_diff n) (local n) (one n).
  Definition differentiable (n : node) : list nat := filter (fun c => negb (existsb (Nat.eqb c) (non_diff n))) (children n).

  (** backward, cryptensor.py:214-272.  The state is the heap and the list of tensors whose grad_fn was run; [None]: an exception. *)
  Fixpoint backward (fuel i : nat) (grad_input : option G) (top_node : bool) (st : heap * list nat) : option (heap * list nat) :=
    match fuel with
    | O => None
    | S f =>
        let (h, runs) := st in
        if requires_grad (h i) then
          let h := if top_node then identify (S i) i h else h in
          match (match grad_input with Some g => Some g | None => one (h i) end) with
          | None => None
          | Some g =>
              let n := receive (h i) g in
              let h := upd h i n in
              if Nat.eqb (length (children n)) 0 || Nat.ltb (received n) (expected n) then Some (h, runs)
              else if negb (grad_fn n) then None
              else
                let gs := local n (match grad n with Some a => a | None => g end) in
                let dc := differentiable n in
                if Nat.leb (length dc) (length gs) then
                  match fold_left (fun acc e => match acc with Some st => backward f (fst e) (Some (snd e)) false st | None => None end)
                                  (combine dc gs) (Some (h, i :: runs)) with
                  | Some (h, runs) => Some (upd h i (clean (Nat.eqb (length dc) 0) (h i)), runs)
                  | None => None
                  end
                else None
          end
        else Some (h, runs)
    end.

  (** detach_, cryptensor.py:274-277 *)
  Definition detach (i : nat) (h : heap) : heap :=
    upd h i (mkNode false (grad (h i)) (grad_fn (h i)) (expected (h i)) (received (h i)) (children (h i)) (non_diff (h i)) (local (h i)) (one (h i))).

  (** *** Recording: autograd_forward, cryptensor.py:320-363, for programs in single assignment form (tensor [k] is made by instruction [k]).
      An operation with CrypTensor arguments [args] (positions of earlier tensors); of these [non_diff] are marked non-differentiable. *)
  Inductive instr := Input (requires : bool) (one : option G) | Apply (args : list nat) (non_diff : list nat) (local : G -> list G) (one : option G).
  Definition plain (requires : bool) (one : option G) : node := mkNode requires None false 0 0 [] [] (fun _ => []) one.
  Definition record (h : heap) (i : instr) : node :=
    match i with
    | Input r one => plain r one
    | Apply args nd f one => if existsb (fun a => requires_grad (h a)) args then mkNode true None true 0 0 args nd f one else plain false one
    end.
  (** the heap and the number of tensors made so far *)
  Definition perform (st : heap * nat) (i : instr) : heap * nat := (upd (fst st) (snd st) (record (fst st) i), S (snd st)).
  Definition run (p : list instr) : heap * nat := fold_left perform p (fun _ => plain false None, 0).
  Definition heap_of (p : list instr) : heap := fst (run p).
End Tape.
Arguments node : clear implicits. Arguments heap : clear implicits. Arguments instr : clear implicits.

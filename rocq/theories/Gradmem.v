(** Backpropagation with gradients as tensors in memory: CrypTensor.backward, crypten/cryptensor.py, where [self.grad] is a reference, [add_] writes in place,
    and the backward functions of crypten/gradients.py return new tensors or views of the gradient they are given. *)
Require Import List Bool Arith.
From Verif Require Import Autograd.
Import ListNotations.

Section Memory.
  (** the entries of a tensor (the elements of one party's share), their sum and zero *)
  Context {V : Type}.
  Variable vplus : V -> V -> V.
  Variable zero : V.

  (** A tensor is the list of the cells its entries are in (torch: a storage, an offset and strides); tensors that share cells are views of each other. *)
  Definition ref := list nat.
  Definition memory := nat -> V.
  Definition read (m : memory) (r : ref) : list V := map m r.
  Definition set_cell (m : memory) (a : nat) (v : V) : memory := fun b => if Nat.eqb b a then v else m b.
  (** torch's [copy_] between tensors of one size, arithmetic.py:206-209 *)
  Fixpoint write (m : memory) (r : ref) (v : list V) : memory :=
    match r, v with a :: r, x :: v => write (set_cell m a x) r v | _, _ => m end.
  (** a new tensor, in the cells from [n] on *)
  Definition fresh (n : nat) (v : list V) : ref := seq n (length v).

  (** entrywise sum; the missing entries of the shorter list count as zero (it only occurs with lists of one length) *)
  Fixpoint vadd (a b : list V) : list V :=
    match a, b with [], _ => b | _, [] => a | x :: a, y :: b => vplus x y :: vadd a b end.

  (** What a backward function returns for one child: a new tensor, or a view of the given gradient that consists of the entries at these positions.
      gradients.py: views from t (166), transpose (179), permute (193), cat (split, 231), stack (unbind, 244), view (257), reshape (270), flatten (283), squeeze (435-439), unsqueeze (452),
      dropout in evaluation mode (526, 565), sum, mean, min and max of a one-element tensor (1154, 1212, 1320, 1368), pad (narrow, 1434-1441); all others return new tensors
      (add, sub and __rsub__ by [clone], 669-708; clone itself 217). *)
  Inductive piece := New (v : list V) | View (at_ : list nat).
  Definition content (g : list V) (p : piece) : list V := match p with New v => v | View l => map (fun k => nth k g zero) l end.
  (** the values a backward function computes *)
  Definition contents (back : list V -> list piece) (g : list V) : list (list V) := map (content g) (back g).

  (** cryptensor.py:185, 198-205 as in [Autograd.node], with a reference for [grad] *)
  Record tensor := mkT { t_requires : bool; t_grad : option ref; t_fn : bool; t_expected : nat; t_received : nat; t_children : list nat;
                         t_non_diff : list nat; t_back : list V -> list piece; t_one : option (list V) }.
  (** cells, the first unused cell, tensors of the graph *)
  Definition state : Type := memory * nat * (nat -> tensor).
  Definition tput (h : nat -> tensor) (i : nat) (t : tensor) : nat -> tensor := fun j => if Nat.eqb j i then t else h j.

  (** _identify_required_grads, cryptensor.py:207-212 *)
  Definition t_expect (t : tensor) : tensor := mkT (t_requires t) (t_grad t) (t_fn t) (S (t_expected t)) (t_received t) (t_children t) (t_non_diff t) (t_back t) (t_one t).
  Fixpoint t_identify (fuel i : nat) (h : nat -> tensor) : nat -> tensor :=
    match fuel with
    | O => h
    | S f => let t := t_expect (h i) in
             let h := tput h i t in
             if Nat.eqb (t_expected t) 1 then fold_left (fun h c => t_identify f c h) (t_children t) h else h
    end.

  Definition t_store (t : tensor) (r : ref) : tensor := mkT (t_requires t) (Some r) (t_fn t) (t_expected t) (S (t_received t)) (t_children t) (t_non_diff t) (t_back t) (t_one t).
  (** cryptensor.py:235-239: store the reference, or [self.grad.add_(grad_input)]: cryptensor.py:402-411 computes the sum and [copy_]s it into [self.grad].
      [None]: the sizes differ (broadcasting inside [add_] is not modelled) *)
  Definition t_receive (m : memory) (t : tensor) (r : ref) : option (memory * ref) :=
    match t_grad t with
    | None => Some (m, r)
    | Some a => if Nat.eqb (length a) (length r) then Some (write m a (vadd (read m a) (read m r)), a) else None
    end.
  Definition t_clean (keep : bool) (t : tensor) : tensor :=
    mkT (t_requires t) (if keep then t_grad t else None) (t_fn t) 0 0 [] (t_non_diff t) (t_back t) (t_one t).
  Definition t_differentiable (t : tensor) : list nat := filter (fun c => negb (existsb (Nat.eqb c) (t_non_diff t))) (t_children t).

  (** the tensors a backward function returns, given the gradient tensor [a] *)
  Fixpoint place (a : ref) (ps : list piece) (m : memory) (n : nat) : list ref * memory * nat :=
    match ps with
    | [] => ([], m, n)
    | New v :: ps => let '(rs, m', n') := place a ps (write m (fresh n v) v) (n + length v) in (fresh n v :: rs, m', n')
    | View l :: ps => let '(rs, m', n') := place a ps m n in (map (fun k => nth k a 0) l :: rs, m', n')
    end.

  (** backward, cryptensor.py:214-272 *)
  Fixpoint t_backward (fuel i : nat) (grad_input : option ref) (top_node : bool) (s : state) : option state :=
    match fuel with
    | O => None
    | S f =>
        let '(m, n, h) := s in
        if t_requires (h i) then
          let h := if top_node then t_identify (S i) i h else h in
          match (match grad_input with Some r => Some (r, m, n) | None => match t_one (h i) with Some v => Some (fresh n v, write m (fresh n v) v, n + length v) | None => None end end) with
          | None => None
          | Some (r, m, n) =>
              match t_receive m (h i) r with
              | None => None
              | Some (m, a) =>
                  let t := t_store (h i) a in
                  let h := tput h i t in
                  if Nat.eqb (length (t_children t)) 0 || Nat.ltb (t_received t) (t_expected t) then Some (m, n, h)
                  else if negb (t_fn t) then None
                  else
                    let '(rs, m, n) := place a (t_back t (read m a)) m n in
                    let dc := t_differentiable t in
                    if Nat.leb (length dc) (length rs) then
                      match fold_left (fun acc e => match acc with Some s => t_backward f (fst e) (Some (snd e)) false s | None => None end) (combine dc rs) (Some (m, n, h)) with
                      | Some (m, n, h) => Some (m, n, tput h i (t_clean (Nat.eqb (length dc) 0) (h i)))
                      | None => None
                      end
                    else None
              end
          end
        else Some s
    end.

  (** *** Recording, as in [Autograd.record]: autograd_forward, cryptensor.py:320-363 *)
  Inductive step := Leaf (requires : bool) (one : option (list V)) | Call (args : list nat) (non_diff : list nat) (back : list V -> list piece) (one : option (list V)).
  Definition t_plain (requires : bool) (one : option (list V)) : tensor := mkT requires None false 0 0 [] [] (fun _ => []) one.
  Definition t_record (h : nat -> tensor) (i : step) : tensor :=
    match i with
    | Leaf r one => t_plain r one
    | Call args nd f one => if existsb (fun a => t_requires (h a)) args then mkT true None true 0 0 args nd f one else t_plain false one
    end.
  Definition t_run (p : list step) : (nat -> tensor) * nat := fold_left (fun st i => (tput (fst st) (snd st) (t_record (fst st) i), S (snd st))) p (fun _ => t_plain false None, 0).
  Definition tensors_of (p : list step) : nat -> tensor := fst (t_run p).

  (** a call [tensor_t.backward(g)] for each entry, one after the other; [None] as gradient: [tensor_t.backward()] *)
  Fixpoint t_calls (s : state) (l : list (nat * option ref)) : option state :=
    match l with
    | [] => Some s
    | (t, g) :: l => match t_backward (S t) t g true s with Some s => t_calls s l | None => None end
    end.
End Memory.
Arguments piece : clear implicits. Arguments tensor : clear implicits. Arguments step : clear implicits. Arguments state : clear implicits. Arguments memory : clear implicits.

(** Which tensors share memory, and what in-place operations and assignments write to (crypten/cryptensor.py, mpc/mpc.py,
    mpc/primitives/arithmetic.py, common/functions/regular.py): every party holds its shares in torch storages; a tensor is a list of
    positions in one of them and an encoder.
    Simplifications: storages and positions are those of torch's strided tensors, flattened; the positions a view selects (its shape
    and strides) are arguments; an encoder is its scale (its object is never changed after construction by these functions, see C06);
    the source of a copy has the length of its target (torch would broadcast it); positions twice in one tensor come from `expand`
    only (torch does not detect the overlaps made by `unfold`). *)
Require Import ZArith List Bool Arith.
From Verif Require Import Ring64.
Import ListNotations.
Open Scope Z_scope.

Section Views.
  (** the number of parties *)
  Variable n : nat.

  (** an MPCTensor (mpc.py:23-61) with its ArithmeticSharedTensor: the storage of [share], party [p]'s positions in it, and
      [encoder.scale] *)
  Record tensor := { sto : nat; off : nat -> list nat; scale : Z }.
  (** [spread]: bookkeeping, not read by the code: made by a broadcasting addition (see [AddPublic]) *)
  Record storage := { spread : bool; mem : nat -> list Z }.
  Record state := { heap : list storage; vars : list tensor }.
  Definition no_storage : storage := {| spread := false; mem := fun _ => [] |}.
  Definition no_tensor : tensor := {| sto := 0; off := fun _ => []; scale := 1 |}.
  Definition memory (st : state) (i p : nat) : list Z := mem (nth i (heap st) no_storage) p.
  Definition var (st : state) (x : nat) : tensor := nth x (vars st) no_tensor.

  (** [t.share] of party [p] *)
  Definition share (st : state) (t : tensor) (p : nat) : list Z := map (fun o => nth o (memory st (sto t) p) 0) (off t p).
  Definition size (t : tensor) : nat := length (off t 0%nat).
  (** arithmetic.py:298-302 [reveal]: the sum of the parties' shares *)
  Definition reveal (sh : nat -> list Z) : list Z :=
    map (fun k => wrap (zsum (map (fun p => nth k (sh p) 0) (seq 0 n)))) (seq 0 (length (sh 0%nat))).

  (** An out-of-place operation: from the shares and scales of its operands to those of its result (add, mul, gt, ...). *)
  Definition operation := list ((nat -> list Z) * Z) -> (nat -> list Z) * Z.

  Inductive stmt :=
  | Encrypt (sh : nat -> list Z) (s : Z)       (** [crypten.cryptensor(...)]; the shares it makes (C01) *)
  | View (x : nat) (idx : list nat)            (** [x.view(..)], [x[..]], [x.t()], [x.expand(..)], ...: the elements at [idx] *)
  | Clone (x : nat)                            (** [x.clone()], [x.detach()] *)
  | Op (o : operation) (args : list nat)       (** [x.add(y)], [x.gt(y)], ... *)
  | AddPublic (x : nat) (idx : list nat) (ys : list Z)   (** [x.add(y)], y public and encoded as [ys]; [idx]: how x is broadcast *)
  | InPlace (x : nat) (o : operation) (args : list nat)  (** [x.add_(y)], [x += y], ...; [args] is [x] and [y] *)
  | SetItem (x : nat) (idx : list nat) (y : nat).        (** [x[..] = y] *)

  (** [Raised f]: a RuntimeError at the parties [f] marks; the others go on *)
  Inductive outcome := Done (st : state) | Raised (who : nat -> bool).

  Definition alloc (st : state) (f : bool) (m : nat -> list Z) (o : nat -> list nat) (s : Z) : state :=
    {| heap := heap st ++ [{| spread := f; mem := m |}]; vars := vars st ++ [{| sto := length (heap st); off := o; scale := s |}] |}.
  (** a tensor with a storage of its own *)
  Definition fresh (st : state) (sh : nat -> list Z) (s : Z) : state := alloc st false sh (fun p => seq 0 (length (sh p))) s.

  Fixpoint setn {A} (l : list A) (k : nat) (v : A) : list A :=
    match l, k with [], _ => [] | _ :: r, O => v :: r | a :: r, S k => a :: setn r k v end.
  (** torch's [copy_] into the elements at the given positions *)
  Definition write {A} (l : list A) (os : list nat) (vs : list A) : list A :=
    fold_left (fun l ov => setn l (fst ov) (snd ov)) (combine os vs) l.
  Fixpoint nodupb (l : list nat) : bool := match l with [] => true | a :: r => negb (existsb (Nat.eqb a) r) && nodupb r end.
  Definition inside (l : list nat) (k : nat) : bool := forallb (fun i => Nat.ltb i k) l.

  Definition put_memory (st : state) (i : nat) (f : nat -> list Z) : list storage :=
    setn (heap st) i {| spread := spread (nth i (heap st) no_storage); mem := f |}.

  (** One call.
      - View: regular.py:285-297 [_add_regular_function], a shallow copy of the wrapper (mpc.py:86-92, arithmetic.py:193-198) around
        torch's view; the encoder is the same object.
      - Clone: arithmetic.py:200-204; cryptensor.py:277-281.
      - AddPublic: arithmetic.py:355-366 on a clone (353): party 0 adds, which makes a new contiguous tensor; every other party takes
        [torch.broadcast_tensors(result.share, y)[0]], an expanded view of the clone.
      - InPlace: cryptensor.py:396-414 [oop_and_copy], then mpc.py:84-88 and arithmetic.py:206-209 [copy_]: [self.share.copy_] writes
        to the storage, and raises at a party where two elements of the target lie at the same position; the encoder of this tensor
        (only) becomes the result's.
      - SetItem: regular.py:57-64 and arithmetic.py:222-229: the shares of [y] are written as they are; a value that is not a CrypTensor
        is encrypted first (with the default precision), which is an [Encrypt] before. *)
  Definition step (st : state) (s : stmt) : outcome :=
    let known x := Nat.ltb x (length (vars st)) in
    let everybody := Raised (fun _ => true) in
    match s with
    | Encrypt sh s => Done (fresh st sh s)
    | View x idx =>
      let t := var st x in
      if known x && inside idx (size t) then
        Done {| heap := heap st;
                vars := vars st ++ [{| sto := sto t; off := fun p => map (fun i => nth i (off t p) 0%nat) idx; scale := scale t |}] |}
      else everybody
    | Clone x => if known x then Done (fresh st (share st (var st x)) (scale (var st x))) else everybody
    | Op o args =>
      if forallb known args then
        let r := o (map (fun x => (share st (var st x), scale (var st x))) args) in Done (fresh st (fst r) (snd r))
      else everybody
    | AddPublic x idx ys =>
      let t := var st x in
      if known x && inside idx (size t) && Nat.eqb (length idx) (length ys) then
        let sh := share st t in
        Done (alloc st (if list_eq_dec Nat.eq_dec idx (seq 0 (size t)) then false else true)
                (fun p => match p with O => map (fun iy => wadd (nth (fst iy) (sh p) 0) (snd iy)) (combine idx ys) | _ => sh p end)
                (fun p => match p with O => seq 0 (length ys) | _ => idx end) (scale t))
      else everybody
    | InPlace x o args =>
      if known x && forallb known args then
        let t := var st x in
        let r := o (map (fun y => (share st (var st y), scale (var st y))) args) in
        if Nat.eqb (length (fst r 0%nat)) (size t) then
          if forallb (fun p => nodupb (off t p)) (seq 0 n) then
            Done {| heap := put_memory st (sto t) (fun p => write (memory st (sto t) p) (off t p) (fst r p));
                    vars := setn (vars st) x {| sto := sto t; off := off t; scale := snd r |} |}
          else Raised (fun p => negb (nodupb (off t p)))
        else everybody
      else everybody
    | SetItem x idx y =>
      let t := var st x in let u := var st y in
      if known x && known y && inside idx (size t) && Nat.eqb (length idx) (size u) then
        let target p := map (fun i => nth i (off t p) 0%nat) idx in
        if forallb (fun p => nodupb (target p)) (seq 0 n) then
          Done {| heap := put_memory st (sto t) (fun p => write (memory st (sto t) p) (target p) (share st u p)); vars := vars st |}
        else Raised (fun p => negb (nodupb (target p)))
      else everybody
    end.

  Fixpoint run (st : state) (prog : list stmt) : outcome :=
    match prog with
    | [] => Done st
    | s :: r => match step st s with Done st' => run st' r | Raised w => Raised w end
    end.
  Definition start : state := {| heap := []; vars := [] |}.
End Views.

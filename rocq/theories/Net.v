(** Parties that communicate through torch.distributed: crypten/communicator/distributed_communicator.py:107-324.
    A party is a program whose steps are the calls of torch.distributed; a network of parties runs under an arbitrary schedule.
    Of PyTorch's gloo backend the following is assumed: messages between two parties arrive whole and in the order sent; a receive waits for a message and takes it if it has the type and number of elements of the buffer;
    a collective waits until all parties of the group have entered one, and happens if they agree on the kind, root, type and number of elements.  What gloo does when they do not agree (it may raise, hang or close connections) is not modelled: the parties stay where they are.
    A send does not wait for the receiver.  Only the group of all parties is modelled (no trusted third party), and only integer data for reductions. *)
Require Import List ZArith Bool Arith.
From Verif Require Import Ring64.
Import ListNotations.

(** data on the wire: type and elements of a tensor *)
Inductive dtype := Long | Int32 | Int8 | Float.
Record msg := mkMsg { kind : dtype; elems : list Z }.
Definition same_dtype (a b : dtype) : bool := match a, b with Long, Long | Int32, Int32 | Int8, Int8 | Float, Float => true | _, _ => false end.
Definition fits (a b : msg) : bool := same_dtype (kind a) (kind b) && (length (elems a) =? length (elems b))%nat.
(** torch.distributed.ReduceOp *)
Inductive op := SUM | PRODUCT | MIN | MAX | BAND | BOR | BXOR.
Definition apply_op (o : op) : Z -> Z -> Z := match o with SUM => wadd | PRODUCT => wmul | MIN => Z.min | MAX => Z.max | BAND => Z.land | BOR => Z.lor | BXOR => Z.lxor end.
(** the collectives of torch.distributed, with what a party passes: for a scatter its buffer and, at the source, the list *)
Inductive call :=
| Broadcast (src : nat) (m : msg)
| Reduce (dst : nat) (o : op) (m : msg)
| AllReduce (o : op) (m : msg)
| Gather (dst : nat) (m : msg)
| AllGather (m : msg)
| Scatter (src : nat) (buffer : msg) (list : list msg)
| Barrier.
(** what a collective hands to a party *)
Inductive reply := Nothing | Data (m : msg) | Many (ms : list msg).

(** A party that has run to its end holds a result in [A].  [Act]: an effect on something the parties share outside the network (files, the terminal), with an answer. *)
Inductive prog {W V A : Type} :=
| Done (r : A)
| Send (dst : nat) (m : msg) (k : prog)
| Recv (src : nat) (buffer : msg) (k : msg -> prog)
| Call (c : call) (k : reply -> prog)
| Act (f : W -> W * V) (k : V -> prog).
Arguments prog : clear implicits.

Fixpoint set_nth {A} (i : nat) (a : A) (l : list A) : list A :=
  match l, i with [], _ => [] | _ :: l, O => a :: l | b :: l, S i => b :: set_nth i a l end.

(** *** Collectives *)
Definition same_op (a b : op) : bool := match a, b with SUM, SUM | PRODUCT, PRODUCT | MIN, MIN | MAX, MAX | BAND, BAND | BOR, BOR | BXOR, BXOR => true | _, _ => false end.
Definition matches (a b : call) : bool :=
  match a, b with
  | Broadcast s m, Broadcast s' m' => (s =? s')%nat && fits m m'
  | Reduce d o m, Reduce d' o' m' => (d =? d')%nat && same_op o o' && fits m m'
  | AllReduce o m, AllReduce o' m' => same_op o o' && fits m m'
  | Gather d m, Gather d' m' => (d =? d')%nat && fits m m'
  | AllGather m, AllGather m' => fits m m'
  | Scatter s b _, Scatter s' b' _ => (s =? s')%nat && fits b b'
  | Barrier, Barrier => true
  | _, _ => false
  end.
Definition contribution (c : call) : msg := match c with Broadcast _ m | Reduce _ _ m | AllReduce _ m | Gather _ m | AllGather m | Scatter _ m _ => m | Barrier => mkMsg Long [] end.
Definition list_of (c : call) : list msg := match c with Scatter _ _ l => l | _ => [] end.
(** the root is a party; the source of a scatter has one tensor per party, of the size of the buffers *)
Definition complete (cs : list call) : bool :=
  match cs with
  | (Broadcast r _ | Reduce r _ _ | Gather r _) :: _ => (r <? length cs)%nat
  | Scatter r b _ :: _ => (r <? length cs)%nat && (length (list_of (nth r cs Barrier)) =? length cs)%nat && forallb (fits b) (list_of (nth r cs Barrier))
  | _ => true
  end.
Definition compatible (cs : list call) : bool := match cs with [] => false | c :: rest => forallb (matches c) rest && complete cs end.
(** the reduction over the parties, in rank order *)
Definition reduction (o : op) (ms : list msg) : msg := match ms with [] => mkMsg Long [] | m :: rest => mkMsg (kind m) (fold_left (zipw (apply_op o)) (map elems rest) (elems m)) end.
(** what party [p] gets, for a collective in which party [i] passed the [i]-th of [cs] *)
Definition answer (cs : list call) (p : nat) : reply :=
  let ms := map contribution cs in
  match nth p cs Barrier with
  | Broadcast src _ => Data (nth src ms (mkMsg Long []))
  | Reduce dst o _ => if (p =? dst)%nat then Data (reduction o ms) else Nothing
  | AllReduce o _ => Data (reduction o ms)
  | Gather dst _ => if (p =? dst)%nat then Many ms else Nothing
  | AllGather _ => Many ms
  | Scatter src _ _ => Data (nth p (list_of (nth src cs Barrier)) (mkMsg Long []))
  | Barrier => Nothing
  end.

(** *** The network *)
Section Network.
  Context {W V A : Type}.
  Notation prog := (prog W V A).
  (** the programs of the parties; the messages on their way from party i to party j, at position i * (number of parties) + j; the shared world *)
  Record state := mkState { procs : list prog; chans : list (list msg); world : W }.
  Definition initial (ps : list prog) (w : W) : state := mkState ps (repeat [] (length ps * length ps)) w.
  (** the calls of all parties, if all are in a collective *)
  Fixpoint calls (ps : list prog) : option (list (call * (reply -> prog))) :=
    match ps with
    | [] => Some []
    | Call c k :: ps => match calls ps with Some l => Some ((c, k) :: l) | None => None end
    | _ => None
    end.
  (** One step: of party [p], or ([None]) of all parties together.  The result is [None] if the step is not possible. *)
  Definition move (l : option nat) (s : state) : option state :=
    let n := length (procs s) in
    match l with
    | Some p =>
        match nth_error (procs s) p with
        | Some (Send d m k) => if ((d <? n) && negb (d =? p))%nat then Some (mkState (set_nth p k (procs s)) (set_nth (p * n + d) (nth (p * n + d) (chans s) [] ++ [m]) (chans s)) (world s)) else None
        | Some (Recv src b k) =>
            if (src <? n)%nat then
              match nth (src * n + p) (chans s) [] with
              | m :: rest => if fits b m then Some (mkState (set_nth p (k m) (procs s)) (set_nth (src * n + p) rest (chans s)) (world s)) else None
              | [] => None
              end
            else None
        | Some (Act f k) => let '(w, v) := f (world s) in Some (mkState (set_nth p (k v) (procs s)) (chans s) w)
        | _ => None
        end
    | None =>
        match calls (procs s) with
        | Some cks => if compatible (map fst cks) then Some (mkState (map (fun pk => snd (snd pk) (answer (map fst cks) (fst pk))) (combine (seq 0 (length cks)) cks)) (chans s) (world s)) else None
        | None => None
        end
    end.
  (** a schedule: who moves, in order *)
  Fixpoint run (ls : list (option nat)) (s : state) : option state := match ls with [] => Some s | l :: ls => match move l s with Some s => run ls s | None => None end end.
End Network.
Arguments state : clear implicits.

(** *** The functions of the communicator, 107-324, in continuation-passing style; [n]: world size, [p]: the calling party *)
Section Api.
  Context {W V A : Type}.
  Notation prog := (prog W V A).
  Inductive error := TypeMismatch | SizeOverflow | NoObject | Unpicklable | Unexpected.
  (** what the functions return *)
  Inductive value := VNone | VTensor (m : msg) | VList (ms : list msg) | VNones.
  (** the wrapper _logging (communicator.py:167-172): with a single party most functions return their first argument.  Not modelled: an empty argument list, as with keyword arguments only. *)
  Definition alone (n : nat) (first : value) (k : value -> prog) (p : prog) : prog := if (n <? 2)%nat then k first else p.
  Definition data (k : value -> prog) (r : reply) : prog := match r with Data m => k (VTensor m) | Many ms => k (VList ms) | Nothing => k VNone end.
  (** 107-118; the result of recv is a copy of the tensor with the data received *)
  Definition send (n : nat) (m : msg) (dst : nat) (k : value -> prog) : prog := alone n (VTensor m) k (Send dst m (k VNone)).
  Definition recv (n : nat) (b : msg) (src : nat) (k : value -> prog) : prog := alone n (VTensor b) k (Recv src b (fun m => k (VTensor m))).
  (** 133-152: others than the source pass [size] and get an int64 tensor *)
  Definition scatter (n p : nat) (l : list msg) (src size : nat) (k : value -> prog) : prog :=
    alone n (VList l) k (if (p =? src)%nat then Call (Scatter src (nth p l (mkMsg Long [])) l) (data k) else Call (Scatter src (mkMsg Long (repeat 0%Z size)) []) (data k)).
  (** 154-179 and 181-203, not batched *)
  Definition reduce (n : nat) (m : msg) (dst : nat) (o : op) (k : value -> prog) : prog := alone n (VTensor m) k (Call (Reduce dst o m) (data k)).
  Definition all_reduce (n : nat) (m : msg) (o : op) (k : value -> prog) : prog := alone n (VTensor m) k (Call (AllReduce o m) (data k)).
  (** 205-233: the buffers are int64; PyTorch raises if the tensor is of another type *)
  Definition gather (n p : nat) (m : msg) (dst : nat) (k : error + value -> prog) : prog :=
    alone n (VList [m]) (fun v => k (inr v)) (if ((p =? dst)%nat && negb (same_dtype (kind m) Long)) then k (inl TypeMismatch) else Call (Gather dst m) (fun r => match r with Many ms => k (inr (VList ms)) | _ => k (inr VNones) end)).
  Definition all_gather (n : nat) (m : msg) (k : error + value -> prog) : prog :=
    alone n (VList [m]) (fun v => k (inr v)) (if negb (same_dtype (kind m) Long) then k (inl TypeMismatch) else Call (AllGather m) (fun r => data (fun v => k (inr v)) r)).
  (** 235-256, not batched; 258-266 (the wrapper passes a barrier on, as it has no arguments) *)
  Definition broadcast (n : nat) (m : msg) (src : nat) (k : value -> prog) : prog := alone n (VTensor m) k (Call (Broadcast src m) (data k)).
  Definition barrier (k : prog) : prog := Call Barrier (fun _ => k).
  (** batched, 158-170, 185-197, 239-248: one operation per tensor, all started before the first is waited for; here one after the other *)
  Fixpoint all_reduce_batched (ms : list msg) (o : op) (k : list value -> prog) : prog :=
    match ms with [] => k [] | m :: ms => Call (AllReduce o m) (data (fun v => all_reduce_batched ms o (fun vs => k (v :: vs)))) end.

  (** *** Objects, 268-324.  [dumps] is pickle.dumps, [loads] is serial.restricted_loads, as functions to and from lists of bytes (0 to 255) *)
  Context {O : Type}.
  (** numpy.frombuffer(buf, dtype=int8) and data.numpy().tobytes() *)
  Definition to_int8 (b : Z) : Z := (if b <? 128 then b else b - 256)%Z.
  Definition of_int8 (z : Z) : Z := (z mod 256)%Z.
  (** torch.tensor(len(buf), dtype=torch.int32) raises if the length is not below 2^31 *)
  Definition framed (dumps : O -> list Z) (o : O) : error + (msg * msg) :=
    let buf := dumps o in if (Z.of_nat (length buf) <? 2 ^ 31)%Z then inr (mkMsg Int32 [Z.of_nat (length buf)], mkMsg Int8 (map to_int8 buf)) else inl SizeOverflow.
  Definition unframed (loads : list Z -> error + O) (m : msg) : error + O := loads (map of_int8 (elems m)).
  Definition empty_bytes (size : msg) : msg := mkMsg Int8 (repeat 0%Z (Z.to_nat (hd 0%Z (elems size)))).
  Definition send_obj (dumps : O -> list Z) (o : O) (dst : nat) (k : error + unit -> prog) : prog :=
    match framed dumps o with inl e => k (inl e) | inr (size, arr) => Send dst size (Send dst arr (k (inr tt))) end.
  Definition recv_obj (loads : list Z -> error + O) (src : nat) (k : error + O -> prog) : prog :=
    Recv src (mkMsg Int32 [1%Z]) (fun size => Recv src (empty_bytes size) (fun d => k (unframed loads d))).
  (** 303-324; None: the object None *)
  Definition broadcast_obj (dumps : O -> list Z) (loads : list Z -> error + O) (n p : nat) (o : option O) (src : nat) (k : error + option O -> prog) : prog :=
    if (n <? 2)%nat then k (inr o) else
    if (p =? src)%nat then
      match o with
      | None => k (inl NoObject)
      | Some v => match framed dumps v with
                  | inl e => k (inl e)
                  | inr (size, arr) => Call (Broadcast src size) (fun _ => Call (Broadcast src arr) (fun _ => k (inr o)))
                  end
      end
    else Call (Broadcast src (mkMsg Int32 [1%Z])) (fun r => match r with
      | Data size => Call (Broadcast src (empty_bytes size)) (fun r => match r with Data d => k (match unframed loads d with inl e => inl e | inr v => inr (Some v) end) | _ => k (inl Unexpected) end)
      | _ => k (inl Unexpected)
      end).
End Api.

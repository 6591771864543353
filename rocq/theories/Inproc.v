(** Collectives of the in-process communicator, crypten/communicator/in_process_communicator.py, under every interleaving of the threads. *)
Require Import List Arith Bool.
Import ListNotations.

Section Inproc.
  (** tensors *)
  Variable V : Type.
  (** number of parties; each is a thread *)
  Variable n : nat.
  (** Does [broadcast] wait at the barrier?  The code does not ("No need for a barrier here", line 192). *)
  Variable bcast_barrier : bool.

  (** queue items: [(self.rank, tensor)] or a bare tensor *)
  Inductive msg := Tagged (r : nat) (v : V) | Plain (v : V).

  (** One collective, with what every party passes to it: [xs] in rank order for all_gather and gather, the list of the source for scatter. *)
  Inductive coll := AllGather (xs : list V) | Gather (dst : nat) (xs : list V) | Scatter (src : nat) (xs : list V) | Broadcast (src : nat) (x : V).
  (** what a call returns; [Broken]: unpacking or sorting the items raises *)
  Inductive result := RList (xs : list V) | RItem (m : msg) | RNone | Broken.

  (** The queue operations of party [i] in a collective. First the puts, in order, with the mailbox they go to:
      all_gather 171-172, gather 158, scatter 116-118, broadcast 188-190. *)
  Definition puts (o : coll) (i : nat) : list (nat * msg) :=
    match o with
    | AllGather xs => match nth_error xs i with Some v => map (fun d => (d, Tagged i v)) (seq 0 n) | None => [] end
    | Gather dst xs => match nth_error xs i with Some v => [(dst, Tagged i v)] | None => [] end
    | Scatter src xs => if Nat.eqb i src then map (fun p => (fst p, Plain (snd p))) (combine (seq 0 n) xs) else []
    | Broadcast src x => if Nat.eqb i src then map (fun d => (d, Plain x)) (seq 0 n) else []
    end.
  (** then [self.barrier.wait()]: all_gather 174, gather 160, scatter 120 *)
  Definition waits (o : coll) : bool := match o with Broadcast _ _ => bcast_barrier | _ => true end.
  (** then the gets from its own mailbox: all_gather 176-179, gather 162-164, scatter 122, broadcast 194 *)
  Definition gets (o : coll) (i : nat) : nat :=
    match o with AllGather _ => n | Gather dst _ => if Nat.eqb i dst then n else 0 | Scatter _ _ | Broadcast _ _ => 1 end.

  (** [sorted(..., key=itemgetter(0))]: stable sort by rank *)
  Fixpoint insert (r : nat) (v : V) (l : list (nat * V)) : list (nat * V) :=
    match l with [] => [(r, v)] | (q, w) :: l' => if r <=? q then (r, v) :: l else (q, w) :: insert r v l' end.
  Fixpoint untag (ms : list msg) : option (list (nat * V)) :=
    match ms with
    | [] => Some []
    | Tagged r v :: ms => option_map (insert r v) (untag ms)
    | Plain _ :: _ => None
    end.
  Definition in_rank_order (ms : list msg) : result := match untag ms with Some l => RList (map snd l) | None => Broken end.
  Definition returns (o : coll) (i : nat) (ms : list msg) : result :=
    match o with
    | AllGather _ => in_rank_order ms
    | Gather dst _ => if Nat.eqb i dst then in_rank_order ms else RNone
    | Scatter _ _ | Broadcast _ _ => match ms with [m] => RItem m | _ => Broken end
    end.

  (** A thread: the collectives it still has to do (the first may be under way), where it is in it, and what the earlier ones returned. *)
  Inductive phase := Puts (ps : list (nat * msg)) | Wait | Gets (got : list msg).
  Record thread := mkT { todo : list coll; ph : phase; rets : list result }.
  (** A thread with [todo] ahead of it. *)
  Definition begin (p : list coll) (i : nat) (rs : list result) : thread :=
    mkT p (Puts (match p with [] => [] | o :: _ => puts o i end)) rs.

  Record world := mkW { th : nat -> thread; mb : nat -> list msg }.
  Definition upd {A} (f : nat -> A) (i : nat) (a : A) : nat -> A := fun j => if Nat.eqb j i then a else f j.

  (** One atomic action of one thread; the opening of the barrier is one action of all of them (threading.Barrier: nobody passes before
      the last one has arrived). *)
  Inductive step : world -> world -> Prop :=
  | s_put w i d m ps p rs : i < n -> th w i = mkT p (Puts ((d, m) :: ps)) rs ->
      step w (mkW (upd (th w) i (mkT p (Puts ps) rs)) (upd (mb w) d (mb w d ++ [m])))
  | s_arrive w i o p rs : i < n -> th w i = mkT (o :: p) (Puts []) rs ->
      step w (mkW (upd (th w) i (mkT (o :: p) (if waits o then Wait else Gets []) rs)) (mb w))
  | s_open w : (forall i, i < n -> ph (th w i) = Wait) ->
      step w (mkW (fun i => mkT (todo (th w i)) (Gets []) (rets (th w i))) (mb w))
  | s_get w i o p got rs m q : i < n -> th w i = mkT (o :: p) (Gets got) rs -> length got < gets o i -> mb w i = m :: q ->
      step w (mkW (upd (th w) i (mkT (o :: p) (Gets (got ++ [m])) rs)) (upd (mb w) i q))
  | s_return w i o p got rs : i < n -> th w i = mkT (o :: p) (Gets got) rs -> length got = gets o i ->
      step w (mkW (upd (th w) i (begin p i (rs ++ [returns o i got]))) (mb w)).

  Definition initial (p : list coll) : world := mkW (fun i => begin p i []) (fun _ => []).
  Inductive reach (p : list coll) : world -> Prop :=
  | r_init : reach p (initial p)
  | r_step w w' : reach p w -> step w w' -> reach p w'.
End Inproc.
Arguments Tagged {_}. Arguments Plain {_}. Arguments AllGather {_}. Arguments Gather {_}. Arguments Scatter {_}. Arguments Broadcast {_}.
Arguments RList {_}. Arguments RItem {_}. Arguments RNone {_}. Arguments Broken {_}.
Arguments th {_}. Arguments mb {_}. Arguments todo {_}. Arguments ph {_}. Arguments rets {_}. Arguments Puts {_}. Arguments Wait {_}. Arguments Gets {_}.
Arguments mkT {_}. Arguments mkW {_}.

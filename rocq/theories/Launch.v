(** run_multiprocess, crypten/mpc/context.py:19-115: the processes, the queue of results and the parent. *)
Require Import List Arith Bool.
Import ListNotations.

Section Launch.
  Context {V : Type}.
  (** What a process does (_launch, context.py:19-34): it fails (non-zero exit code), or it returns a value that is put into the queue.  [size]: bytes of the pickled (rank, value); [None]: the value cannot be pickled
      (multiprocessing.Queue then drops it in its feeder thread with a traceback on stderr; the exit code is still 0). *)
  Inductive outcome := Fails | Returns (v : V) (size : option nat).
  (** context.py:50-78: one process per rank and, with a trusted third party, a server process of rank [world_size] *)
  Definition processes (parties : list outcome) (server : option outcome) : list outcome := parties ++ match server with Some s => [s] | None => [] end.

  (** A process: running; its feeder thread writing a message of which [left] bytes are missing; exited. *)
  Inductive phase := Running | Writing (left : nat) | Exited (code : nat).
  (** [used]: bytes in the pipe; [puts]: put() calls so far (the parent calls get() only after joining); [lock]: who is writing a message; [sent]: complete messages in the pipe *)
  Record world := mkWorld { phases : list phase; used : nat; puts : nat; lock : option nat; sent : list (nat * V) }.
  Definition start (ps : list outcome) : world := mkWorld (repeat Running (length ps)) 0 0 None [].
  Fixpoint set_nth {A} (i : nat) (a : A) (l : list A) : list A :=
    match l, i with [], _ => [] | _ :: l, O => a :: l | b :: l, S i => b :: set_nth i a l end.

  (** [maxsize]: bound of multiprocessing.Queue ([None]: no bound); [capacity]: bytes the pipe holds *)
  Variables (maxsize : option nat) (capacity : nat) (ps : list outcome).
  Definition room (w : world) : Prop := match maxsize with None => True | Some m => puts w < m end.
  Inductive step : world -> world -> Prop :=
  | StFail w i : nth_error (phases w) i = Some Running -> nth_error ps i = Some Fails ->
      step w (mkWorld (set_nth i (Exited 1) (phases w)) (used w) (puts w) (lock w) (sent w))
  | StDrop w i v : nth_error (phases w) i = Some Running -> nth_error ps i = Some (Returns v None) -> room w ->
      step w (mkWorld (set_nth i (Exited 0) (phases w)) (used w) (S (puts w)) (lock w) (sent w))
  | StPut w i v size : nth_error (phases w) i = Some Running -> nth_error ps i = Some (Returns v (Some size)) -> room w ->
      step w (mkWorld (set_nth i (Writing size) (phases w)) (used w) (S (puts w)) (lock w) (sent w))
      (* some bytes; the pipe blocks when full *)
  | StWrite w i left k : nth_error (phases w) i = Some (Writing left) -> (lock w = None \/ lock w = Some i) -> 0 < k < left -> used w + k <= capacity ->
      step w (mkWorld (set_nth i (Writing (left - k)) (phases w)) (used w + k) (puts w) (Some i) (sent w))
      (* the last bytes: the message is complete, the feeder thread ends and the process exits *)
  | StFlush w i left v size : nth_error (phases w) i = Some (Writing left) -> nth_error ps i = Some (Returns v size) -> (lock w = None \/ lock w = Some i) -> used w + left <= capacity ->
      step w (mkWorld (set_nth i (Exited 0) (phases w)) (used w + left) (puts w) None (sent w ++ [(i, v)])).
  Inductive reachable : world -> Prop :=
  | RStart : reachable (start ps)
  | RStep w w' : reachable w -> step w w' -> reachable w'.

  (** the parent, context.py:91-111: joins all processes, then checks the exit codes, empties the queue and sorts by rank *)
  Definition joined (w : world) : Prop := Forall (fun p => match p with Exited _ => True | _ => False end) (phases w).
  Fixpoint insert (m : nat * V) (l : list (nat * V)) : list (nat * V) :=
    match l with [] => [m] | x :: r => if Nat.leb (fst m) (fst x) then m :: l else x :: insert m r end.
  Definition sort_rank (l : list (nat * V)) : list (nat * V) := fold_right insert [] l.
  Definition result (w : world) : option (list V) :=
    if forallb (fun p => match p with Exited c => Nat.eqb c 0 | _ => false end) (phases w) then Some (map snd (sort_rank (sent w))) else None.
End Launch.
Arguments outcome : clear implicits. Arguments world : clear implicits.

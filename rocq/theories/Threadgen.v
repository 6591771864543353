(** Parties that run as threads of one process: crypten.init_thread, crypten/__init__.py:82-84, on the in-process communicator.
    The dictionary of random generators is a global variable of the module (__init__.py:35-41), so the threads share it. *)
Require Import ZArith List Arith Bool.
From Verif Require Import Ring64 Sharing.
Import ListNotations.
Local Open Scope nat_scope.

(** the keys of [generators], __init__.py:35-41, one device *)
Inductive key := Prev | Next | Local_ | Global_.
Definition key_eqb (a b : key) : bool :=
  match a, b with Prev, Prev | Next, Next | Local_, Local_ | Global_, Global_ => true | _, _ => false end.

(** what is put into a mailbox: [send] puts a pair of the rank and a tensor, [broadcast] a tensor (in_process_communicator.py:67-69, 183-194) *)
Inductive message := Tagged (rank : nat) (z : Z) | Plain (z : Z).

(** What a thread does, each step at once (in an order of steps that any scheduler may choose):
    - [ANew]: [generators[key][device] = torch.Generator()], __init__.py:189-192
    - [ASend]: [isend(next_seed, dst)], __init__.py:242
    - [AWait]: [irecv(prev_seed, src)] and [wait], __init__.py:243-246, in_process_communicator.py:91-109; an empty mailbox blocks
    - [ABroadcast], [AGet]: the two parts of [broadcast(global_seed, 0)], __init__.py:254, in_process_communicator.py:183-194
    - [ASeed]: [generators[key][device].manual_seed(...)], __init__.py:261-265
    - [ADraw]: a draw of [size] elements from [generators[key][device]] (rng.py; torch's generators are locked during a draw).
      The code looks the generator up before (arithmetic.py:173-174), which is the same unless another thread is still initialising. *)
Inductive action := ANew (k : key) | ASend (dst : nat) | AWait (src : nat) | ABroadcast | AGet | ASeed (k : key) | ADraw (k : key) (size : nat).

Section Threads.
  (** torch.Generator, as in [Sharing]; [unseeded]: a new generator *)
  Variable gstate : Type.
  Variable unseeded : gstate.
  Variable seeded : Z -> gstate.
  Variable draw : gstate -> nat -> list Z * gstate.
  (** the seeds the threads choose: [next_seed], [local_seed], [global_seed], __init__.py:209-218 *)
  Variable next_seed local_seed global_seed : nat -> Z.

  (** [failed]: an exception ended the thread *)
  Record thread := mkThread { todo : list action; got_prev : Z; got_global : Z; drawn : list (key * list Z); failed : bool }.
  Record process := mkProcess { objects : nat -> gstate; made : nat; table : key -> nat; mailbox : nat -> list message; threads : list thread }.

  Definition put_object (p : process) (o : nat) (g : gstate) : nat -> gstate := fun x => if Nat.eqb x o then g else objects p x.
  Definition put_mail (p : process) (dst : nat) (m : message) : nat -> list message := fun x => if Nat.eqb x dst then mailbox p x ++ [m] else mailbox p x.
  Fixpoint set_nth {A} (i : nat) (a : A) (l : list A) : list A :=
    match l, i with [], _ => [] | _ :: l, O => a :: l | b :: l, S i => b :: set_nth i a l end.
  Definition my_seed (i : nat) (t : thread) (k : key) : Z := match k with Prev => got_prev t | Next => next_seed i | Local_ => local_seed i | Global_ => got_global t end.
  Definition crash (t : thread) : thread := mkThread [] (got_prev t) (got_global t) (drawn t) true.

  (** one step of thread [i]; a finished or blocked thread does nothing *)
  Definition advance (p : process) (i : nat) : process :=
    match nth_error (threads p) i with
    | None => p
    | Some t =>
        match todo t with
        | [] => p
        | a :: rest =>
            let on := fun t' => set_nth i t' (threads p) in
            let t1 := mkThread rest (got_prev t) (got_global t) (drawn t) (failed t) in
            match a with
            | ANew k => mkProcess (put_object p (made p) unseeded) (S (made p)) (fun k' => if key_eqb k' k then made p else table p k') (mailbox p) (on t1)
            | ASend dst => mkProcess (objects p) (made p) (table p) (put_mail p dst (Tagged i (next_seed i))) (on t1)
            | AWait src =>
                match mailbox p i with
                | [] => p
                | m :: ms => let mb := fun x => if Nat.eqb x i then ms else mailbox p x in
                    match m with
                    | Tagged r z => if Nat.eqb r src then mkProcess (objects p) (made p) (table p) mb (on (mkThread rest z (got_global t) (drawn t) (failed t)))
                                    else mkProcess (objects p) (made p) (table p) mb (on (crash t))
                    | Plain _ => mkProcess (objects p) (made p) (table p) mb (on (crash t))
                    end
                end
            | ABroadcast => mkProcess (objects p) (made p) (table p) (fun x => if Nat.ltb x (length (threads p)) then mailbox p x ++ [Plain (global_seed i)] else mailbox p x) (on t1)
            | AGet =>
                match mailbox p i with
                | [] => p
                | m :: ms => let mb := fun x => if Nat.eqb x i then ms else mailbox p x in
                    match m with
                    | Plain z => mkProcess (objects p) (made p) (table p) mb (on (mkThread rest (got_prev t) z (drawn t) (failed t)))
                    | Tagged _ _ => mkProcess (objects p) (made p) (table p) mb (on (crash t))
                    end
                end
            | ASeed k => mkProcess (put_object p (table p k) (seeded (my_seed i t k))) (made p) (table p) (mailbox p) (on t1)
            | ADraw k size => let (v, g) := draw (objects p (table p k)) size in
                mkProcess (put_object p (table p k) g) (made p) (table p) (mailbox p) (on (mkThread rest (got_prev t) (got_global t) (drawn t ++ [(k, v)]) (failed t)))
            end
        end
    end.
  (** the steps of the threads in the order of [schedule] *)
  Definition exec (schedule : list nat) (p : process) : process := fold_left advance schedule p.
  Definition finished (p : process) : Prop := Forall (fun t => todo t = []) (threads p).
  Definition healthy (p : process) : Prop := Forall (fun t => failed t = false) (threads p).

  (** _setup_prng and _sync_seeds, __init__.py:167-265, with [n] >= 2 parties *)
  Definition next_of (n i : nat) : nat := (i + 1) mod n.
  Definition prev_of (n i : nat) : nat := (next_of n i + n - 2) mod n.
  Definition setup (n i : nat) : list action :=
    [ANew Prev; ANew Next; ANew Local_; ANew Global_; ASend (next_of n i); AWait (prev_of n i)] ++ (if Nat.eqb i 0 then [ABroadcast] else []) ++ [AGet; ASeed Prev; ASeed Next; ASeed Local_; ASeed Global_].
  Definition fresh_thread (l : list action) : thread := mkThread l 0 0 [] false.
  Definition key_number (k : key) : nat := match k with Prev => 0 | Next => 1 | Local_ => 2 | Global_ => 3 end.
  (** the process before; the dictionary is empty, here it has some generators nobody uses *)
  Definition starting (n : nat) : process := mkProcess (fun _ => unseeded) 4 key_number (fun _ => []) (map (fun i => fresh_thread (setup n i)) (seq 0 n)).

  (** PRZS, arithmetic.py:173-177; [zero_share]: the share made of what was drawn *)
  Definition przs_draws (size : nat) : list action := [ADraw Prev size; ADraw Next size].
  Definition zero_share (t : thread) : list Z := match drawn t with [(_, current); (_, next)] => zipw wsub current next | _ => [] end.
  (** the draw of a dropout mask, gradients.py:511-513 *)
  Definition mask_draws (size : nat) : list action := [ADraw Global_ size].
  (** every thread starts [l] in process [p] *)
  Definition begin (l : list action) (p : process) : process := mkProcess (objects p) (made p) (table p) (mailbox p) (map (fun _ => fresh_thread l) (threads p)).
End Threads.

(** The trusted-third-party provider, crypten/mpc/provider/ttp_provider.py: every party's generators, the server's copies of them,
    and the one request per tuple sent by party 0. *)
Require Import ZArith List.
From Verif Require Import Ring64 Sharing Arith Beaver Trunc.
Import ListNotations.
Open Scope Z_scope.

(** The two kinds of generator kept by client and server (ttp_provider.py:142-166, 250-279). *)
Inductive device := Cpu | Cuda.

Section Ttp.
  Variable gstate : Type.
  (** [generate_random_ring_element] (common/rng.py:12-30), which is also [generate_kbit_random_tensor] without a bit length (rng.py:33-38) *)
  Variable draw : gstate -> nat -> list Z * gstate.
  (** [generate_kbit_random_tensor(bitlength=1)] (common/rng.py:33-50) *)
  Variable draw_bits : gstate -> nat -> list Z * gstate.

  (** One party's pair of generators, on the client and, copied, on the server.
      Simplification: a machine without CUDA has [generator_cuda = None]; requests for CUDA tensors do not arise there. *)
  Record dgens := mkDgens { on_cpu : gstate; on_cuda : gstate }.
  Definition get_generator (d : device) (g : dgens) : gstate := match d with Cpu => on_cpu g | Cuda => on_cuda g end.
  Definition set_generator (d : device) (g : dgens) (s : gstate) : dgens :=
    match d with Cpu => mkDgens s (on_cuda g) | Cuda => mkDgens (on_cpu g) s end.
  (** one draw of [k] elements from the generator of device [d] *)
  Definition pull (f : gstate -> nat -> list Z * gstate) (d : device) (k : nat) (g : dgens) : list Z * dgens :=
    let (v, s) := f (get_generator d g) k in (v, set_generator d g s).

  (** both kinds of generator, seeded with [s] *)
  Variable seeded : Z -> gstate.
  Definition both_seeded (s : Z) : dgens := mkDgens (seeded s) (seeded s).
  (** ttp_provider.py:250-270: the server seeds its generators with [seeds] and sends [seeds[i]] to party [i] *)
  Definition server_generators (seeds : list Z) : list dgens := map both_seeded seeds.
  Definition server_sends (seeds : list Z) : list (nat * Z) := combine (seq 0 (length seeds)) seeds.
  (** ttp_provider.py:142-157: each of the [ws] clients seeds its generators with what it receives ([None]: it waits for ever) *)
  Definition client_generators (sent : list (nat * Z)) (i : nat) : option dgens :=
    option_map (fun m => both_seeded (snd m)) (find (fun m => Nat.eqb (fst m) i) sent).
  Fixpoint all_some {A} (l : list (option A)) : option (list A) :=
    match l with [] => Some [] | None :: _ => None | Some a :: l => option_map (cons a) (all_some l) end.
  Definition setup (seeds : list Z) : option (list dgens * list dgens) :=
    option_map (fun cl => (cl, server_generators seeds)) (all_some (map (client_generators (server_sends seeds)) (seq 0 (length seeds)))).

  (** *** The server *)
  (** one draw from each generator of the list, in order (the loops of ttp_provider.py:286-293 and 300-309) *)
  Fixpoint pull_all (f : gstate -> nat -> list Z * gstate) (d : device) (k : nat) (gs : list dgens) : list (list Z) * list dgens :=
    match gs with
    | [] => ([], [])
    | g :: r => let (v, g) := pull f d k g in let (vs, r) := pull_all f d k r in (v :: vs, g :: r)
    end.
  (** the accumulation [result = elem if idx == 0 else result + elem]; [None] when there is no generator *)
  Definition accumulate (op : Z -> Z -> Z) (elems : list (list Z)) : option (list Z) :=
    match elems with [] => None | e :: r => Some (fold_left (zipw op) r e) end.
  (** _get_additive_PRSS, ttp_provider.py:281-293 ([op = wadd], [f = draw]) and _get_binary_PRSS, 295-309 ([op = Z.lxor]) *)
  Definition prss (op : Z -> Z -> Z) (f : gstate -> nat -> list Z * gstate) (d : device) (k : nat) (gs : list dgens) : option (list Z) * list dgens :=
    let (vs, gs) := pull_all f d k gs in (accumulate op vs, gs).
  (** the same with [remove_rank=True]: the first generator is left alone *)
  Definition prss_but_first (op : Z -> Z -> Z) (f : gstate -> nat -> list Z * gstate) (d : device) (k : nat) (gs : list dgens) : option (list Z) * list dgens :=
    match gs with [] => (None, []) | g :: r => let (v, r) := prss op f d k r in (v, g :: r) end.
  (** [x - y] where [y] may be Python's [None]: then the subtraction raises TypeError and the server process ends. *)
  Definition minus_opt (op : Z -> Z -> Z) (x : list Z) (y : option (list Z)) : option (list Z) := option_map (zipw op x) y.

  (** ttp_provider.py:311-320, for the bilinear operation with table [T] *)
  Definition server_additive (d : device) (k k' : nat) (T : list (list (nat * nat))) (gs : list dgens) : option (list Z) * list dgens :=
    let (a, gs) := prss wadd draw d k gs in
    let (b, gs) := prss wadd draw d k' gs in
    match a, b with
    | Some a, Some b => let c := bil T a b in let (o, gs) := prss_but_first wadd draw d (length c) gs in (minus_opt wsub c o, gs)
    | _, _ => (None, gs)
    end.
  (** ttp_provider.py:322-326 *)
  Definition server_square (d : device) (k : nat) (gs : list dgens) : option (list Z) * list dgens :=
    let (r, gs) := prss wadd draw d k gs in
    match r with
    | Some r => let r2 := zipw wmul r r in let (o, gs) := prss_but_first wadd draw d k gs in (minus_opt wsub r2 o, gs)
    | None => (None, gs)
    end.
  (** ttp_provider.py:328-337; [P] lists, for every element of the broadcast result, the elements of [a] and [b] it is made of *)
  Definition land_at (P : list (nat * nat)) (a b : list Z) : list Z := map (fun p => Z.land (nth (fst p) a 0) (nth (snd p) b 0)) P.
  Definition server_binary (d : device) (k k' : nat) (P : list (nat * nat)) (gs : list dgens) : option (list Z) * list dgens :=
    let (a, gs) := prss Z.lxor draw d k gs in
    let (b, gs) := prss Z.lxor draw d k' gs in
    match a, b with
    | Some a, Some b => let c := land_at P a b in let (o, gs) := prss_but_first Z.lxor draw d (length c) gs in (minus_opt Z.lxor c o, gs)
    | _, _ => (None, gs)
    end.
  (** ttp_provider.py:339-343: [r] comes from [self.generators], the CPU generators, whatever the device of the request.
      A CPU tensor minus a CUDA tensor raises RuntimeError (the server logs it and stops, 246-248) unless the CPU tensor has no
      dimensions, which is what [scalar] says. *)
  Definition server_wraps (d : device) (scalar : bool) (k : nat) (gs : list dgens) : option (list Z) * list dgens :=
    let (r, gs) := pull_all draw Cpu k gs in
    let theta := map (fun j => count_wraps (map (fun t => nth j t 0) r)) (seq 0 k) in
    let (o, gs) := prss_but_first wadd draw d k gs in
    match d, scalar with
    | Cuda, false => (None, gs)
    | _, _ => (minus_opt wsub theta o, gs)
    end.
  (** ttp_provider.py:345-351 *)
  Definition server_b2a (d : device) (k : nat) (gs : list dgens) : option (list Z) * list dgens :=
    let (rB, gs) := prss Z.lxor draw_bits d k gs in
    match rB with
    | Some rB => let (o, gs) := prss_but_first wadd draw d k gs in (minus_opt wsub rB o, gs)
    | None => (None, gs)
    end.

  (** *** The parties *)
  (** the draws every party makes with its own generator; lists in rank order *)
  Definition each (f : gstate -> nat -> list Z * gstate) (d : device) (k : nat) (cl : list dgens) : list (list Z) * list dgens :=
    (map (fun g => fst (pull f d k g)) cl, map (fun g => snd (pull f d k g)) cl).
  (** [if rank == 0: ttp_request(...) else: draw]: party 0's share is the server's answer, the others draw theirs *)
  Definition answered (f : gstate -> nat -> list Z * gstate) (d : device) (k : nat) (answer : list Z) (cl : list dgens) : list (list Z) * list dgens :=
    match cl with
    | [] => ([], [])
    | g :: r => let (vs, r) := each f d k r in (answer :: vs, g :: r)
    end.

  (** Clients' generators and the server's. [None]: the server has ended, party 0 never gets its answer. *)
  Definition ttp_state : Type := list dgens * list dgens.

  (** ttp_provider.py:27-47 *)
  Definition ttp_triple (d : device) (k k' : nat) (T : list (list (nat * nat))) (st : ttp_state)
    : option ((list (list Z) * list (list Z) * list (list Z)) * ttp_state) :=
    let (cl, sv) := st in
    let (a, cl) := each draw d k cl in
    let (b, cl) := each draw d k' cl in
    let (ans, sv) := server_additive d k k' T sv in
    match ans with
    | Some c0 => let (c, cl) := answered draw d (length T) c0 cl in Some ((a, b, c), (cl, sv))
    | None => None
    end.
  (** ttp_provider.py:49-62 *)
  Definition ttp_square (d : device) (k : nat) (st : ttp_state) : option ((list (list Z) * list (list Z)) * ttp_state) :=
    let (cl, sv) := st in
    let (r, cl) := each draw d k cl in
    let (ans, sv) := server_square d k sv in
    match ans with
    | Some c0 => let (r2, cl) := answered draw d k c0 cl in Some ((r, r2), (cl, sv))
    | None => None
    end.
  (** ttp_provider.py:64-82 *)
  Definition ttp_binary (d : device) (k k' : nat) (P : list (nat * nat)) (st : ttp_state)
    : option ((list (list Z) * list (list Z) * list (list Z)) * ttp_state) :=
    let (cl, sv) := st in
    let (a, cl) := each draw d k cl in
    let (b, cl) := each draw d k' cl in
    let (ans, sv) := server_binary d k k' P sv in
    match ans with
    | Some c0 => let (c, cl) := answered draw d (length P) c0 cl in Some ((a, b, c), (cl, sv))
    | None => None
    end.
  (** ttp_provider.py:84-99 *)
  Definition ttp_wrap (d : device) (scalar : bool) (k : nat) (st : ttp_state) : option ((list (list Z) * list (list Z)) * ttp_state) :=
    let (cl, sv) := st in
    let (r, cl) := each draw d k cl in
    let (ans, sv) := server_wraps d scalar k sv in
    match ans with
    | Some c0 => let (th, cl) := answered draw d k c0 cl in Some ((r, th), (cl, sv))
    | None => None
    end.
  (** ttp_provider.py:101-118 *)
  Definition ttp_b2a (d : device) (k : nat) (st : ttp_state) : option ((list (list Z) * list (list Z)) * ttp_state) :=
    let (cl, sv) := st in
    let (rB, cl) := each draw_bits d k cl in
    let (ans, sv) := server_b2a d k sv in
    match ans with
    | Some c0 => let (rA, cl) := answered draw d k c0 cl in Some ((rA, rB), (cl, sv))
    | None => None
    end.

  (** A history of requests (the server's loop, ttp_provider.py:225-248). *)
  Inductive treq :=
  | TTriple (d : device) (k k' : nat) (T : list (list (nat * nat))) | TSquare (d : device) (k : nat)
  | TBinary (d : device) (k k' : nat) (P : list (nat * nat)) | TWrap (d : device) (scalar : bool) (k : nat) | TB2A (d : device) (k : nat).
  Definition ttp_step (st : ttp_state) (r : treq) : option ttp_state :=
    match r with
    | TTriple d k k' T => option_map snd (ttp_triple d k k' T st)
    | TSquare d k => option_map snd (ttp_square d k st)
    | TBinary d k k' P => option_map snd (ttp_binary d k k' P st)
    | TWrap d sc k => option_map snd (ttp_wrap d sc k st)
    | TB2A d k => option_map snd (ttp_b2a d k st)
    end.
  Fixpoint ttp_history (h : list treq) (st : ttp_state) : option ttp_state :=
    match h with [] => Some st | r :: h => match ttp_step st r with Some st => ttp_history h st | None => None end end.
End Ttp.
Arguments on_cpu {_}. Arguments on_cuda {_}. Arguments mkDgens {_}.

(** Pseudo-random zero sharings, encryption and decryption of integer tensors.
    A tensor is the list of its elements (row-major); a secret-shared tensor is the list,
    in rank order, of the parties' share tensors. *)
Require Import ZArith List.
From Verif Require Import Ring64.
Import ListNotations.
Open Scope Z_scope.

(** crypten/__init__.py:238-248 -- [next_rank] / [prev_rank] of a party, and the seed it
    receives: [irecv(prev_seed, src=prev_rank)] of what [prev_rank] sent with
    [isend(next_seed, next_rank)].  With one party [prev_seed = next_seed]. *)
Definition next_rank (n rank : Z) : Z := (rank + 1) mod n.
Definition prev_rank (n rank : Z) : Z := (next_rank n rank - 2) mod n.

(** Who sends to whom: party [r] receives from [prev_rank r] the message that party posted;
    [isend] of party [p] is addressed to [next_rank p].  Delivery requires the addressee to match. *)
Definition recv_prev_seed (next_seeds : list Z) (rank : nat) : option Z :=
  let n := Z.of_nat (length next_seeds) in
  if n <? 2 then nth_error next_seeds rank
  else
    let p := prev_rank n (Z.of_nat rank) in
    if next_rank n p =? Z.of_nat rank then nth_error next_seeds (Z.to_nat p) else None.

Record seeds := mkSeeds { sd_prev : Z; sd_next : Z; sd_global : Z }.

(** crypten/__init__.py:223-265 [_sync_seeds], all parties; the global seed is broadcast from rank 0. *)
Definition sync_seeds (next_seeds global_seeds : list Z) : list (option seeds) :=
  map (fun r =>
         match recv_prev_seed next_seeds r, nth_error next_seeds r, nth_error global_seeds 0 with
         | Some p, Some x, Some g => Some (mkSeeds p x g)
         | _, _, _ => None
         end) (seq 0 (length next_seeds)).

Section Gens.
  (** torch.Generator: an arbitrary deterministic state machine.  [seeded] is [manual_seed];
      [draw g k] is [torch.randint(-2^63, (2^64-1)//2, size)] with [k] elements
      (crypten/common/rng.py:12-30; the 64-bit case of generate_kbit_random_tensor, 33-38, is the same call). *)
  Variable gstate : Type.
  Variable seeded : Z -> gstate.
  Variable draw : gstate -> nat -> list Z * gstate.

  (** One party's [generators["prev"]] / [generators["next"]], indexed by device
      (crypten/__init__.py:186-202). *)
  Record gens := mkGens { g_prev : nat -> gstate; g_next : nat -> gstate }.
  Definition world := list gens.

  (** crypten/__init__.py:261-263: every device gets the party's seeds. *)
  Definition gens_of (s : seeds) : gens :=
    mkGens (fun _ => seeded (sd_prev s)) (fun _ => seeded (sd_next s)).

  Fixpoint all_some {A} (l : list (option A)) : option (list A) :=
    match l with
    | [] => Some []
    | Some a :: r => option_map (cons a) (all_some r)
    | None :: _ => None
    end.

  (** crypten/__init__.py:167-220 [_setup_prng] (and 268-281 [manual_seed] in debug mode). *)
  Definition setup_prng (next_seeds global_seeds : list Z) : option world :=
    option_map (map gens_of) (all_some (sync_seeds next_seeds global_seeds)).

  Definition upd (f : nat -> gstate) (d : nat) (g : gstate) : nat -> gstate :=
    fun d' => if Nat.eqb d' d then g else f d'.

  (** arithmetic.py:158-178 [ArithmeticSharedTensor.PRZS] (op = sub) and binary.py:112-133
      [BinarySharedTensor.PRZS] (op = xor), on one party. *)
  Definition przs_party (op : Z -> Z -> Z) (d size : nat) (g : gens) : list Z * gens :=
    let (cur, p') := draw (g_prev g d) size in
    let (nxt, n') := draw (g_next g d) size in
    (zipw op cur nxt, mkGens (upd (g_prev g) d p') (upd (g_next g) d n')).

  Definition przs (op : Z -> Z -> Z) (d size : nat) (w : world) : list (list Z) * world :=
    let r := map (przs_party op d size) w in (map fst r, map snd r).

  (** [if self.rank == src: self.share op= tensor] (arithmetic.py:103-104, binary.py:92-93). *)
  Fixpoint add_at (op : Z -> Z -> Z) (src : nat) (x : list Z) (sh : list (list Z)) : list (list Z) :=
    match sh, src with
    | [], _ => []
    | s :: r, O => zipw op s x :: r
    | s :: r, S k => s :: add_at op k x r
    end.

  (** arithmetic.py:38-104 [ArithmeticSharedTensor.__init__] on an already encoded tensor (precision 0). *)
  Definition encrypt_arith (d src : nat) (x : list Z) (w : world) : list (list Z) * world :=
    let (z, w') := przs wsub d (length x) w in (add_at wadd src x z, w').

  (** binary.py:35-93 [BinarySharedTensor.__init__]. *)
  Definition encrypt_bin (d src : nat) (x : list Z) (w : world) : list (list Z) * world :=
    let (z, w') := przs Z.lxor d (length x) w in (add_at Z.lxor src x z, w').

  (** Collective calls that use the shared generators.  [CReseed] is [crypten.manual_seed]
      (debug mode) / re-initialisation by all parties. *)
  Inductive call :=
  | CPrzs (d size : nat) | CBPrzs (d size : nat)
  | CEnc (d src : nat) (x : list Z) | CBEnc (d src : nat) (x : list Z)
  | CReseed (next_seeds global_seeds : list Z).

  Definition step (w : world) (c : call) : world :=
    match c with
    | CPrzs d k => snd (przs wsub d k w)
    | CBPrzs d k => snd (przs Z.lxor d k w)
    | CEnc d s x => snd (encrypt_arith d s x w)
    | CBEnc d s x => snd (encrypt_bin d s x w)
    | CReseed ns gs => if Nat.eqb (length ns) (length w)
                       then match setup_prng ns gs with Some w' => w' | None => w end else w
    end.
  Definition run (h : list call) (w : world) : world := fold_left step h w.
End Gens.

(** arithmetic.py:296-302 [reveal]: all_reduce(SUM) of the share tensors, wrapping. *)
Definition reveal_arith (sh : list (list Z)) : list Z :=
  match sh with [] => [] | s :: r => fold_left (zipw wadd) r s end.
(** binary.py:386-392 [reveal]: all_reduce(BXOR). *)
Definition reveal_bin (sh : list (list Z)) : list Z :=
  match sh with [] => [] | s :: r => fold_left (zipw Z.lxor) r s end.

(** [reveal(dst=...)] (arithmetic.py:296-302, [comm.reduce]): only [dst] gets the value; what each rank obtains. *)
Definition reveal_arith_to (dst : nat) (sh : list (list Z)) : list (option (list Z)) :=
  map (fun r => if Nat.eqb r dst then Some (reveal_arith sh) else None) (seq 0 (length sh)).

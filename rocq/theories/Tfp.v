(** The trusted-first-party provider, crypten/mpc/provider/tfp_provider.py. *)
Require Import ZArith List.
From Verif Require Import Ring64 Sharing Arith Beaver Trunc.
Import ListNotations.
Open Scope Z_scope.

Section Tfp.
  Variable gstate : Type.
  (** [generate_random_ring_element] with [k] elements (common/rng.py:12-30) *)
  Variable draw : gstate -> nat -> list Z * gstate.
  (** [generate_kbit_random_tensor(bitlength=1)] with [k] elements (common/rng.py:33-50) *)
  Variable draw_bits : gstate -> nat -> list Z * gstate.

  (** The state that matters: party 0's "local" generator and every party's shared generators.
      Simplification: the other parties also draw from their own local generators, but with [src=0] what they draw is unused
      (arithmetic.py:103-104, binary.py:92-93), so those generators are left out. *)
  Definition tfp_state : Type := gstate * world gstate.

  (** tfp_provider.py:20-31, for the bilinear operation with table [T] on tensors of [k] and [k'] elements, on device [d] *)
  Definition tfp_triple (d k k' : nat) (T : list (list (nat * nat))) (st : tfp_state)
    : (list (list Z) * list (list Z) * list (list Z)) * tfp_state :=
    let (g, w) := st in
    let (a, g) := draw g k in let (b, g) := draw g k' in
    let c := bil T a b in
    let (sa, w) := encrypt_arith _ draw d 0 a w in
    let (sb, w) := encrypt_arith _ draw d 0 b w in
    let (sc, w) := encrypt_arith _ draw d 0 c w in
    ((sa, sb, sc), (g, w)).

  (** tfp_provider.py:33-41: the pair is stacked before encryption: one encryption of [2k] elements *)
  Definition tfp_square (d k : nat) (st : tfp_state) : (list (list Z) * list (list Z)) * tfp_state :=
    let (g, w) := st in
    let (r, g) := draw g k in
    let r2 := zipw wmul r r in
    let (s, w) := encrypt_arith _ draw d 0 (r ++ r2) w in
    ((map (firstn k) s, map (skipn k) s), (g, w)).

  (** tfp_provider.py:43-53 *)
  Definition tfp_binary (d k : nat) (st : tfp_state) : (list (list Z) * list (list Z) * list (list Z)) * tfp_state :=
    let (g, w) := st in
    let (a, g) := draw g k in let (b, g) := draw g k in
    let c := zipw Z.land a b in
    let (sa, w) := encrypt_bin _ draw d 0 a w in
    let (sb, w) := encrypt_bin _ draw d 0 b w in
    let (sc, w) := encrypt_bin _ draw d 0 c w in
    ((sa, sb, sc), (g, w)).

  Fixpoint draw_many (n k : nat) (g : gstate) : list (list Z) * gstate :=
    match n with O => ([], g) | S m => let (r, g) := draw g k in let (rs, g) := draw_many m k g in (r :: rs, g) end.

  (** tfp_provider.py:55-68: element [j] of [theta_r] is [count_wraps] of the parties' [j]-th elements; [comm.scatter(r, 0)] gives
      party [i] the [i]-th tensor drawn by party 0. *)
  Definition tfp_wrap (d k : nat) (st : tfp_state) : (list (list Z) * list (list Z)) * tfp_state :=
    let (g, w) := st in
    let (r, g) := draw_many (length w) k g in
    let theta := map (fun j => count_wraps (map (fun t => nth j t 0) r)) (seq 0 k) in
    let (st, w) := encrypt_arith _ draw d 0 theta w in
    ((r, st), (g, w)).

  (** tfp_provider.py:70-78 *)
  Definition tfp_b2a (d k : nat) (st : tfp_state) : (list (list Z) * list (list Z)) * tfp_state :=
    let (g, w) := st in
    let (r, g) := draw_bits g k in
    let (sA, w) := encrypt_arith _ draw d 0 r w in
    let (sB, w) := encrypt_bin _ draw d 0 r w in
    ((sA, sB), (g, w)).

  Definition tfp_zero (d k : nat) (st : tfp_state) : list (list Z) * tfp_state :=
    let (g, w) := st in let (z, w) := przs _ draw wsub d k w in (z, (g, w)).
  Definition tfp_bzero (d k : nat) (st : tfp_state) : list (list Z) * tfp_state :=
    let (g, w) := st in let (z, w) := przs _ draw Z.lxor d k w in (z, (g, w)).

  (** A history: provider requests of any kind and size, interleaved with any other use of the shared generators
      (encryptions, zero sharings, reseeding: Sharing.v [call]). *)
  Variable seeded : Z -> gstate.
  Inductive request :=
  | RTriple (d k k' : nat) (T : list (list (nat * nat))) | RSquare (d k : nat) | RBinary (d k : nat) | RWrap (d k : nat) | RB2A (d k : nat)
  | ROther (c : call).
  Definition tfp_step (st : tfp_state) (r : request) : tfp_state :=
    match r with
    | RTriple d k k' T => snd (tfp_triple d k k' T st)
    | RSquare d k => snd (tfp_square d k st)
    | RBinary d k => snd (tfp_binary d k st)
    | RWrap d k => snd (tfp_wrap d k st)
    | RB2A d k => snd (tfp_b2a d k st)
    | ROther c => (fst st, step _ seeded draw (snd st) c)
    end.
  Definition tfp_history (h : list request) (st : tfp_state) : tfp_state := fold_left tfp_step h st.
End Tfp.

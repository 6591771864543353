(** Executions of the share protocols with everything a party sees: crypten/mpc/primitives (arithmetic.py, binary.py, beaver.py, converters.py) with the trusted third party (mpc/provider/ttp_provider.py).
    A register is one element of a share tensor; a party's registers hold its private inputs, its shares, and every message it has seen. *)
Require Import List ZArith Bool Arith.
From Verif Require Import Ring64 Arith Beaver Trunc.
Import ListNotations.
Open Scope Z_scope.

(** how a share is hidden before it is sent: [x - a] (beaver.py:78-79, 123), [x + r] (beaver.py:147), [x ^ a] (beaver.py:184), and [(x & 1) ^ r] for a bit (converters.py:46-55, beaver.py:211) *)
Inductive kind := KSub | KAdd | KXor | KBit.
Definition message (k : kind) (x a : Z) : Z := match k with KSub => wsub x a | KAdd => wadd x a | KXor => Z.lxor x a | KBit => Z.lxor (Z.land x 1) a end.

(** Collective operations.
    [Local f]: party i computes f i from its own registers (linear operations, public operands, local division, shifts, ...).
    [Share xor src z r]: ArithmeticSharedTensor(x, src) or BinarySharedTensor(x, src) of the source's register r; [z]: the pseudo-random zero shares (arithmetic.py:101-104, binary.py:90-93).
    [Masked xs cs]: fresh masks for the registers [xs], the masked shares sent to everybody, and one correlated value per entry of [cs]: a function of all parties' masks, shared additively or by xor (beaver.py; ttp_provider.py:311-351).
    [Reveal xor r]: reveal() of a register. *)
Inductive instr :=
| Local (f : nat -> list Z -> Z)
| Share (xor : bool) (src : nat) (z : list Z) (r : nat)
| Masked (xs : list (kind * nat)) (cs : list (bool * (list (list Z) -> Z)))
| Reveal (xor : bool) (r : nat).
(** what the generators of the parties give for one [Masked]: for each party its shares of the masks and of the correlated values; party 0 does not draw the latter (ttp_provider.py:33-41), its entry is not used *)
Definition draws := list (list Z * list Z).
Definition reg (r : nat) (regs : list Z) : Z := nth r regs 0.
Definition masks_of (d : draws) (i : nat) : list Z := fst (nth i d ([], [])).
Definition corr_of (d : draws) (i : nat) : list Z := snd (nth i d ([], [])).
Definition messages (xs : list (kind * nat)) (regs : list Z) (masks : list Z) : list Z := zipw (fun kr a => message (fst kr) (reg (snd kr) regs) a) xs masks.
(** the share the server computes for party 0: the correlated value minus the others' shares, ttp_provider.py:311-351 *)
Definition answer (n : nat) (d : draws) (l : nat) (c : bool * (list (list Z) -> Z)) : Z :=
  let others := map (fun j => nth l (corr_of d j) 0) (seq 1 (n - 1)) in
  if fst c then Z.lxor (wrap (snd c (map fst d))) (zxor others) else wrap (snd c (map fst d) - zsum others).
Definition answers (n : nat) (d : draws) (cs : list (bool * (list (list Z) -> Z))) : list Z := zipw (answer n d) (seq 0 (length cs)) cs.

Definition mapi {A B} (f : nat -> A -> B) (l : list A) : list B := zipw f (seq 0 (length l)) l.
(** the world after one operation; [d] is used by [Masked] only *)
Definition step (i : instr) (d : draws) (st : list (list Z)) : list (list Z) :=
  match i with
  | Local f => mapi (fun p regs => regs ++ [wrap (f p regs)]) st
  | Share xor src z r => mapi (fun p regs => regs ++ [wrap (let own := if Nat.eqb p src then reg r regs else 0 in if xor then Z.lxor (nth p z 0) own else nth p z 0 + own)]) st
  | Masked xs cs =>
      let sent := concat (mapi (fun p regs => messages xs regs (masks_of d p)) st) in
      mapi (fun p regs => regs ++ masks_of d p ++ sent ++ (if Nat.eqb p 0 then answers (length st) d cs else corr_of d p)) st
  | Reveal _ r => let sent := map (reg r) st in map (fun regs => regs ++ sent) st
  end.
Definition uses_draws (i : instr) : bool := match i with Masked _ _ => true | _ => false end.
Fixpoint exec (prog : list instr) (rnd : list draws) (st : list (list Z)) : list (list Z) :=
  match prog with
  | [] => st
  | i :: prog => if uses_draws i then exec prog (tl rnd) (step i (hd [] rnd) st) else exec prog rnd (step i [] st)
  end.

(** *** The protocols of beaver.py as operations; [n]: number of parties, [k]: number of registers before, so the masks, the messages and the correlated values have known places *)
Definition column (r : nat) (st : list (list Z)) : list Z := map (reg r) st.
(** beaver.py:31-86 for one element: masks k, k+1; party j's messages k+2+2j, k+3+2j; correlated value k+2+2n *)
Definition product_of (masks : list (list Z)) : Z := zsum (map (fun m => nth 0 m 0) masks) * zsum (map (fun m => nth 1 m 0) masks).
Definition sent_at (n k w j : nat) (regs : list Z) : list Z := map (fun p => reg (k + w + w * p + j) regs) (seq 0 n).
Definition p_mul (n k x y : nat) : list instr :=
  [ Masked [(KSub, x); (KSub, y)] [(false, product_of)];
    Local (fun p regs => let eps := open_a (sent_at n k 2 0 regs) in let del := open_a (sent_at n k 2 1 regs) in
             let s := wadd (wadd (reg (k + 2 + 2 * n) regs) (wmul (reg (k + 1) regs) eps)) (wmul (reg k regs) del) in
             if Nat.eqb p 0 then wadd s (wmul eps del) else s) ].
(** beaver.py:113-126 *)
Definition square_of (masks : list (list Z)) : Z := zsum (map (fun m => nth 0 m 0) masks) * zsum (map (fun m => nth 0 m 0) masks).
Definition p_square (n k x : nat) : list instr :=
  [ Masked [(KSub, x)] [(false, square_of)];
    Local (fun p regs => let eps := open_a (sent_at n k 1 0 regs) in
             let s := wadd (reg (k + 1 + n) regs) (wmul (wmul (reg k regs) 2) eps) in
             if Nat.eqb p 0 then wadd s (wmul eps eps) else s) ].
(** beaver.py:171-190 *)
Definition and_of (masks : list (list Z)) : Z := Z.land (zxor (map (fun m => nth 0 m 0) masks)) (zxor (map (fun m => nth 1 m 0) masks)).
Definition p_and (n k x y : nat) : list instr :=
  [ Masked [(KXor, x); (KXor, y)] [(true, and_of)];
    Local (fun p regs => let eps := open_b (sent_at n k 2 0 regs) in let del := open_b (sent_at n k 2 1 regs) in
             let s := Z.lxor (Z.land (reg (k + 1) regs) eps) (Z.land (reg k regs) del) in
             Z.lxor (if Nat.eqb p 0 then Z.lxor s (Z.land eps del) else s) (reg (k + 2 + 2 * n) regs)) ].
(** beaver.py:193-213 *)
Definition bit_of (masks : list (list Z)) : Z := zxor (map (fun m => nth 0 m 0) masks).
Definition p_b2a (n k x : nat) : list instr :=
  [ Masked [(KBit, x)] [(false, bit_of)];
    Local (fun p regs => let z := open_b (sent_at n k 1 0 regs) in
             let s := wmul (reg (k + 1 + n) regs) (wsub 1 (wmul 2 z)) in if Nat.eqb p 0 then wadd s z else s) ].
(** beaver.py:129-156; the messages go to party 0, here to everybody *)
Definition wraps_of (masks : list (list Z)) : Z := count_wraps (map (fun m => nth 0 m 0) masks).
Definition p_wraps (n k x : nat) : list instr :=
  [ Masked [(KAdd, x)] [(false, wraps_of)];
    Local (fun p regs => let t := wsub (count_wraps [reg x regs; reg k regs]) (reg (k + 1 + n) regs) in
             if Nat.eqb p 0 then wadd t (count_wraps (sent_at n k 1 0 regs)) else t) ].

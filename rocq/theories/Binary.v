(** XOR sharings: bitwise operations and circuits
    (crypten/mpc/primitives/binary.py, crypten/mpc/primitives/circuit.py), and conversions
    (crypten/mpc/primitives/converters.py).  An encrypted scalar is the list of the parties' shares in rank order. *)
Require Import ZArith List.
From Verif Require Import Ring64 Arith Beaver Provider.
Import ListNotations.
Open Scope Z_scope.

(** The right operand of a binary operator: a public tensor element / int, or a BinarySharedTensor. *)
Inductive operand := Pub (z : Z) | Priv (sh : list Z).

Section Ops.
  Context {pr : provider}.

  (** binary.py:214-234 [__ixor__]/[__xor__] *)
  Definition bxor (x : list Z) (y : operand) : list Z :=
    match y with Pub z => on_rank0 (fun s => Z.lxor s z) x | Priv sh => zipw Z.lxor x sh end.

  (** binary.py:236-256 [__iand__]/[__and__]: every party masks with a public value; beaver.AND (beaver.py:171-190) otherwise. *)
  Definition band (x : list Z) (y : operand) : run pr (list Z) :=
    match y with
    | Pub z => ret (map (fun s => Z.land s z) x)
    | Priv sh => t <- next_and pr ;; let '(a, b, c) := t in ret (and_beaver a b c x sh)
    end.

  (** binary.py:263-265 [__or__] *)
  Definition bor (x : list Z) (y : operand) : run pr (list Z) := a <- band x y ;; ret (bxor (bxor a (Priv x)) y).
  (** binary.py:258-261 [__ior__] *)
  Definition bior (x : list Z) (y : operand) : run pr (list Z) := let xr := bxor x y in a <- band x y ;; ret (bxor a (Priv xr)).

  (** binary.py:267-272 [__invert__] *)
  Definition binv (x : list Z) : list Z := on_rank0 (fun s => Z.lxor s (-1)) x.
  (** binary.py:274-292, [0 <= k < 64] (larger shifts are undefined in torch) *)
  Definition bshl (x : list Z) (k : Z) : list Z := map (fun s => wshl s k) x.
  Definition bshr (x : list Z) (k : Z) : list Z := map (fun s => wshr s k) x.

  (** the same operations on an operand that may be public: [~y], [y ^ k] on a torch tensor *)
  Definition op_inv (y : operand) : operand := match y with Pub z => Pub (Z.lxor z (-1)) | Priv sh => Priv (binv sh) end.
  Definition op_xor (y : operand) (k : Z) : operand := match y with Pub z => Pub (Z.lxor z k) | Priv sh => Priv (bxor sh (Pub k)) end.
  (** [y & x] with [x] shared: through [__rand__ = __and__] (binary.py:472) when [y] is public. *)
  Definition op_and (y : operand) (x : list Z) : run pr (list Z) :=
    match y with Pub z => band x (Pub z) | Priv sh => band sh (Priv x) end.

  (** binary.py:401-429 [where], condition public: condition 0/1, [y] public or shared. *)
  Definition bwhere_pub (x : list Z) (cond : Z) (y : operand) : run pr (list Z) :=
    let ce := wneg cond in
    y_masked <- match y with Pub z => ret (Pub (Z.land z (Z.lnot ce))) | Priv sh => m <- band sh (Pub (Z.lnot ce)) ;; ret (Priv m) end ;;
    xm <- band x (Pub ce) ;; ret (bxor xm y_masked).
  (** [where], condition shared: [-(share & 1)] on every share (417-419). *)
  Definition bwhere (x cond : list Z) (y : operand) : run pr (list Z) :=
    let ce := map (fun s => wneg (Z.land s 1)) cond in
    y_masked <- band (binv ce) y ;;
    xm <- band x (Priv ce) ;; ret (bxor xm (Priv y_masked)).

  (** ** Circuits *)
  (** circuit.py:29-47 *)
  Definition spk_masks : list Z := [6148914691236517205; 2459565876494606882; 578721382704613384; 36029346783166592; 140737488388096; 2147483648].
  Definition spk_multipliers : list Z := map (fun i => 2 ^ (2 ^ i + 1) - 2) [0; 1; 2; 3; 4; 5].
  Definition spk_out_masks : list Z := zipw wmul spk_masks spk_multipliers.
  Definition spk_stages : list (Z * Z * Z) := combine (combine spk_masks spk_out_masks) spk_multipliers.

  (** circuit.py:74 [S1P1._tensor *= multiplier] after [& in_mask], on one share. *)
  Definition fan (inm mul s : Z) : Z := wmul (Z.land s inm) mul.

  (** circuit.py:69-85, one stage.  SP is the stack of S and P; [P0 & S1P1] broadcasts P0 before the AND (binary.py:246-256), so
      two ANDs with separate triples. *)
  Definition spk_stage (SP : list Z * list Z) (st : Z * Z * Z) : run pr (list Z * list Z) :=
    let '(Sv, P) := SP in let '(inm, outm, mul) := st in
    P0 <- band P (Pub outm) ;;
    let S1 := map (fan inm mul) Sv in let P1 := map (fan inm mul) P in
    uS <- band P0 (Priv S1) ;; uP <- band P0 (Priv P1) ;;
    P' <- band P (Pub (Z.lxor outm (-1))) ;;
    ret (bxor Sv (Priv uS), bxor P' (Priv uP)).
  Definition spk (S P : list Z) : run pr (list Z * list Z) := foldM spk_stage spk_stages (S, P).

  (** circuit.py:90-105 *)
  Definition p_circuit (P : list Z) : run pr (list Z) :=
    foldM (fun P shift => band P (Priv (bshl P shift))) [32; 16; 8; 4; 2; 1] P.

  (** circuit.py:112-122 *)
  Definition sign_bit (x : list Z) : list Z := map (fun s => if wshr s 63 =? -1 then 1 else 0) x.
  (** circuit.py:108-109 *)
  Definition flip_sign (x : list Z) : list Z := bxor x (Pub (- H63)).
  Definition op_flip (y : operand) : operand := op_xor y (- H63).

  (** circuit.py:125-130 *)
  Definition badd (x : list Z) (y : operand) : run pr (list Z) :=
    S <- band x y ;; let P := bxor x y in
    CP <- spk S P ;; ret (bxor P (Priv (bshl (fst CP) 1))).
  (** circuit.py:133-137 *)
  Definition beq (x : list Z) (y : operand) : run pr (list Z) :=
    P <- p_circuit (binv (bxor x y)) ;; ret (sign_bit P).
  (** binary.py:302-303 *)
  Definition bne (x : list Z) (y : operand) : run pr (list Z) := e <- beq x y ;; ret (bxor e (Pub 1)).
  (** circuit.py:140-147 *)
  Definition blt (x : list Z) (y : operand) : run pr (list Z) :=
    let x := flip_sign x in let y := op_flip y in
    S <- op_and y (binv x) ;; let P := binv (bxor x y) in
    SP <- spk S P ;; ret (sign_bit (fst SP)).
  (** circuit.py:150-157 *)
  Definition ble (x : list Z) (y : operand) : run pr (list Z) :=
    let x := flip_sign x in let y := op_flip y in
    S <- op_and y (binv x) ;; let P := binv (bxor x y) in
    SP <- spk S P ;; ret (sign_bit (bxor (fst SP) (Priv (snd SP)))).
  (** circuit.py:160-167 *)
  Definition bgt (x : list Z) (y : operand) : run pr (list Z) :=
    let x := flip_sign x in let y := op_flip y in
    S <- band x (op_inv y) ;; let P := binv (bxor x y) in
    SP <- spk S P ;; ret (sign_bit (fst SP)).
  (** circuit.py:170-177 *)
  Definition bge (x : list Z) (y : operand) : run pr (list Z) :=
    let x := flip_sign x in let y := op_flip y in
    S <- band x (op_inv y) ;; let P := binv (bxor x y) in
    SP <- spk S P ;; ret (sign_bit (bxor (fst SP) (Priv (snd SP)))).

  (** binary.py:339-362 [sum]: one round of the log-reduction, then the loop ([fuel] bounds the number of rounds; the
      number of elements always suffices). *)
  Definition bsum_round (xs : list (list Z)) : run pr (list (list Z)) :=
    let '(extra, xs) := if Nat.odd (length xs) then (firstn 1 xs, skipn 1 xs) else ([], xs) in
    let h := Nat.div2 (length xs) in
    ys <- zipM (fun a b => badd a (Priv b)) (firstn h xs) (skipn h xs) ;; ret (ys ++ extra).
  Fixpoint bsum_loop (fuel : nat) (xs : list (list Z)) : run pr (list (list Z)) :=
    match fuel with
    | O => ret xs
    | S f => if Nat.ltb 1 (length xs) then ys <- bsum_round xs ;; bsum_loop f ys else ret xs
    end.
  Definition bsum (xs : list (list Z)) : run pr (list (list Z)) := bsum_loop (length xs) xs.

  (** ** Conversions *)
  (** [BinarySharedTensor(tensor, src=i)] (binary.py:35-93): zero sharing, party [i] XORs its tensor in. *)
  Fixpoint xor_at (i : nat) (v : Z) (z : list Z) : list Z :=
    match z, i with [], _ => [] | a :: r, O => Z.lxor a v :: r | a :: r, S j => a :: xor_at j v r end.
  Definition bencrypt (i : nat) (v : Z) : run pr (list Z) := z <- next_bzero pr ;; ret (xor_at i v z).

  (** converters.py:21-26: every party's share encrypted by that party, then summed *)
  Fixpoint share_inputs (i : nat) (x : list Z) : run pr (list (list Z)) :=
    match x with [] => ret [] | v :: r => e <- bencrypt i v ;; es <- share_inputs (S i) r ;; ret (e :: es) end.
  Definition a2b (x : list Z) : run pr (list (list Z)) := es <- share_inputs 0 x ;; bsum es.

  (** converters.py:29-34 (the out-of-memory fallback): sequential *)
  Fixpoint a2b_seq_from (i : nat) (acc : list Z) (x : list Z) : run pr (list Z) :=
    match x with [] => ret acc | v :: r => e <- bencrypt i v ;; acc' <- badd acc (Priv e) ;; a2b_seq_from (S i) acc' r end.
  Definition a2b_seq (x : list Z) : run pr (list Z) :=
    match x with [] => ret [] | v :: r => e <- bencrypt 0 v ;; a2b_seq_from 1 e r end.

  (** beaver.py:193-213 [B2A_single_bit]; with one party an ordinary encryption with precision 0 of the share. *)
  Definition b2a_bit (xB : list Z) : run pr (list Z) :=
    if Nat.ltb (length xB) 2 then z <- next_zero pr ;; ret (zipw wadd z xB)
    else r <- next_b2a pr ;; let '(rA, rB) := r in ret (b2a_single_bit rA rB xB).

  (** converters.py:41-69, [1 <= bits <= 64]; [sa], [sb] are the scales of the target and source encoders. *)
  Definition b2a (bits : nat) (sa sb : Z) (x : list Z) : run pr (list Z) :=
    r <- (if Nat.eqb bits 1 then b <- band x (Pub 1) ;; b2a_bit b
          else ab <- mapM (fun i => b <- band (bshr x (Z.of_nat i)) (Pub 1) ;; b2a_bit b) (seq 0 bits) ;;
               ret (sum_list (length x) (zipw (fun i a => mul_int (wshl 1 (Z.of_nat i)) a) (seq 0 bits) ab))) ;;
    ret (mul_int (sa / sb) r).

  (** mpc.py:131-151 [_to_ptype] twice: arithmetic -> binary -> arithmetic.  [_A2B] keeps the source encoder (converters.py:37), [_B2A]
      rescales to the encoder of the requested precision with scale [sa]. *)
  Definition a2b2a (sa sb : Z) (x : list Z) : run pr (list (list Z)) :=
    bs <- a2b x ;; mapM (b2a 64 sa sb) bs.
End Ops.

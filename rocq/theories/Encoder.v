(** Fixed-point encoder (crypten/encoder.py) and the IgnoreEncodings context manager
    (crypten/mpc/primitives/beaver.py:15-28).
    Simplification: float inputs/outputs are exact rationals; float32 rounding is not modelled. *)
Require Import ZArith QArith List.
From Verif Require Import Ring64.
Import ListNotations.
Open Scope Z_scope.

(** encoder.py:18-29 [nearest_integer_division], with the torch.long wraps. [%] is Python/torch modulo
    (sign of the divisor) = [Z.modulo]; [None] is the AssertionError of line 20. *)
Definition nearest_integer_division (t k : Z) : option Z :=
  if 0 <? k then
    let lez := if t <? 0 then 1 else 0 in
    let pos_remainder := (wmul (1 - lez) t) mod k in
    let neg_remainder := wmul lez ((wsub k t) mod k) in
    let remainder := wadd pos_remainder neg_remainder in
    let quotient := tdiv t k in
    let correction := if k <? wmul 2 remainder then 1 else 0 in
    Some (wadd quotient (wmul (Z.sgn t) correction))
  else None.

(** encoder.py:41-60 [encode] of a real number: [long(scale * x)], truncation toward zero. *)
Definition encodeQ (scale : Z) (x : Q) : Z := Z.quot (scale * Qnum x) (Zpos (Qden x)).
(** encoder.py:59-60 [encode] of an integer tensor: [scale * x.long()] (wraps). *)
Definition encodeZ (scale x : Z) : Z := wmul scale x.

(** encoder.py:68-83 [decode] of one element, [scale > 1] branch and the integer branch. *)
Definition decode (scale t : Z) : option Q :=
  if 1 <? scale then
    let correction := if t <? 0 then 1 else 0 in
    let dividend := t / (scale - correction) in
    let remainder := t mod scale in
    let remainder := remainder + (if remainder =? 0 then 1 else 0) * scale * correction in
    Some (inject_Z dividend + (remainder # Z.to_pos scale))%Q
  else option_map inject_Z (nearest_integer_division t scale).

(** ** The encoder object: encoder.py:35-39 and 85-90 *)
Record enc := mkEnc { e_scale : Z; e_prec : Z }.

(** [__setattr__("_precision_bits", v)]: [_scale := int(2**v)].  A negative [v] gives [int(2**v) = 0]. *)
Definition set_precision (v : Z) (e : enc) : enc := mkEnc (if v <? 0 then 0 else 2 ^ v) v.
(** [__setattr__("_scale", v)]: [_precision_bits := int(math.log2(v))]; [math.log2] raises on [v <= 0]
    ([None]).  Simplification: [int(math.log2 v)] is the floor logarithm (exact for powers of two). *)
Definition set_scale (v : Z) (e : enc) : option enc := if 0 <? v then Some (mkEnc v (Z.log2 v)) else None.
(** encoder.py:35-39 constructor: both assignments run through [__setattr__]. *)
Definition enc_new (p : Z) : option enc :=
  let e := set_precision p (mkEnc 0 0) in set_scale (e_scale e) e.

Inductive assign := APrecision (v : Z) | AScale (v : Z).
Definition do_assign (e : enc) (a : assign) : enc :=
  match a with
  | APrecision v => set_precision v e
  | AScale v => match set_scale v e with Some e' => e' | None => e end
  end.

(** ** Heap of encoder objects; tensors hold references, possibly shared (arithmetic.py:193-204). *)
Definition heap := nat -> enc.
Definition hset (h : heap) (r : nat) (e : enc) : heap := fun r' => if Nat.eqb r' r then e else h r'.
Definition hset_scale (h : heap) (r : nat) (v : Z) : heap :=
  match set_scale v (h r) with Some e => hset h r e | None => h end.

(** beaver.py:18-20 *)
Definition ig_cache (h : heap) (refs : list nat) : list Z := map (fun r => e_scale (h r)) refs.
(** beaver.py:22-24 *)
Definition ig_enter (h : heap) (refs : list nat) : heap := fold_left (fun h r => hset_scale h r 1) refs h.
(** beaver.py:26-28 *)
Definition ig_exit (h : heap) (refs : list nat) (cache : list Z) : heap :=
  fold_left (fun h p => hset_scale h (fst p) (snd p)) (combine refs cache) h.
(** The whole [with IgnoreEncodings(refs): body]; [__exit__] runs on normal and exceptional exit alike, the
    body being an arbitrary heap transformer. *)
Definition with_ignore (refs : list nat) (body : heap -> heap) (h : heap) : heap :=
  ig_exit (body (ig_enter h refs)) refs (ig_cache h refs).

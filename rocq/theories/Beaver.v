(** Beaver protocols on arithmetic sharings (crypten/mpc/primitives/beaver.py). *)
Require Import ZArith List Bool QArith Qround.
From Verif Require Import Ring64 Sharing Encoder Arith.
Import ListNotations.
Open Scope Z_scope.

(** A torch operation bilinear in its two tensors ([torch.mul], [matmul], [conv1d/2d], [conv_transpose1d/2d]) as an index
    table: output element [k] accumulates [x_i * y_j] over the pairs [(i,j)] of row [k], wrapping at each step. *)
Definition bil_row (row : list (nat * nat)) (x y : list Z) : Z :=
  fold_left (fun acc p => wadd acc (wmul (nth (fst p) x 0) (nth (snd p) y 0))) row 0.
Definition bil (T : list (list (nat * nat))) (x y : list Z) : list Z := map (fun row => bil_row row x y) T.

(** torch.mul on equal shapes. *)
Definition mul_table (n : nat) : list (list (nat * nat)) := map (fun i => [(i, i)]) (seq 0 n).
(** torch.matmul of (n,k) and (k,m), row-major. *)
Definition matmul_table (n k m : nat) : list (list (nat * nat)) :=
  flat_map (fun r => map (fun c => map (fun l => (r * k + l, l * m + c))%nat (seq 0 k)) (seq 0 m)) (seq 0 n).
(** torch.conv1d, one batch entry, [cin] input channels of length [len], [cout] filters of width [kw], given stride and
    zero padding (padded positions contribute nothing). *)
Definition conv1d_table (cin len cout kw stride pad : nat) : list (list (nat * nat)) :=
  let lout := (S ((len + 2 * pad - kw) / stride))%nat in
  flat_map (fun o => map (fun p =>
     flat_map (fun c => flat_map (fun t =>
        let pos := (p * stride + t)%nat in
        if (Nat.leb pad pos && Nat.ltb (pos - pad) len)%bool
        then [((c * len + (pos - pad))%nat, ((o * cin + c) * kw + t)%nat)] else []) (seq 0 kw)) (seq 0 cin))
     (seq 0 lout)) (seq 0 cout).

(** beaver.py:77-86, all parties: shares of [a],[b],[c],[x],[y] in rank order, each a tensor.
    Inside [IgnoreEncodings] (78-79) all scales are 1, so [x - a] is a plain share subtraction; [c += ...] (84) is a public
    addition (rank 0 only). *)
Definition rank0 (f : list Z -> list Z) (sh : list (list Z)) : list (list Z) := match sh with [] => [] | s :: r => f s :: r end.

Definition beaver (T : list (list (nat * nat))) (a b c x y : list (list Z)) : list (list Z) :=
  let eps := reveal_arith (zipw (zipw wsub) x a) in
  let del := reveal_arith (zipw (zipw wsub) y b) in
  let c1 := zipw (fun cp bp => zipw wadd cp (bil T eps bp)) c b in
  let c2 := zipw (fun cp ap => zipw wadd cp (bil T ap del)) c1 a in
  rank0 (fun s => zipw wadd s (bil T eps del)) c2.

(** beaver.py:113-126, one element. *)
Definition square (r r2 x : list Z) : list Z :=
  let eps := open_a (sub_priv x r) in
  add_pub (wmul eps eps) (add_priv r2 (mul_int eps (mul_int 2 r))).

(** beaver.py:171-190, one element: [(b & epsilon) ^ (a & delta) ^ (epsilon & delta) ^ c].  [b & epsilon] with a public tensor
    masks every share (binary.py:236-244); [^ (epsilon & delta)] with a public tensor is done by rank 0 (binary.py:214-223). *)
Definition and_beaver (a b c x y : list Z) : list Z :=
  let eps := open_b (zipw Z.lxor x a) in
  let del := open_b (zipw Z.lxor y b) in
  zipw Z.lxor
    (on_rank0 (fun s => Z.lxor s (Z.land eps del))
       (zipw Z.lxor (map (fun s => Z.land s eps) b) (map (fun s => Z.land s del) a))) c.

(** beaver.py:193-213, one element, two or more parties: [rA * (1 - 2*z) + z]. *)
Definition b2a_single_bit (rA rB xB : list Z) : list Z :=
  let z := open_b (zipw Z.lxor xB rB) in
  add_pub z (mul_int (wsub 1 (wmul 2 z)) rA).

(** beaver.py:57-75 triple verification of one element of an elementwise multiplication.  [t] is the opened PRSS value after
    the encoding of [t_plain_text] at scale 1 (truncated to an integer).  All tensors have precision 0, so
    [get_plain_text] is the revealed integer ([nearest_integer_division] by 1). *)
Definition triples_check (t : Z) (a b c f g h : list Z) : Z :=
  let rho := open_a (sub_priv (mul_int t a) f) in
  let sigma := open_a (sub_priv b g) in
  open_a (sub_pub (wmul rho sigma)
     (sub_priv (sub_priv (sub_priv (mul_int t c) h) (mul_int sigma f)) (mul_int rho g))).
(** beaver.py:74-75: [if torch.any(triples_check != 0): raise ValueError]. *)
Definition triples_ok (checks : list Z) : bool := negb (existsb (fun v => negb (v =? 0)) checks).

(** [t_plain_text * a] in line 67: PRSS at the default precision decoded to a real, then encoded at scale 1. *)
Definition check_multiplier (default_scale t_raw : Z) : option Z := option_map (encodeQ 1) (decode default_scale t_raw).

(** arithmetic.py:389-404, private multiplication: which integer the raw product is divided by (0 = not divided) and which
    scale labels the result. *)
Definition mul_rescale (sx sy : Z) : option Z * Z :=
  if (1 <? sx) && (1 <? sy) then (Some sx, sx) else if 1 <? sx then (None, sx) else (None, sy).
(** arithmetic.py:391-395, public (encoded with [sx]) multiplication. *)
Definition mul_pub_rescale (sx : Z) : option Z * Z := if 1 <? sx then (Some sx, sx) else (None, sx).

(** ** The float32 multiplier of the check (beaver.py:63-67 with encoder.py:74-79).
    Round-half-even of a rational; rounding of a rational [q >= 2^23] to float32 (24 significant bits, so the result is an
    integer multiple of [2^k]). *)
Definition rne (q : Q) : Z :=
  let f := Qfloor q in
  match Qcompare (q - inject_Z f)%Q (1 # 2) with
  | Lt => f | Gt => f + 1 | Eq => if Z.even f then f else f + 1
  end.
Definition f32_big (q : Q) : Z :=
  let k := Z.log2 (Qfloor q) - 23 in rne (q / inject_Z (2 ^ k))%Q * 2 ^ k.
(** decode of a non-negative [t_raw] at scale 65536 in float32, then [.long()]: [dividend.float() + remainder.float()/scale]. *)
Definition f32_multiplier (t_raw : Z) : Z :=
  f32_big (inject_Z (f32_big (inject_Z (t_raw / 65536))) + (t_raw mod 65536 # 65536))%Q.

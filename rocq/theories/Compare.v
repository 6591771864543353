(** Comparisons and piecewise-linear functions of encrypted numbers
    (crypten/mpc/mpc.py, crypten/common/functions/logic.py). *)
Require Import ZArith QArith List Bool.
From Verif Require Import Ring64 Encoder Arith Beaver Trunc Provider Binary.
Import ListNotations.
Open Scope Z_scope.

(** One element of an MPCTensor with arithmetic ptype: the parties' shares and the scale of its encoder. *)
Record num := mkNum { n_sh : list Z; n_sc : Z }.

(** Right operand of a Python operator: an int / integer tensor element, a float, or another encrypted number. *)
Inductive arg := AInt (k : Z) | AFloat (q : Q) | AEnc (y : num).

(** arithmetic.py:311-322 [encode_] (upscaling branch) as used by [encode_as_] in 381-384. *)
Definition upscale (s : Z) (x : num) : num := mkNum (mul_int (s / n_sc x) (n_sh x)) s.

(** arithmetic.py:338-404 with op = add: the public operand is encoded at [self]'s scale (367); private operands are brought to
    the larger scale (381-384).  (That the operand object itself is rewritten is modelled in Arith.v [add_scaled].) *)
Definition add_num (x : num) (y : arg) : num :=
  match y with
  | AInt k => mkNum (add_pub (encodeZ (n_sc x) k) (n_sh x)) (n_sc x)
  | AFloat q => mkNum (add_pub (encodeQ (n_sc x) q) (n_sh x)) (n_sc x)
  | AEnc y =>
      if n_sc y <? n_sc x then mkNum (add_priv (n_sh x) (n_sh (upscale (n_sc x) y))) (n_sc x)
      else if n_sc x <? n_sc y then mkNum (add_priv (n_sh (upscale (n_sc y) x)) (n_sh y)) (n_sc y)
      else mkNum (add_priv (n_sh x) (n_sh y)) (n_sc x)
  end.
(** the same with op = sub *)
Definition sub_num (x : num) (y : arg) : num :=
  match y with
  | AInt k => mkNum (sub_pub (encodeZ (n_sc x) k) (n_sh x)) (n_sc x)
  | AFloat q => mkNum (sub_pub (encodeQ (n_sc x) q) (n_sh x)) (n_sc x)
  | AEnc y =>
      if n_sc y <? n_sc x then mkNum (sub_priv (n_sh x) (n_sh (upscale (n_sc x) y))) (n_sc x)
      else if n_sc x <? n_sc y then mkNum (sub_priv (n_sh (upscale (n_sc y) x)) (n_sh y)) (n_sc y)
      else mkNum (sub_priv (n_sh x) (n_sh y)) (n_sc x)
  end.
(** arithmetic.py:588-595 *)
Definition neg_num (x : num) : num := mkNum (neg (n_sh x)) (n_sc x).
(** [1 - x]: arithmetic.py:662-664 [__rsub__] with the int 1 *)
Definition one_minus (x : num) : num := add_num (neg_num x) (AInt 1).
(** arithmetic.py:422-427 multiplication by a Python int *)
Definition muli_num (k : Z) (x : num) : num := mkNum (mul_int k (n_sh x)) (n_sc x).

Section Cmp.
  Context {pr : provider}.
  (** Scale of [FixedPointEncoder()] with the configured default precision (encoder.py:35-39). *)
  Variable D : Z.

  (** arithmetic.py:446-482 [div_] by a positive public int *)
  Definition divi_num (x : list Z) (d : Z) : run pr (list Z) :=
    if Nat.ltb 2 (length x) then w <- next_wrap pr ;; let '(r, th) := w in ret (truncate r th x d) else ret (div_local x d).
  (** arithmetic.py:338-404 with op = mul, private operand, Beaver protocol *)
  Definition mul_num (x y : num) : run pr num :=
    t <- next_mul pr ;; let '(a, b, c) := t in
    let raw := mul1 a b c (n_sh x) (n_sh y) in
    match mul_rescale (n_sc x) (n_sc y) with
    | (Some d, s) => r <- divi_num raw d ;; ret (mkNum r s)
    | (None, s) => ret (mkNum raw s)
    end.
  (** op = mul with a public float operand (encoded at [self]'s scale, then divided by it when larger than 1, 391-395) *)
  Definition mulf_num (x : num) (q : Q) : run pr num :=
    let raw := mul_int (encodeQ (n_sc x) q) (n_sh x) in
    match mul_pub_rescale (n_sc x) with
    | (Some d, s) => r <- divi_num raw d ;; ret (mkNum r s)
    | (None, s) => ret (mkNum raw s)
    end.

  (** mpc.py:131-151 with ptype binary, then [sum(dim=0)] has removed the stacking dimension *)
  Definition to_bin (x : list Z) : run pr (list Z) := bs <- a2b x ;; ret (hd [] bs).

  (** mpc.py:233-242 [_ltz]; [_B2A(bits=1)] multiplies by the ratio of the target scale to the source scale, and the encoder's scale
      is then set to 1. *)
  Definition ltz (x : num) : run pr num :=
    let sa := if n_sc x =? 1 then 1 else D in
    b <- to_bin (n_sh x) ;; r <- b2a 1 sa (n_sc x) (bshr b 63) ;; ret (mkNum r 1).

  (** logic.py:33-50 *)
  Definition n_lt (x : num) (y : arg) : run pr num := ltz (sub_num x y).
  Definition n_ge (x : num) (y : arg) : run pr num := r <- n_lt x y ;; ret (one_minus r).
  Definition n_gt (x : num) (y : arg) : run pr num := ltz (add_num (neg_num x) y).
  Definition n_le (x : num) (y : arg) : run pr num := r <- n_gt x y ;; ret (one_minus r).

  (** mpc.py:260-274 [_eqz_2PC] (two parties) *)
  Definition eqz_2pc (x : num) : run pr num :=
    x0 <- bencrypt 0 (nth 0 (n_sh x) 0) ;; x1 <- bencrypt 1 (wneg (nth 1 (n_sh x) 0)) ;;
    e <- beq x0 (Priv x1) ;; r <- b2a 1 D (n_sc x) e ;; ret (mkNum r 1).
  (** mpc.py:251-258, other numbers of parties: [_ltz] of the stacked difference and its negation, summed *)
  Definition ne_many (x : num) (y : arg) : run pr num :=
    let d := sub_num x y in
    p <- ltz d ;; q <- ltz (mkNum (map wneg (n_sh d)) (n_sc d)) ;; ret (mkNum (add_priv (n_sh p) (n_sh q)) 1).
  (** mpc.py:244-258 *)
  Definition n_eq (x : num) (y : arg) : run pr num :=
    if Nat.eqb (length (n_sh x)) 2 then eqz_2pc (sub_num x y) else r <- ne_many x y ;; ret (one_minus r).
  Definition n_ne (x : num) (y : arg) : run pr num :=
    if Nat.eqb (length (n_sh x)) 2 then r <- n_eq x y ;; ret (one_minus r) else ne_many x y.

  (** logic.py:73-85 *)
  Definition n_sign (x : num) : run pr num := r <- ltz x ;; ret (one_minus (muli_num 2 r)).
  Definition n_abs (x : num) : run pr num := s <- n_sign x ;; mul_num x s.
  Definition n_relu (x : num) : run pr num := g <- n_ge x (AInt 0) ;; mul_num x g.
  (** logic.py:88-109; [lo], [hi] ints or floats *)
  Definition hardtanh (x : num) (lo hi : arg) : run pr num :=
    a <- n_relu (sub_num x lo) ;; b <- n_relu (sub_num x hi) ;; ret (add_num (sub_num a (AEnc b)) lo).
  (** logic.py:112-130 [where] with an encrypted condition and an encrypted [y] *)
  Definition where_enc (x c y : num) : run pr num :=
    ym <- mul_num (one_minus c) y ;; xm <- mul_num x c ;; ret (add_num xm (AEnc ym)).
  (** ... with an encrypted condition and a float (or float tensor) [y]: [(1 - condition) * y] encodes [y] at the condition's scale *)
  Definition where_float (x c : num) (q : Q) : run pr num :=
    ym <- mulf_num (one_minus c) q ;; xm <- mul_num x c ;; ret (add_num xm (AEnc ym)).
  (** __init__.py:437-446 [crypten.where] with an encrypted condition: [condition * input + (1 - condition) * other] *)
  Definition cwhere (c x y : num) : run pr num :=
    xm <- mul_num c x ;; ym <- mul_num (one_minus c) y ;; ret (add_num xm (AEnc ym)).
End Cmp.

(** What messages give away outside the setting of Secrecy.v: the pairwise generators of the zero sharings (crypten/__init__.py:223-265, mpc/primitives/arithmetic.py:158-178), the trusted first party (mpc/provider/tfp_provider.py) and the replicated protocol (mpc/primitives/replicated.py). *)
Require Import List ZArith Bool Arith.
From Verif Require Import Ring64 Sharing Arith Beaver Trunc.
Import ListNotations.
Open Scope Z_scope.

(** *** Zero sharings between n parties in a ring *)
Definition prev (n i : nat) : nat := ((i + n - 1) mod n)%nat.
Definition next (n i : nat) : nat := ((i + 1) mod n)%nat.
(** one element of PRZS, arithmetic.py:171-176; [u]: the numbers the n "next" generators give, number i is drawn by party i and, from its "prev" generator, by party i+1 *)
Definition zero_share (n : nat) (u : list Z) (i : nat) : Z := wsub (nth (prev n i) u 0) (nth i u 0).
(** each party encrypts a number, the ciphertexts are added, the sum is revealed: the share party i sends (arithmetic.py:95-104, 376-387, 296-302); [us]: one list of numbers for each encryption *)
Definition sum_share (n : nat) (us : list (list Z)) (x : list Z) (i : nat) : Z := wrap (nth i x 0 + zsum (map (fun u => zero_share n u i) us)).
(** what the coalition has: its numbers, the numbers its generators gave, and every share that was sent *)
Definition sum_view (n : nat) (bad : nat -> bool) (us : list (list Z)) (x : list Z) : list (option Z) * list (list (option Z)) * list Z :=
  (map (fun i => if bad i then Some (nth i x 0) else None) (seq 0 n),
   map (fun u => map (fun i => if bad i || bad (next n i) then Some (nth i u 0) else None) (seq 0 n)) us,
   map (sum_share n us x) (seq 0 n)).

(** *** The trusted first party, tfp_provider.py:20-31: the masks of a product are encrypted by party 0 with the same zero sharings.
    One multiplication of an operand that party [src] encrypted: the message of party [src], [x - a] (beaver.py:78-79, 82). *)
Section Tfp.
  Variable gstate : Type.
  Variable draw : gstate -> nat -> list Z * gstate.
  Definition tfp_message (d src : nat) (x a : list Z) (w : world gstate) : list Z :=
    let (xs, w1) := encrypt_arith gstate draw d src x w in
    let (as_, _) := encrypt_arith gstate draw d 0 a w1 in
    zipw wsub (nth src xs []) (nth src as_ []).
  (** the opened [x - a] *)
  Definition tfp_opened (d src : nat) (x a : list Z) (w : world gstate) : list Z :=
    let (xs, w1) := encrypt_arith gstate draw d src x w in
    let (as_, _) := encrypt_arith gstate draw d 0 a w1 in
    reveal_arith (zipw (zipw wsub) xs as_).
End Tfp.

(** *** The replicated protocol with three parties, replicated.py:15-39, 42-67, 105-132: what party 1 has after one product with truncation.
    Its own shares, the shares of party 0 it gets in replicate_shares, and the share of the product that party 2 sends in truncate (replicated.py:122-127). *)
Definition replicated_view1 (x y : list Z) : option (list Z) :=
  match replicated (mul_table 1) (map (fun s => [s]) x) (map (fun s => [s]) y) with
  | Some z => Some [nth 1 x 0; nth 1 y 0; nth 0 x 0; nth 0 y 0; nth 0 (nth 2 z []) 0]
  | None => None
  end.
(** the same for square(), replicated.py:94-102 *)
Definition replicated_square_view1 (x : list Z) : option (list Z) :=
  match replicated_square x with
  | Some z => Some [nth 1 x 0; nth 0 x 0; nth 2 z 0]
  | None => None
  end.

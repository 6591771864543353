(** Which draws of the random generators a truncation depends on.

    [div_] (arithmetic.py:446-482) divides shares, so whether its result is right depends on how the divided number happens to be shared.
    The providers below take the draws that decide it from a tape of 64-bit numbers and everything else from an arbitrary provider [pr]:
    with two parties, how the third component of a multiplication triple and the second of a square pair are shared; with three or more
    parties, the masks of [truncate].  rng.py:12-30 draws uniformly from the 2^64 - 1 numbers of [drawn], so a number of tapes is a
    probability times 2^64 - 1 to the power of the tape's length. *)
Require Import ZArith QArith List Bool.
From Verif Require Import Ring64 Encoder Arith Beaver Trunc Provider Binary Compare Maximum Regular Program.
Import ListNotations.
Open Scope Z_scope.

(** rng.py:12-30: [torch.randint(-(2**63), 2**63 - 1)], whose upper end is excluded *)
Definition drawn (u : Z) : Prop := - H63 <= u < H63 - 1.
Definition choices : Z := M64 - 1.

(** [ArithmeticSharedTensor(v, precision=0, src=0)] with two parties (arithmetic.py:101-111, 157-178): a zero sharing in which every draw
    is added by one party and subtracted by the other.  [sh]: the shares apart from the draw [u] of party 1's "prev" generator. *)
Definition reshare (sh : list Z) (u : Z) : list Z := match sh with [a; b] => [wsub a u; wadd b u] | _ => sh end.
(** a request of [pr] that leaves the tape as it is *)
Definition pass {S A} (f : S -> A * S) (st : S * list Z) : A * (S * list Z) := let '(a, s) := f (fst st) in (a, (s, snd st)).

(** tfp_provider.py:20-41: how [c = a * b] and [r2 = r * r] are shared is read from the tape. *)
Definition next_mul_taped (pr : provider) (st : pst pr * list Z) : (list Z * list Z * list Z) * (pst pr * list Z) :=
  let '((a, b, c), s) := next_mul pr (fst st) in
  match snd st with [] => ((a, b, c), (s, [])) | u :: t => ((a, b, reshare c u), (s, t)) end.
Definition next_square_taped (pr : provider) (st : pst pr * list Z) : (list Z * list Z) * (pst pr * list Z) :=
  let '((r, r2), s) := next_square pr (fst st) in
  match snd st with [] => ((r, r2), (s, [])) | u :: t => ((r, reshare r2 u), (s, t)) end.
Definition taped_products (pr : provider) : provider :=
  mkProvider (pst pr * list Z) (pass (next_and pr)) (next_mul_taped pr) (next_square_taped pr) (pass (next_wrap pr)) (pass (next_b2a pr))
    (pass (next_zero pr)) (pass (next_bzero pr)).

(** tfp_provider.py:55-68: the shares of [r] are read from the tape, and party 0's share of [theta_r] is what makes
    [theta_r] the number of wraps of [r] (beaver.py:129-156 needs no more of it). *)
Definition next_wrap_taped (n : nat) (pr : provider) (st : pst pr * list Z) : (list Z * list Z) * (pst pr * list Z) :=
  let '((r0, th), s) := next_wrap pr (fst st) in
  if Nat.leb n (length (snd st)) then
    let r := map wrap (firstn n (snd st)) in
    ((r, on_rank0 (fun a => wadd a (wsub (count_wraps r) (count_wraps r0))) th), (s, skipn n (snd st)))
  else ((r0, th), (s, [])).
Definition taped_masks (n : nat) (pr : provider) : provider :=
  mkProvider (pst pr * list Z) (pass (next_and pr)) (pass (next_mul pr)) (pass (next_square pr)) (next_wrap_taped n pr) (pass (next_b2a pr))
    (pass (next_zero pr)) (pass (next_bzero pr)).

(** How much of the tape a program (Program.v) reads. *)
Definition product_draws (x : instr) : nat :=
  match x with IMul _ _ | ISquare _ | IRelu _ | IAbs _ => 1 | IClamp _ _ _ => 2 | IDot l => length l | _ => 0 end%nat.
Definition mask_draws (n : nat) (x : instr) : nat :=
  match x with IMul _ _ | ISquare _ | IDot _ | IMulQ _ _ | IDotQ _ | IDiv _ _ => n | _ => 0%nat end.
Definition draws (f : instr -> nat) (prog : list instr) : nat := fold_right (fun x k => (f x + k)%nat) 0%nat prog.

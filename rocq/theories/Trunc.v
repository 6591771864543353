(** Wrap counting, division by a public integer, fixed-point products
    (crypten/common/util.py, crypten/mpc/primitives/beaver.py, arithmetic.py, replicated.py). *)
Require Import ZArith List Bool.
From Verif Require Import Ring64 Arith Beaver.
Import ListNotations.
Open Scope Z_scope.

Definition b2z (b : bool) : Z := if b then 1 else 0.

(** util.py:15-28 *)
Fixpoint count_wraps_from (prev result : Z) (l : list Z) : Z :=
  match l with
  | [] => result
  | cur :: l' =>
      let next := wadd cur prev in
      let result := wsub result (b2z ((prev <? 0) && (cur <? 0) && (0 <? next))) in
      let result := wadd result (b2z ((0 <? prev) && (0 <? cur) && (next <? 0))) in
      count_wraps_from next result l'
  end.
Definition count_wraps (l : list Z) : Z := match l with [] => 0 | a :: r => count_wraps_from a 0 r end.

(** beaver.py:129-156 [wraps], one element, all parties.  [x], [r], [theta_r]: shares in rank order. *)
Definition wraps (r theta_r x : list Z) : list Z :=
  let beta := zipw (fun xp rp => count_wraps [xp; rp]) x r in
  let z := zipw wadd x r in
  let theta := sub_priv beta theta_r in
  on_rank0 (fun t => wadd t (count_wraps z)) theta.

(** beaver.py:159-168 [truncate].  [2**62 // y] is Python floor division. *)
Definition truncate (r theta_r x : list Z) (y : Z) : list Z :=
  let wrap_count := wraps r theta_r x in
  let q := map (fun s => tdiv s y) x in
  let correction := mul_int (2 ^ 62 / y) (mul_int 4 wrap_count) in
  zipw wsub q correction.

(** arithmetic.py:465-470 [div_] with one or two parties: every party divides its share. *)
Definition div_local (x : list Z) (y : Z) : list Z := map (fun s => tdiv s y) x.

(** arithmetic.py:446-482 [div_] by a public integer, Beaver protocol. *)
Definition div_ (r theta_r x : list Z) (y : Z) : list Z :=
  if (2 <? Z.of_nat (length x)) then truncate r theta_r x y else div_local x y.

(** beaver.py:31-86 for one element of an elementwise product. *)
Definition mul1 (a b c x y : list Z) : list Z :=
  let eps := open_a (sub_priv x a) in
  let del := open_a (sub_priv y b) in
  add_pub (wmul eps del) (add_priv (add_priv c (mul_int eps b)) (mul_int del a)).

(** arithmetic.py:338-404: product of two encrypted scalars with scales [sx], [sy]; result shares and scale. *)
Definition mul_fixed (a b c r theta_r x y : list Z) (sx sy : Z) : list Z * Z :=
  let raw := mul1 a b c x y in
  match mul_rescale sx sy with
  | (Some d, s) => (div_ r theta_r raw d, s)
  | (None, s) => (raw, s)
  end.

(** ** Replicated three-party protocols (replicated.py) *)
(** replicated.py:15-39: party [p] ends with [(x_p, x_{p-1})]. *)
Definition prev_of {A} (l : list A) : list A := match l with [] => [] | a :: _ => last l a :: removelast l end.

(** replicated.py:42-67, all parties, tensors.  [None] is the ValueError for fewer than three parties. *)
Definition replicated (T : list (list (nat * nat))) (x y : list (list Z)) : option (list (list Z)) :=
  if Nat.ltb (length x) 3 then None
  else Some (zipw (fun x12 y12 =>
         zipw wadd (zipw wadd (bil T (fst x12) (fst y12)) (bil T (fst x12) (snd y12))) (bil T (snd x12) (fst y12)))
       (combine x (prev_of x)) (combine y (prev_of y))).

(** replicated.py:94-102, one element. *)
Definition replicated_square (x : list Z) : option (list Z) :=
  if Nat.ltb (length x) 3 then None
  else Some (zipw (fun x1 x2 => wadd (wmul x1 x1) (wmul (wmul 2 x1) x2)) x (prev_of x)).

(** replicated.py:135-151, one element. *)
Definition replicated_and (x y : list Z) : option (list Z) :=
  if Nat.ltb (length x) 3 then None
  else Some (zipw (fun x12 y12 =>
         Z.lxor (Z.lxor (Z.land (fst x12) (fst y12)) (Z.land (snd x12) (fst y12))) (Z.land (fst x12) (snd y12)))
       (combine x (prev_of x)) (combine y (prev_of y))).

(** replicated.py:105-132; [z] is the zero sharing added at the end.  [None] is NotImplementedError. *)
Definition replicated_truncate (z x : list Z) (y : Z) : option (list Z) :=
  match x with
  | [x0; x1; x2] => Some (zipw wadd [tdiv x0 y; tdiv (wadd x1 x2) y; wsub x2 x2] z)
  | _ => None
  end.

(** Linear operations on arithmetic sharings (crypten/mpc/primitives/arithmetic.py).
    An encrypted scalar is the list of the parties' shares in rank order. *)
Require Import ZArith List.
From Verif Require Import Ring64.
Import ListNotations.
Open Scope Z_scope.

(** arithmetic.py:296-302 [reveal] of one element: all_reduce(SUM) with int64 wrap at each step. *)
Definition open_a (sh : list Z) : Z := fold_left wadd sh 0.
(** binary.py:386-392 [reveal] of one element: all_reduce(BXOR). *)
Definition open_b (sh : list Z) : Z := fold_left Z.lxor sh 0.

(** [if rank == 0: share = f(share)], every other rank unchanged. *)
Definition on_rank0 (f : Z -> Z) (sh : list Z) : list Z := match sh with [] => [] | a :: r => f a :: r end.

(** arithmetic.py:369-374 public add/sub; [y] already encoded (line 367). *)
Definition add_pub (y : Z) (x : list Z) : list Z := on_rank0 (fun a => wadd a y) x.
Definition sub_pub (y : Z) (x : list Z) : list Z := on_rank0 (fun a => wsub a y) x.
(** arithmetic.py:380-387 private add/sub at equal scales. *)
Definition add_priv (x y : list Z) : list Z := zipw wadd x y.
Definition sub_priv (x y : list Z) : list Z := zipw wsub x y.
(** arithmetic.py:422-427 multiplication by a Python int. *)
Definition mul_int (k : Z) (x : list Z) : list Z := map (fun a => wmul a k) x.
(** arithmetic.py:588-595 *)
Definition neg (x : list Z) : list Z := map wneg x.
(** arithmetic.py:662-664 [__rsub__]: [-self + tensor]. *)
Definition rsub_pub (y : Z) (x : list Z) : list Z := add_pub y (neg x).
(** regular.py:285-297 [sum] over elements of one encrypted tensor: each party adds up its own shares. *)
Definition sum_list (n : nat) (xs : list (list Z)) : list Z := fold_left (zipw wadd) xs (repeat 0 n).

(** ** Linear programs over encrypted inputs and public constants *)
Inductive lin :=
| LIn (i : nat) | LAdd (a b : lin) | LSub (a b : lin) | LAddPub (a : lin) (k : Z) | LSubPub (a : lin) (k : Z)
| LRsubPub (k : Z) (a : lin) | LNeg (a : lin) | LMulInt (a : lin) (k : Z).

Fixpoint eval_sh (env : nat -> list Z) (e : lin) : list Z :=
  match e with
  | LIn i => env i
  | LAdd a b => add_priv (eval_sh env a) (eval_sh env b)
  | LSub a b => sub_priv (eval_sh env a) (eval_sh env b)
  | LAddPub a k => add_pub k (eval_sh env a)
  | LSubPub a k => sub_pub k (eval_sh env a)
  | LRsubPub k a => rsub_pub k (eval_sh env a)
  | LNeg a => neg (eval_sh env a)
  | LMulInt a k => mul_int k (eval_sh env a)
  end.

(** ** Linear tensor operations.
    sum, cumsum, trace, index_select, gather, roll, flip, reshape, index_add, scatter_add, _sum_pool2d ... each apply
    the same torch function to every party's share tensor (regular.py:33-117, 135-148; arithmetic.py:510-550, 573-585).
    Such an operation is a table: output [k] accumulates [coef * x_i] over row [k] (wrapping at each step). *)
Definition lin_row (row : list (nat * Z)) (x : list Z) : Z :=
  fold_left (fun acc p => wadd acc (wmul (snd p) (nth (fst p) x 0))) row 0.
Definition lin_op (T : list (list (nat * Z))) (x : list Z) : list Z := map (fun row => lin_row row x) T.
Definition lin_op_sh (T : list (list (nat * Z))) (sh : list (list Z)) : list (list Z) := map (lin_op T) sh.

(** ** Mixed-precision addition with shared storage.
    [store]: memory cells, each holding the shares of one element.  A tensor object is a list of cells (views share
    cells) and the scale of its encoder. *)
Record aobj := mkObj { o_cells : list nat; o_scale : Z }.
Record state := mkState { s_store : nat -> list Z; s_obj : nat -> aobj }.

Definition memb (c : nat) (l : list nat) : bool := existsb (Nat.eqb c) l.
Definition read (s : state) (o : nat) : list (list Z) := map (s_store s) (o_cells (s_obj s o)).
Definition set_obj (s : state) (o : nat) (v : aobj) : state :=
  mkState (s_store s) (fun o' => if Nat.eqb o' o then v else s_obj s o').

(** arithmetic.py:311-322 [encode_], the branch [self.encoder.scale < new_encoder.scale] (the only one add/sub use):
    [self.share *= factor] writes through to the storage; then the encoder is replaced. *)
Definition encode_up (s : state) (o : nat) (new_scale : Z) : state :=
  let ob := s_obj s o in
  let f := new_scale / o_scale ob in
  set_obj (mkState (fun c => if memb c (o_cells ob) then mul_int f (s_store s c) else s_store s c) (s_obj s))
          o (mkObj (o_cells ob) new_scale).

(** arithmetic.py:338-404 with op = add/sub, private, out of place: [result = self.clone()] is taken first. *)
Definition add_scaled (op : Z -> Z -> Z) (s : state) (x y : nat) : (list (list Z) * Z) * state :=
  let rx := read s x in
  let sx := o_scale (s_obj s x) in
  let sy := o_scale (s_obj s y) in
  if sy <? sx then
    let s' := encode_up s y sx in ((zipw (zipw op) rx (read s' y), sx), s')
  else if sx <? sy then
    ((zipw (zipw op) (map (mul_int (sy / sx)) rx) (read s y), sy), s)
  else ((zipw (zipw op) rx (read s y), sx), s).

(** Property theorems C07 and C08. *)
Require Import ZArith QArith List Lia.
From Verif Require Import Ring64 Arith Arith_proofs.
Import ListNotations.
Open Scope Z_scope.

(** C07: any straight-line program of add / sub / negate / public add, sub, rsub / multiplication by a public integer
    reveals to the same program on the revealed inputs, modulo 2^64, for every number of parties and every sharing. *)
Theorem C07_linear_programs : forall n env e, (0 < n)%nat -> (forall i, length (env i) = n) ->
  open_a (eval_sh env e) = wrap (eval_spec (fun i => open_a (env i)) e).
Proof. exact eval_open. Qed.
Print Assumptions C07_linear_programs.

(** C07: linear tensor operations (sum, gather, index_add, sum pooling ...) applied by every party to its own share. *)
Theorem C07_linear_tensor_ops : forall T sh k, (k < length T)%nat ->
  open_a (map (fun t => nth k t 0) (lin_op_sh T sh)) =
  wrap (zsum (map (fun p => snd p * open_a (map (fun t => nth (fst p) t 0) sh)) (nth k T []))).
Proof. exact (fun T sh k Hk => eq_trans (open_a_eq _) (lin_op_open T sh k Hk)). Qed.
Print Assumptions C07_linear_tensor_ops.

(** C07: sum over the elements of a tensor. *)
Theorem C07_sum : forall n xs, Forall (fun x => length x = n) xs -> open_a (sum_list n xs) = wrap (zsum (map open_a xs)).
Proof. exact (fun n xs H => eq_trans (open_a_eq _) (eqm_wrap_eq _ _ (proj2 (sum_list_ok n xs H)))). Qed.
Print Assumptions C07_sum.

Example C07_case : open_a (eval_sh (fun i => match i with O => [H63 - 1; 5; -3] | _ => [1; 2; 4] end)
   (LSub (LMulInt (LAddPub (LIn 0) 10) 3) (LRsubPub 100 (LIn 1)))) = wrap ((H63 + 1 + 10) * 3 - (100 - 7)).
Proof. reflexivity. Qed.
Example C07_sum_case : open_a (sum_list 3 [[1; 2; 3]; [H63 - 1; 0; 0]]) = - H63 + 5.
Proof. reflexivity. Qed.
Example C07_cumsum_case : open_a (map (fun t => nth 1 t 0) (lin_op_sh [[(0%nat, 1)]; [(0%nat, 1); (1%nat, 1)]] [[3; 4]; [-1; 10]])) = 16.
Proof. reflexivity. Qed.

(** C08: sums and differences of tensors with different power-of-two scales are exact when the result fits
    ([sg = 1] add, [sg = -1] sub); holds whatever memory the operands share. *)
Theorem C08_mixed_scale_exact : forall p q (op : Z -> Z -> Z) sg s x y k n,
  (sg = 1 /\ op = wadd) \/ (sg = -1 /\ op = wsub) ->
  0 <= p -> 0 <= q -> o_scale (s_obj s x) = 2 ^ p -> o_scale (s_obj s y) = 2 ^ q ->
  (forall c, length (s_store s c) = n) ->
  length (o_cells (s_obj s x)) = length (o_cells (s_obj s y)) -> (k < length (o_cells (s_obj s x)))%nat ->
  let S := Z.max (2 ^ p) (2 ^ q) in
  let vx := open_a (nth k (read s x) []) in let vy := open_a (nth k (read s y) []) in
  in64 (vx * (S / 2 ^ p) + sg * (vy * (S / 2 ^ q))) ->
  let '((res, sc), _) := add_scaled op s x y in
  (number (open_a (nth k res [])) sc == number vx (2 ^ p) + inject_Z sg * number vy (2 ^ q))%Q.
Proof. exact add_scaled_number. Qed.
Print Assumptions C08_mixed_scale_exact.

(** C08: the right operand is re-encoded in place but stands for the same number afterwards. *)
Theorem C08_operand_kept : forall p q (op : Z -> Z -> Z) s x y c,
  0 <= p -> 0 <= q -> o_scale (s_obj s x) = 2 ^ p -> o_scale (s_obj s y) = 2 ^ q ->
  In c (o_cells (s_obj s y)) -> in64 (open_a (s_store s c) * (Z.max (2 ^ p) (2 ^ q) / 2 ^ q)) ->
  let s' := snd (add_scaled op s x y) in
  (number (open_a (s_store s' c)) (o_scale (s_obj s' y)) == number (open_a (s_store s c)) (2 ^ q))%Q.
Proof. exact operand_kept. Qed.
Print Assumptions C08_operand_kept.

(** C08: complete effect on memory.  Only the right operand's scale changes, and only when it is the smaller one; every
    cell it covers -- including cells it shares with other tensors, whose scale does not change -- is multiplied. *)
Theorem C08_memory_effect : forall (op : Z -> Z -> Z) s x y, 0 < o_scale (s_obj s x) -> 0 < o_scale (s_obj s y) ->
  let s' := snd (add_scaled op s x y) in
  let sx := o_scale (s_obj s x) in let sy := o_scale (s_obj s y) in
  (forall z, o_cells (s_obj s' z) = o_cells (s_obj s z)) /\
  (forall z, o_scale (s_obj s' z) = if Nat.eqb z y then Z.max sx sy else o_scale (s_obj s z)) /\
  (forall c, open_a (s_store s' c) = if (sy <? sx) && memb c (o_cells (s_obj s y))
                                     then wrap (open_a (s_store s c) * (sx / sy)) else open_a (s_store s c)).
Proof. exact add_scaled_state. Qed.
Print Assumptions C08_memory_effect.

(** Object 0: scale 65536, cell 0.  Object 1: a view [base[0]] of object 2, scale 1. *)
Definition c08_state : state :=
  mkState (fun c => match c with O => [65536; 131072] | S O => [4; 3] | _ => [10; 1] end)
          (fun o => match o with O => mkObj [0%nat] 65536 | S O => mkObj [1%nat] 1 | _ => mkObj [1; 2]%nat 1 end).
Example C08_case : let '((res, sc), _) := add_scaled wadd c08_state 0 1 in
  map open_a res = [655360] /\ sc = 65536.
Proof. split; reflexivity. Qed.

(** "Adding two tensors leaves every other tensor alone" is false: [x + base[0]] multiplies [base]. *)
Theorem C08_view_corruption_refuted : exists s x y z, z <> x /\ z <> y /\
  let s' := snd (add_scaled wadd s x y) in
  o_scale (s_obj s' z) = o_scale (s_obj s z) /\ map open_a (read s z) = [7; 11] /\ map open_a (read s' z) = [458752; 11].
Proof. exists c08_state, 0%nat, 1%nat, 2%nat. repeat split; try discriminate; reflexivity. Qed.
Print Assumptions C08_view_corruption_refuted.

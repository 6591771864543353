(** Theorems for C92. *)
Require Import String List ZArith Bool Arith Lia.
From Verif Require Import Ring64 Net Net_claims.
Import ListNotations.
Open Scope nat_scope.

(** C92: with a sum, every element is the sum over the parties, modulo 2^64. *)
Theorem C92_sum : forall n x L i, 2 <= n -> i < L -> nth i (total SUM n x L) 0%Z = wrap (zsum (map (fun p => nth i (x p) 0%Z) (seq 0 n))).
Proof. exact k_C92_sum. Qed.
Print Assumptions C92_sum.
(** C92: with a product, it is their product modulo 2^64. *)
Theorem C92_product : forall n x L i, 2 <= n -> i < L -> nth i (total PRODUCT n x L) 0%Z = wrap (fold_right Z.mul 1%Z (held n x i)).
Proof. exact k_C92_product. Qed.
Print Assumptions C92_product.
(** C92: with a minimum or maximum, it is the least or greatest of them. *)
Theorem C92_extremes : forall n x L i, 0 < n -> i < L -> let lo := nth i (total MIN n x L) 0%Z in let hi := nth i (total MAX n x L) 0%Z in
  In lo (held n x i) /\ In hi (held n x i) /\ forall a, In a (held n x i) -> (lo <= a <= hi)%Z.
Proof. exact k_C92_extremes. Qed.
Print Assumptions C92_extremes.
(** C92: with a bitwise operation, a bit is set when it is set at all, at some, or at an odd number of the parties. *)
Theorem C92_bits : forall n x L i k, 0 < n -> i < L -> let bits := map (fun a => Z.testbit a k) (held n x i) in
  Z.testbit (nth i (total BAND n x L) 0%Z) k = forallb (fun b => b) bits /\ Z.testbit (nth i (total BOR n x L) 0%Z) k = existsb (fun b => b) bits /\
  Z.testbit (nth i (total BXOR n x L) 0%Z) k = Nat.odd (length (filter (fun b => b) bits)).
Proof. exact k_C92_bits. Qed.
Print Assumptions C92_bits.
(** C92: every run of the parties ends, all in the same state and after the same number of steps, whatever the schedule. *)
Theorem C92_outcome : forall (V A : Type) (ps : list (prog unit V A)), exists t n, (forall l, move l t = None) /\
  forall ls u, run ls (initial ps tt) = Some u -> exists ls', run ls' u = Some t /\ length ls + length ls' = n.
Proof. exact @k_C92_outcome. Qed.
Print Assumptions C92_outcome.
(** C92: ... and with effects outside the network too every run can be continued to an end, where no party can move. *)
Theorem C92_ends : forall (W V A : Type) (s : state W V A) ls u, run ls s = Some u -> exists t ls', run (ls ++ ls') s = Some t /\ forall l, move l t = None.
Proof. exact @k_C92_ends. Qed.
Print Assumptions C92_ends.
(** C92: all_reduce gives every party the reduction; the parties then go on with it. *)
Theorem C92_all_reduce : forall (W V A : Type) n x L o (K : nat -> value -> prog W V A) ch w t, 2 <= n -> (forall p, p < n -> length (x p) = L) ->
  (ends (net n (fun p => all_reduce n (mkMsg Long (x p)) o (K p)) ch w) t <-> ends (net n (fun p => K p (VTensor (mkMsg Long (total o n x L)))) ch w) t).
Proof. exact @k_C92_all_reduce. Qed.
Print Assumptions C92_all_reduce.
(** C92: all_reduce of a list of tensors reduces each with the other parties' tensor at the same place. *)
Theorem C92_all_reduce_batched : forall (W V A : Type) n (xs : list (nat -> list Z)) L o (K : nat -> list value -> prog W V A) ch w t, 2 <= n -> (forall x, In x xs -> forall p, p < n -> length (x p) = L x) ->
  (ends (net n (fun p => all_reduce_batched (map (fun x => mkMsg Long (x p)) xs) o (K p)) ch w) t <-> ends (net n (fun p => K p (map (fun x => VTensor (mkMsg Long (total o n x (L x)))) xs)) ch w) t).
Proof. exact @k_C92_all_reduce_batched. Qed.
Print Assumptions C92_all_reduce_batched.
(** C92: reduce gives it to the destination only. *)
Theorem C92_reduce : forall (W V A : Type) n x L o dst (K : nat -> value -> prog W V A) ch w t, 2 <= n -> dst < n -> (forall p, p < n -> length (x p) = L) ->
  (ends (net n (fun p => reduce n (mkMsg Long (x p)) dst o (K p)) ch w) t <-> ends (net n (fun p => K p (if p =? dst then VTensor (mkMsg Long (total o n x L)) else VNone)) ch w) t).
Proof. exact @k_C92_reduce. Qed.
Print Assumptions C92_reduce.
(** C92: gather gives the destination the tensors in the order of the ranks. *)
Theorem C92_gather : forall (W V A : Type) n x L dst (K : nat -> error + value -> prog W V A) ch w t, 2 <= n -> dst < n -> (forall p, p < n -> length (x p) = L) ->
  (ends (net n (fun p => gather n p (mkMsg Long (x p)) dst (K p)) ch w) t <-> ends (net n (fun p => K p (inr (if p =? dst then VList (map (fun q => mkMsg Long (x q)) (seq 0 n)) else VNones))) ch w) t).
Proof. exact @k_C92_gather. Qed.
Print Assumptions C92_gather.
(** C92: all_gather gives them to every party. *)
Theorem C92_all_gather : forall (W V A : Type) n x L (K : nat -> error + value -> prog W V A) ch w t, 2 <= n -> (forall p, p < n -> length (x p) = L) ->
  (ends (net n (fun p => all_gather n (mkMsg Long (x p)) (K p)) ch w) t <-> ends (net n (fun p => K p (inr (VList (map (fun q => mkMsg Long (x q)) (seq 0 n))))) ch w) t).
Proof. exact @k_C92_all_gather. Qed.
Print Assumptions C92_all_gather.
(** C92: broadcast gives every party the source's tensor, whatever its type. *)
Theorem C92_broadcast : forall (W V A : Type) n ty x L src (K : nat -> value -> prog W V A) ch w t, 2 <= n -> src < n -> (forall p, p < n -> length (x p) = L) ->
  (ends (net n (fun p => broadcast n (mkMsg ty (x p)) src (K p)) ch w) t <-> ends (net n (fun p => K p (VTensor (mkMsg ty (x src)))) ch w) t).
Proof. exact @k_C92_broadcast. Qed.
Print Assumptions C92_broadcast.
(** C92: scatter gives party p the source's p-th tensor; the lists of the other parties do not matter. *)
Theorem C92_scatter : forall (W V A : Type) n (x : nat -> list Z) L (other : nat -> list msg) src (K : nat -> value -> prog W V A) ch w t, 2 <= n -> src < n -> (forall p, p < n -> length (x p) = L) ->
  (ends (net n (fun p => scatter n p (if p =? src then map (fun q => mkMsg Long (x q)) (seq 0 n) else other p) src L (K p)) ch w) t <-> ends (net n (fun p => K p (VTensor (mkMsg Long (x p)))) ch w) t).
Proof. exact @k_C92_scatter. Qed.
Print Assumptions C92_scatter.
(** C92: after a barrier the parties go on. *)
Theorem C92_barrier : forall (W V A : Type) n (K : nat -> prog W V A) ch w t, 0 < n -> (ends (net n (fun p => barrier (K p)) ch w) t <-> ends (net n K ch w) t).
Proof. exact @k_C92_barrier. Qed.
Print Assumptions C92_barrier.
(** C92: parties that enter different collectives (kind, root, operation, type or number of elements) all stay there. *)
Theorem C92_mismatch : forall (W V A : Type) n c (k : nat -> reply -> prog W V A) ch w t p q, p < n -> q < n -> matches (c p) (c q) = false ->
  ends (net n (fun p => Call (c p) (k p)) ch w) t -> t = net n (fun p => Call (c p) (k p)) ch w.
Proof. exact @k_C92_mismatch. Qed.
Print Assumptions C92_mismatch.
(** C92: any number of objects sent from p to q arrive in order and whole, whatever all other parties do meanwhile. *)
Theorem C92_objects : forall (V A O : Type) (dumps : O -> list Z) (loads : list Z -> error + O) os (ps : list (prog unit V A)) ch p q K K' t, length ch = length ps * length ps -> p <> q -> (forall o, In o os -> is_buffer (dumps o)) ->
  nth_error ps p = Some (send_all dumps os q K) -> nth_error ps q = Some (recv_all loads (length os) p K') -> nth (p * length ps + q) ch [] = [] ->
  (ends (mkState ps ch tt) t <-> ends (mkState (set_nth p (K (inr tt)) (set_nth q (K' (map (fun o => loads (dumps o)) os)) ps)) ch tt) t).
Proof. exact @k_C92_objects. Qed.
Print Assumptions C92_objects.
(** C92 refuted for objects of 2^31 bytes and more: the sender fails and the receiver waits for ever. *)
Theorem C92_large_refuted : forall (V O : Type) (dumps : O -> list Z) (loads : list Z -> error + O) o t, (2 ^ 31 <= Z.of_nat (length (dumps o)))%Z ->
  @ends unit V _ (initial [send_obj dumps o 1 (fun r => Done (inl r)); recv_obj loads 0 (fun r => Done (inr r))] tt) t ->
  nth_error (procs t) 0 = Some (Done (inl (inl SizeOverflow))) /\ waits t 1.
Proof. exact @k_C92_large_refuted. Qed.
Print Assumptions C92_large_refuted.
(** C92: broadcast_obj gives every party what it makes of the source's bytes, and the source its own object. *)
Theorem C92_broadcast_obj : forall (W V A O : Type) n (dumps : O -> list Z) (loads : nat -> list Z -> error + O) (o : nat -> option O) v src (K : nat -> error + option O -> prog W V A) ch w t, 2 <= n -> src < n -> o src = Some v -> is_buffer (dumps v) ->
  (ends (net n (fun p => broadcast_obj dumps (loads p) n p (o p) src (K p)) ch w) t <->
   ends (net n (fun p => K p (if p =? src then inr (Some v) else match loads p (dumps v) with inl e => inl e | inr u => inr (Some u) end)) ch w) t).
Proof. exact @k_C92_broadcast_obj. Qed.
Print Assumptions C92_broadcast_obj.
(** C92 refuted when the source fails (None, or too large an object): it goes on alone and all other parties wait for ever. *)
Theorem C92_source_fails_refuted : forall (W V A O : Type) n (dumps : O -> list Z) (loads : nat -> list Z -> error + O) (o : nat -> option O) src (K : nat -> error + option O -> prog W V A) ch w t r, 2 <= n -> src < n -> match o src with None => True | Some v => (2 ^ 31 <= Z.of_nat (length (dumps v)))%Z end -> (forall e, K src (inl e) = Done r) ->
  ends (net n (fun p => broadcast_obj dumps (loads p) n p (o p) src (K p)) ch w) t -> nth_error (procs t) src = Some (Done r) /\ forall p, p < n -> p <> src -> waits t p.
Proof. exact @k_C92_source_fails_refuted. Qed.
Print Assumptions C92_source_fails_refuted.
(** C92 refuted for gather of tensors that are not int64: the destination raises and all other parties wait for ever. *)
Theorem C92_gather_type_refuted : forall (W V A : Type) n (m : nat -> msg) dst (K : nat -> error + value -> prog W V A) ch w t r, 2 <= n -> dst < n -> kind (m dst) <> Long -> K dst (inl TypeMismatch) = Done r ->
  ends (net n (fun p => gather n p (m p) dst (K p)) ch w) t -> nth_error (procs t) dst = Some (Done r) /\ forall p, p < n -> p <> dst -> waits t p.
Proof. exact @k_C92_gather_type_refuted. Qed.
Print Assumptions C92_gather_type_refuted.
(** C92 refuted for a single party: scatter returns the whole list there, and its own tensor with more parties. *)
Theorem C92_scatter_alone_refuted : forall (W V A : Type) l src size (K : value -> prog W V A), scatter 1 0 l src size K = K (VList l).
Proof. exact @k_C92_scatter_alone_refuted. Qed.
Print Assumptions C92_scatter_alone_refuted.

(** *** Cases *)
(** three parties: 0 sends two objects to 1, 2 sends a tensor to 0; the steps in another order give the same *)
Definition dumps3 (o : nat) : list Z := [128; 5; 255; Z.of_nat o]%Z.
Definition loads3 (b : list Z) : error + nat := match b with [128; 5; 255; z]%Z => inr (Z.to_nat z) | _ => inl Unpicklable end.
Definition three : list (prog unit unit (list (error + nat) + value)) :=
  [send_all dumps3 [7; 9] 1 (fun _ => recv 3 (mkMsg Long [0; 0]%Z) 2 (fun v => Done (inr v)));
   recv_all loads3 2 0 (fun rs => Done (inl rs));
   send 3 (mkMsg Long [4; 6]%Z) 0 (fun v => Done (inr v))].
Example C92_objects_case : length (repeat (@nil msg) 9) = length three * length three /\ (forall o, In o [7; 9] -> is_buffer (dumps3 o)) /\ nth (0 * length three + 1) (repeat (@nil msg) 9) [] = [] /\
  let final := Some (mkState [Done (inr (VTensor (mkMsg Long [4; 6]%Z))); Done (inl [inr 7; inr 9]); Done (inr VNone)] (repeat [] 9) tt) in
  run [Some 0; Some 0; Some 0; Some 0; Some 2; Some 0; Some 1; Some 1; Some 1; Some 1] (initial three tt) = final /\
  run [Some 2; Some 0; Some 0; Some 1; Some 0; Some 1; Some 1; Some 0; Some 1; Some 0] (initial three tt) = final /\ run [Some 1] (initial three tt) = None.
Proof. split; [reflexivity|]. split; [|repeat split]. intros o [<-|[<-|[]]]; (split; [repeat (apply Forall_cons; [lia|]); apply Forall_nil|reflexivity]). Qed.
Example C92_reduce_case : run [None; None] (initial (map (fun p => all_reduce 3 (mkMsg Long [nth p [1; 2 ^ 63 - 1; 5] 0; - Z.of_nat p]%Z) SUM (fun v => reduce 3 (mkMsg Long [Z.of_nat p]%Z) 1 BXOR (fun u => Done (v, u)))) (seq 0 3)) tt : state unit unit (value * value)) =
  Some (mkState [Done (VTensor (mkMsg Long [- 2 ^ 63 + 5; -3]%Z), VNone); Done (VTensor (mkMsg Long [- 2 ^ 63 + 5; -3]%Z), VTensor (mkMsg Long [3]%Z)); Done (VTensor (mkMsg Long [- 2 ^ 63 + 5; -3]%Z), VNone)] (repeat [] 9) tt) /\
  total SUM 3 (fun p => [nth p [1; 2 ^ 63 - 1; 5] 0; - Z.of_nat p]%Z) 2 = [- 2 ^ 63 + 5; -3]%Z.
Proof. split; vm_compute; reflexivity. Qed.
Example C92_gather_case : run [None; None] (initial (map (fun p => gather 2 p (mkMsg Long [Z.of_nat p + 10]%Z) 1 (fun v => scatter 2 p [mkMsg Long [5]%Z; mkMsg Long [6]%Z] 0 1 (fun u => Done (v, u)))) (seq 0 2)) tt : state unit unit ((error + value) * value)) =
  Some (mkState [Done (inr VNones, VTensor (mkMsg Long [5]%Z)); Done (inr (VList [mkMsg Long [10]%Z; mkMsg Long [11]%Z]), VTensor (mkMsg Long [6]%Z))] (repeat [] 4) tt).
Proof. reflexivity. Qed.
(** parties that reduce to different destinations stay there *)
Example C92_mismatch_case : let c p := Reduce p SUM (mkMsg Long [1]%Z) in matches (c 0) (c 1) = false /\ matches (Broadcast 0 (mkMsg Long [1]%Z)) (Broadcast 0 (mkMsg Long [1; 2]%Z)) = false /\ matches Barrier (AllGather (mkMsg Long [1]%Z)) = false /\
  forall l, move l (net 2 (fun p => Call (c p) (fun r => Done r)) (repeat [] 4) tt : state unit unit reply) = None.
Proof. repeat split. intros [[|[|[|]]]|]; reflexivity. Qed.
Example C92_broadcast_obj_case : is_buffer (dumps3 8) /\ run [None; None] (net 2 (fun p => broadcast_obj dumps3 loads3 2 p (if p =? 1 then Some 8 else None) 1 (fun r => Done r)) (repeat [] 4) tt : state unit unit (error + option nat)) = Some (net 2 (fun _ => Done (inr (Some 8))) (repeat [] 4) tt).
Proof. split; [split; [repeat (apply Forall_cons; [lia|]); apply Forall_nil|reflexivity]|reflexivity]. Qed.
Example C92_source_fails_case : forall l, move l (net 2 (fun p => broadcast_obj dumps3 loads3 2 p None 1 (fun r => Done r)) (repeat [] 4) tt : state unit unit (error + option nat)) = None.
Proof. intros [[|[|[|]]]|]; reflexivity. Qed.
(** a buffer of 2^31 bytes: nothing is computed with it *)
Example C92_large_case : (2 ^ 31 <= Z.of_nat (length (repeat 0%Z (Z.to_nat (2 ^ 31)))))%Z.
Proof. rewrite repeat_length, Z2Nat.id; lia. Qed.
Example C92_batched_case : run [None; None] (initial (map (fun p => all_reduce_batched [mkMsg Long [Z.of_nat p]; mkMsg Long [5; Z.of_nat p - 1]]%Z BXOR (fun v => Done v)) (seq 0 2)) tt : state unit unit (list value)) = Some (mkState (repeat (Done [VTensor (mkMsg Long [1]%Z); VTensor (mkMsg Long [0; -1]%Z)]) 2) (repeat [] 4) tt).
Proof. reflexivity. Qed.
Example C92_operations_case : let x p := [Z.of_nat p + 5; -3]%Z in held 3 x 0 = [5; 6; 7]%Z /\ total PRODUCT 3 x 2 = [210; -27]%Z /\ total MIN 3 x 2 = [5; -3]%Z /\ total MAX 3 x 2 = [7; -3]%Z /\ total BAND 3 x 2 = [4; -3]%Z /\ total BOR 3 x 2 = [7; -3]%Z /\ total BXOR 3 x 2 = [4; -3]%Z.
Proof. vm_compute. repeat split; reflexivity. Qed.

(** C90: shared memory of encrypted tensors. *)
Require Import ZArith List Bool Arith Lia.
From Verif Require Import Ring64 Views Views_claims Views_claims2.
Import ListNotations.
Local Open Scope nat_scope.

(** C90: careful programs give every tensor the elements PyTorch gives it, and raise where PyTorch raises, at every party *)
Theorem C90_pytorch : forall n, 0 < n -> forall mean prog, Forall (proper n mean) prog -> careful n start prog ->
  match run n start prog with
  | Done st => exists r, r_run n mean r_start prog (Some r) /\ agree n st r
  | Raised w => r_run n mean r_start prog None /\ forall p, p < n -> w p = true
  end.
Proof. exact k_C90_pytorch. Qed.
Print Assumptions C90_pytorch.
(** two parties; x = [5, 7] at scale 1, v = x[1:], y = [10], v += y *)
Definition x2 (p : nat) : list Z := match p with 0 => [2; 9]%Z | _ => [3; -2]%Z end.
Definition y1 (p : nat) : list Z := match p with 0 => [4]%Z | _ => [6]%Z end.
Definition adding : list stmt := [Encrypt x2 1; View 0 [1]; Encrypt y1 1; InPlace 1 add_op [1; 2]].
Definition plus_only (o : operation) : meaning := add_meaning.
Example C90_pytorch_satisfiable : Forall (proper 2 plus_only) adding /\ careful 2 start adding /\
  match run 2 start adding with Done st => plain 2 st 0 = [(5, 1); (17, 1)]%Z /\ plain 2 st 1 = [(17, 1)]%Z | Raised _ => False end.
Proof.
  split; [|split].
  - repeat apply Forall_cons; try apply Forall_nil; cbn [proper]; try exact I; try (intros [|[|]] H; reflexivity). apply add_implements; lia.
  - cbn. repeat split. intros [|[|[|]]] H N M; try lia; reflexivity.
  - split; vm_compute; reflexivity.
Qed.
(** and one that raises: assigning through an expanded view *)
Example C90_pytorch_raises : let prog := [Encrypt y1 1; View 0 [0; 0]; Encrypt x2 1; SetItem 1 [0; 1] 2] in
  Forall (proper 2 plus_only) prog /\ careful 2 start prog /\ match run 2 start prog with Done _ => False | Raised w => w 0 = true /\ w 1 = true end.
Proof.
  split; [|split].
  - repeat apply Forall_cons; try apply Forall_nil; cbn [proper]; try exact I; intros [|[|]] H; reflexivity.
  - cbn. repeat split. discriminate.
  - split; vm_compute; reflexivity.
Qed.

(** C90: an out-of-place call leaves every existing tensor as it was, at every party, in every program *)
Theorem C90_frame : forall n prog s st st', run n start prog = Done st -> out_of_place s -> step n st s = Done st' ->
  forall x p, x < length (vars st) -> x < length (vars st') /\ held st' x p = held st x p.
Proof. exact k_C90_frame. Qed.
Print Assumptions C90_frame.
Example C90_frame_satisfiable : match run 2 start adding with
  | Done st => match step 2 st (AddPublic 1 [0; 0] [1; 2]%Z) with Done st' => length (vars st) = 3 /\ held st' 1 1 = ([4%Z], 1%Z) | Raised _ => False end
  | Raised _ => False end.
Proof. vm_compute. auto. Qed.

(** C90: a write changes no tensor that has no element in common with its target *)
Theorem C90_apart : forall n prog s st st' x y p, run n start prog = Done st -> step n st s = Done st' -> target s = Some x ->
  y < length (vars st) -> y <> x -> length (off (var st x) p) = size (var st x) -> apart st x y p -> held st' y p = held st y p.
Proof. exact k_C90_apart. Qed.
Print Assumptions C90_apart.
(** v = x[1:] is written, u = x[:1] stays *)
Example C90_apart_satisfiable : match run 2 start [Encrypt x2 1; View 0 [1]; View 0 [0]; Encrypt y1 1] with
  | Done st => sto (var st 1) = sto (var st 2) /\ apart st 1 2 0 /\
      match step 2 st (SetItem 1 [0] 3) with Done st' => held st' 2 0 = ([2%Z], 1%Z) /\ held st' 0 0 = ([2; 4]%Z, 1%Z) | Raised _ => False end
  | Raised _ => False end.
Proof. cbn. split; [reflexivity|]. split; [|auto]. right. cbn. intros o [<-|[]] [|[]]. discriminate. Qed.

(** C90: after [z = x + y] with a broadcast [x], [z[0] = w] also changes the other elements of [z], by what the shares of [w] and [x] differ *)
Theorem C90_broadcast_setitem : forall n (x w : nat -> list Z) s (ys : list Z), 0 < n -> 2 <= length ys -> forall zx zw, single x zx n -> single w zw n ->
  exists st, run n start (assign_after_sum x s ys w) = Done st /\ nth 0 (plain n st 1) (0, 0)%Z = (zw, s) /\
    forall k, 0 < k < length ys -> nth k (plain n st 1) (0, 0)%Z = (wrap (zx + nth k ys 0%Z + (others w n - others x n))%Z, s).
Proof. exact k_C90_broadcast_setitem. Qed.
Print Assumptions C90_broadcast_setitem.
(** x = 7 shared as 1000 and -993, w = 8 shared as 1 and 7, z = x + [0, 0]: then z = [8, 1007] *)
Example C90_broadcast_setitem_satisfiable :
  let x p := match p with 0 => [1000%Z] | _ => [(-993)%Z] end in let w p := match p with 0 => [1%Z] | _ => [7%Z] end in
  single x 7 2 /\ single w 8 2 /\ match run 2 start (assign_after_sum x 1 [0; 0]%Z w) with Done st => plain 2 st 1 = [(8, 1); (1007, 1)]%Z | Raised _ => False end.
Proof. split; [|split]; [split; [intros [|]; reflexivity|reflexivity]..|vm_compute; reflexivity]. Qed.

(** C90: after such a sum an in-place operation succeeds at party 0 and raises at every other party *)
Theorem C90_broadcast_inplace : forall n (x : nat -> list Z) s (ys : list Z), 0 < n -> 2 <= length ys -> forall zx, single x zx n ->
  forall o args, Forall (fun a => a < 2) args ->
  (forall st, run n start [Encrypt x s; AddPublic 0 (repeat 0 (length ys)) ys] = Done st ->
    length (fst (o (map (fun y => (share st (var st y), scale (var st y))) args)) 0) = length ys) -> 2 <= n ->
  exists who, run n start [Encrypt x s; AddPublic 0 (repeat 0 (length ys)) ys; InPlace 1 o args] = Raised who /\
    who 0 = false /\ forall p, 0 < p -> who p = true.
Proof. exact k_C90_broadcast_inplace. Qed.
Print Assumptions C90_broadcast_inplace.
Example C90_broadcast_inplace_satisfiable : single y1 10 2 /\
  match run 2 start [Encrypt y1 1; AddPublic 0 [0; 0] [1; 2]%Z] with
  | Done st => length (fst (add_op (map (fun y => (share st (var st y), scale (var st y))) [1; 1])) 0) = 2 | Raised _ => False end /\
  match run 2 start [Encrypt y1 1; AddPublic 0 [0; 0] [1; 2]%Z; InPlace 1 add_op [1; 1]] with Raised w => w 0 = false /\ w 1 = true | Done _ => False end.
Proof. split; [split; [intros [|]; reflexivity|reflexivity]|split; [vm_compute; reflexivity|vm_compute; auto]]. Qed.

(** C90: an in-place operation that changes the scale leaves a view with the new integers and the old scale *)
Theorem C90_stale : forall n sh s o, 0 < n -> even sh -> even (fst (o [(sh, s)])) -> length (fst (o [(sh, s)]) 0) = length (sh 0) ->
  (forall f, (forall p, f p = sh p) -> o [(f, s)] = o [(sh, s)]) ->
  exists st, run n start [Encrypt sh s; View 0 (seq 0 (length (sh 0))); InPlace 0 o [0]] = Done st /\
    plain n st 0 = at_scale (snd (o [(sh, s)])) (reveal n (fst (o [(sh, s)]))) /\
    plain n st 1 = at_scale s (reveal n (fst (o [(sh, s)]))).
Proof. exact k_C90_stale. Qed.
Print Assumptions C90_stale.
(** [x.ge_(y)] with a result of ones: x becomes [1, 1], its view [1/65536, 1/65536] *)
Definition ones_op : operation := fun args =>
  (fun p => match p with 0 => map (fun _ => 1%Z) (seq 0 (length (fst (hd (fun _ => [], 1%Z) args) 0))) | _ => map (fun _ => 0%Z) (seq 0 (length (fst (hd (fun _ => [], 1%Z) args) 0))) end, 1%Z).
Example C90_stale_satisfiable : even x2 /\ even (fst (ones_op [(x2, 65536%Z)])) /\ length (fst (ones_op [(x2, 65536%Z)]) 0) = 2 /\
  match run 2 start [Encrypt x2 65536; View 0 [0; 1]; InPlace 0 ones_op [0]] with
  | Done st => plain 2 st 0 = [(1, 1); (1, 1)]%Z /\ plain 2 st 1 = [(1, 65536); (1, 65536)]%Z | Raised _ => False end.
Proof. split; [intros [|]; reflexivity|]. split; [intros [|]; reflexivity|]. split; [reflexivity|]. vm_compute. auto. Qed.

(** C90: an assigned value is read with the scale of the tensor it is assigned to, whatever its own scale was *)
Theorem C90_setitem_scale : forall n x s w s' k zw, 0 < n -> even x -> k < length (x 0) -> single w zw n ->
  exists st, run n start [Encrypt x s; Encrypt w s'; SetItem 0 [k] 1] = Done st /\
    nth k (plain n st 0) (0, 0)%Z = (zw, s) /\ plain n st 1 = [(zw, s')] /\
    forall j, j < length (x 0) -> j <> k -> nth j (plain n st 0) (0, 0)%Z = (nth j (reveal n x) 0%Z, s).
Proof. exact k_C90_setitem_scale. Qed.
Print Assumptions C90_setitem_scale.
(** a result of a comparison (scale 1) to which 10/65536 is assigned holds the integer 10 *)
Example C90_setitem_scale_satisfiable : even x2 /\ single y1 10 2 /\
  match run 2 start [Encrypt x2 1; Encrypt y1 65536; SetItem 0 [1] 1] with Done st => plain 2 st 0 = [(5, 1); (10, 1)]%Z | Raised _ => False end.
Proof. split; [intros [|]; reflexivity|]. split; [split; [intros [|]; reflexivity|reflexivity]|vm_compute; reflexivity]. Qed.

(** C90: without the conditions on writes CrypTen's tensors are not PyTorch's *)
Theorem C90_any_program_refuted : forall mean, exists prog st r, Forall (proper 2 mean) prog /\ run 2 start prog = Done st /\ r_run 2 mean r_start prog (Some r) /\ ~ agree 2 st r.
Proof. exact k_C90_any_program_refuted. Qed.
Print Assumptions C90_any_program_refuted.

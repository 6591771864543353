(** C87: what a coalition sees of the protocols with the trusted third party. *)
Require Import List ZArith Bool Arith Lia.
From Verif Require Import Ring64 Sharing Arith Beaver Trunc Secrecy Secrecy_claims Secrecy_claims2.
Import ListNotations.
Open Scope Z_scope.

(** C87: whatever a coalition that leaves one party out sees of any sequence of operations can be computed from its own inputs, the revealed shares and fresh randomness of the same form; the correspondence between the two randomnesses is one-to-one *)
Theorem C87_simulation : forall honest n p prog st, (p < n)%nat -> honest p = true -> state_ok n st -> exists f g, bijection (random_ok n prog) f g /\
  forall rnd, random_ok n prog rnd -> view honest (exec prog rnd st) = simulate honest p prog (f rnd) (revealed_shares honest prog rnd st) (view honest st).
Proof. exact k_C87_simulation. Qed.
Print Assumptions C87_simulation.
(** C87: without a reveal, states that only differ in honest parties' registers cannot be told apart: the views have the same distribution *)
Theorem C87_no_reveal : forall honest n p prog st st', (p < n)%nat -> honest p = true -> state_ok n st -> state_ok n st' -> view honest st = view honest st' ->
  Forall (fun i => match i with Reveal _ _ => False | _ => True end) prog -> exists f g, bijection (random_ok n prog) f g /\
  forall rnd, random_ok n prog rnd -> view honest (exec prog rnd st) = view honest (exec prog (f rnd) st').
Proof. exact k_C87_no_reveal. Qed.
Print Assumptions C87_no_reveal.
(** C87: all parties but one together see nothing beyond what their inputs and the values returned by the reveals give them *)
Theorem C87_all_but_one : forall n p prog st, (p < n)%nat -> state_ok n st -> exists f g, bijection (random_ok n prog) f g /\
  forall rnd, random_ok n prog rnd -> view (Nat.eqb p) (exec prog rnd st) = simulate_opened p prog (f rnd) (opened prog rnd st) (view (Nat.eqb p) st).
Proof. exact k_C87_all_but_one. Qed.
Print Assumptions C87_all_but_one.
(** C87: so two secrets of party [p] for which every run reveals the same values give all the others the same distribution of views *)
Theorem C87_same_outputs : forall n p prog st st' values, (p < n)%nat -> state_ok n st -> state_ok n st' -> view (Nat.eqb p) st = view (Nat.eqb p) st' ->
  (forall rnd, random_ok n prog rnd -> opened prog rnd st = values /\ opened prog rnd st' = values) -> exists f g, bijection (random_ok n prog) f g /\
  forall rnd, random_ok n prog rnd -> view (Nat.eqb p) (exec prog rnd st) = view (Nat.eqb p) (exec prog (f rnd) st').
Proof. exact k_C87_same_outputs. Qed.
Print Assumptions C87_same_outputs.
(** C87: p_mul is the multiplication of beaver.py with a correct triple *)
Theorem C87_mul : forall n k x y d st, (1 <= n)%nat -> regs_ok n k st -> (x < k)%nat -> (y < k)%nat -> draws_ok n [(KSub, x); (KSub, y)] [(false, product_of)] d ->
  let a := mask_shares n 0 d in let b := mask_shares n 1 d in let c := corr_shares n 0 d (false, product_of) in
  column (k + 2 + 2 * n + 1) (exec (p_mul n k x y) [d] st) = mul1 a b c (column x st) (column y st) /\ zsum c == zsum a * zsum b.
Proof. exact k_C87_mul. Qed.
Print Assumptions C87_mul.
(** C87: p_square is the squaring of beaver.py with a correct pair *)
Theorem C87_square : forall n k x d st, (1 <= n)%nat -> regs_ok n k st -> (x < k)%nat -> draws_ok n [(KSub, x)] [(false, square_of)] d ->
  let r := mask_shares n 0 d in let r2 := corr_shares n 0 d (false, square_of) in
  column (k + 1 + n + 1) (exec (p_square n k x) [d] st) = square r r2 (column x st) /\ zsum r2 == zsum r * zsum r.
Proof. exact k_C87_square. Qed.
Print Assumptions C87_square.
(** C87: p_and is the bitwise and of beaver.py with a correct triple *)
Theorem C87_and : forall n k x y d st, (1 <= n)%nat -> regs_ok n k st -> (x < k)%nat -> (y < k)%nat -> draws_ok n [(KXor, x); (KXor, y)] [(true, and_of)] d ->
  let a := mask_shares n 0 d in let b := mask_shares n 1 d in let c := corr_shares n 0 d (true, and_of) in
  column (k + 2 + 2 * n + 1) (exec (p_and n k x y) [d] st) = and_beaver a b c (column x st) (column y st) /\ zxor c = Z.land (zxor a) (zxor b).
Proof. exact k_C87_and. Qed.
Print Assumptions C87_and.
(** C87: p_b2a is the conversion of one bit in beaver.py with a correct pair *)
Theorem C87_b2a : forall n k x d st, (1 <= n)%nat -> regs_ok n k st -> (x < k)%nat -> draws_ok n [(KBit, x)] [(false, bit_of)] d ->
  let rB := mask_shares n 0 d in let rA := corr_shares n 0 d (false, bit_of) in
  column (k + 1 + n + 1) (exec (p_b2a n k x) [d] st) = b2a_single_bit rA rB (map (fun s => Z.land s 1) (column x st)) /\ zsum rA == zxor rB.
Proof. exact k_C87_b2a. Qed.
Print Assumptions C87_b2a.
(** C87: p_wraps is the wrap count of beaver.py with a correct pair *)
Theorem C87_wraps : forall n k x d st, (1 <= n)%nat -> regs_ok n k st -> (x < k)%nat -> draws_ok n [(KAdd, x)] [(false, wraps_of)] d ->
  let r := mask_shares n 0 d in let theta := corr_shares n 0 d (false, wraps_of) in
  column (k + 1 + n + 1) (exec (p_wraps n k x) [d] st) = wraps r theta (column x st) /\ zsum theta == count_wraps r.
Proof. exact k_C87_wraps. Qed.
Print Assumptions C87_wraps.
(** C87: in that program all parties but party 0 see the same for any two numbers of party 0 with the same product, however the zero sharings were drawn *)
Theorem C87_product : forall n z1 z2 x x' y, (2 <= n)%nat -> in64 x -> in64 x' -> in64 y -> length z1 = n -> length z2 = n -> zsum z1 == 0 -> zsum z2 == 0 -> x * y == x' * y ->
  exists f g, bijection (random_ok n (p_product n z1 z2)) f g /\ forall rnd, random_ok n (p_product n z1 z2) rnd ->
  opened (p_product n z1 z2) rnd (inputs n x y) = [wmul x y] /\
  view (Nat.eqb 0) (exec (p_product n z1 z2) rnd (inputs n x y)) = view (Nat.eqb 0) (exec (p_product n z1 z2) (f rnd) (inputs n x' y)).
Proof. exact k_C87_product. Qed.
Print Assumptions C87_product.

(** *** Cases that meet the hypotheses *)
(** three parties, party 0 has 3, party 1 has 4 *)
Definition ex_rnd : list draws := [[([11; -12], [5]); ([13; 14], [-6]); ([15; -16], [7])]].
Definition ex_prog : list instr := p_product 3 [5; -2; -3] [1; 1; -2].
Example C87_random_case : random_ok 3 ex_prog ex_rnd.
Proof.
  cbn. split; [|reflexivity]. split; [reflexivity|]. intros i Hi. assert (B : forall z, -1000 <= z < 1000 -> in64 z) by (unfold in64, H63; lia).
  destruct i as [|[|[|i]]]; [| | |lia]; (split; [reflexivity|]; split; [reflexivity|]; split;
    [intros j k E; destruct j as [|[|j]]; [| |destruct j; discriminate]; injection E as <-; apply B; cbn; lia|intros l Hl; destruct l; [apply B; cbn; lia|cbn in Hl; lia]]).
Qed.
Example C87_run_case : opened ex_prog ex_rnd (inputs 3 3 4) = [12] /\ map (@length Z) (exec ex_prog ex_rnd (inputs 3 3 4)) = [16; 16; 16]%nat /\
  map (@length Z) (view (fun i => Nat.eqb i 2) (exec ex_prog ex_rnd (inputs 3 3 4))) = [16; 16; 0]%nat /\ state_ok 3 (inputs 3 3 4).
Proof. split; [vm_compute; reflexivity|]. split; [vm_compute; reflexivity|]. split; [vm_compute; reflexivity|]. apply (inputs_ok 3 3 4); unfold in64, H63; lia. Qed.
(** two honest parties: their revealed shares are part of what the simulator needs *)
Example C87_shares_case : revealed_shares (fun i => Nat.ltb 0 i) ex_prog ex_rnd (inputs 3 3 4) = [[0; -276; 853]].
Proof. vm_compute. reflexivity. Qed.
(** different secrets of party 0 with the same product modulo 2^64 *)
Example C87_product_case : 3 * 4 == (3 + 2 ^ 62) * 4 /\ in64 (3 + 2 ^ 62) /\ zsum [5; -2; -3] == 0 /\ zsum [1; 1; -2] == 0.
Proof. repeat split; try (vm_compute; reflexivity); unfold in64, H63; lia. Qed.
(** the other protocols, from registers [20], [-7], [9] and one mask each *)
Definition ex_state : list (list Z) := [[20]; [-7]; [9]].
Example C87_others_case :
  let d := [([1], [5]); ([0], [-6]); ([1], [7])] in
  let out p := zsum (column (1 + 1 + 3 + 1) (exec p [d] ex_state)) in
  (wrap (out (p_square 3 1 0)), wrap (out (p_b2a 3 1 0))) = (484, 0) /\ wrap (out (p_wraps 3 1 0)) = 0 /\ regs_ok 3 1 ex_state.
Proof. split; [vm_compute; reflexivity|]. split; [vm_compute; reflexivity|]. repeat split; repeat constructor; unfold in64, H63; cbn; lia. Qed.

(** Property theorems on parties that run as threads (C114). *)
Require Import ZArith List Arith Lia Permutation.
From Verif Require Import Ring64 Sharing Threadgen Threadgen_proofs Threadgen_claims.
Import ListNotations.
Local Open Scope nat_scope.

(** After an initialisation by [n] threads, in any order of their steps in which all end without an exception, the process has one generator for each key:
    prev and next are seeded with the seeds of some two parties, not necessarily neighbours. *)
Theorem C114_setup {gstate} (unseeded : gstate) seeded draw next_seed local_seed global_seed : forall n s, 1 <= n ->
  let p := exec gstate unseeded seeded draw next_seed local_seed global_seed s (starting gstate unseeded n) in finished gstate p -> healthy gstate p ->
    length (threads gstate p) = n /\ apart p /\ (exists i, i < n /\ generator p Prev = seeded (next_seed i)) /\ (exists i, i < n /\ generator p Next = seeded (next_seed i)) /\
    (exists i, i < n /\ generator p Local_ = seeded (local_seed i)) /\ generator p Global_ = seeded (global_seed 0).
Proof. exact (k_C114_setup unseeded seeded draw next_seed local_seed global_seed). Qed.
Print Assumptions C114_setup.

(** A zero sharing made by [n] threads, in any order of their draws: the shares add up to the difference of the first [n] draws of the two generators. *)
Theorem C114_zero_shares {gstate} (unseeded : gstate) seeded draw next_seed local_seed global_seed : (forall g k, length (fst (draw g k)) = k) -> forall p s size, apart p -> completes unseeded seeded draw next_seed local_seed global_seed p s size -> forall j, j < size ->
  let n := length (threads gstate p) in
  (column j (zero_shares (exec gstate unseeded seeded draw next_seed local_seed global_seed s (begin gstate (przs_draws size) p))) == column j (successive draw size (generator p Prev) n) - column j (successive draw size (generator p Next) n))%Z.
Proof. exact (k_C114_zero_shares unseeded seeded draw next_seed local_seed global_seed). Qed.
Print Assumptions C114_zero_shares.

(** What an encrypted tensor decrypts to, and when that is the tensor. *)
Theorem C114_encrypt {gstate} (unseeded : gstate) seeded draw next_seed local_seed global_seed : (forall g k, length (fst (draw g k)) = k) ->
  forall p s src x, apart p -> 2 <= length (threads gstate p) -> src < length (threads gstate p) -> completes unseeded seeded draw next_seed local_seed global_seed p s (length x) -> forall j, j < length x ->
    let n := length (threads gstate p) in
    nth j (round_trip unseeded seeded draw next_seed local_seed global_seed p s src x) 0%Z = wrap (nth j x 0 + (column j (successive draw (length x) (generator p Prev) n) - column j (successive draw (length x) (generator p Next) n)))%Z.
Proof. exact (k_C114_encrypt unseeded seeded draw next_seed local_seed global_seed). Qed.
Print Assumptions C114_encrypt.
Theorem C114_right {gstate} (unseeded : gstate) seeded draw next_seed local_seed global_seed : (forall g k, length (fst (draw g k)) = k) ->
  forall p s src x, apart p -> 2 <= length (threads gstate p) -> src < length (threads gstate p) -> completes unseeded seeded draw next_seed local_seed global_seed p s (length x) -> Forall in64 x ->
    let n := length (threads gstate p) in
    (round_trip unseeded seeded draw next_seed local_seed global_seed p s src x = x <->
     forall j, j < length x -> (column j (successive draw (length x) (generator p Prev) n) == column j (successive draw (length x) (generator p Next) n))%Z).
Proof. exact (k_C114_right unseeded seeded draw next_seed local_seed global_seed). Qed.
Print Assumptions C114_right.
(** Any order of steps in which every thread has two turns completes a zero sharing. *)
Theorem C114_completes {gstate} (unseeded : gstate) seeded draw next_seed local_seed global_seed : forall p s size, two_turns (length (threads gstate p)) s -> completes unseeded seeded draw next_seed local_seed global_seed p s size.
Proof. exact (k_C114_completes unseeded seeded draw next_seed local_seed global_seed). Qed.
Print Assumptions C114_completes.

(** Two threads, any generator and any seeds: in one order of initialisation a tensor decrypts rightly only if the streams of the two parties' seeds have the same sums; in another order it always does. *)
Theorem C114_two_threads {gstate} (unseeded : gstate) seeded draw next_seed local_seed global_seed : (forall g k, length (fst (draw g k)) = k) -> exists s1 s2,
  let run := exec gstate unseeded seeded draw next_seed local_seed global_seed in let p1 := run s1 (starting gstate unseeded 2) in let p2 := run s2 (starting gstate unseeded 2) in
  (finished gstate p1 /\ healthy gstate p1) /\ (finished gstate p2 /\ healthy gstate p2) /\
  forall s src x, two_turns 2 s -> src < 2 -> Forall in64 x ->
    (round_trip unseeded seeded draw next_seed local_seed global_seed p1 s src x = x <->
     forall j, j < length x -> (column j (successive draw (length x) (seeded (next_seed 0%nat)) 2) == column j (successive draw (length x) (seeded (next_seed 1%nat)) 2))%Z) /\
    round_trip unseeded seeded draw next_seed local_seed global_seed p2 s src x = x.
Proof. exact (k_C114_two_threads unseeded seeded draw next_seed local_seed global_seed). Qed.
Print Assumptions C114_two_threads.

(** A generator and seeds with which [5; 6], encrypted by two threads, decrypts to [-15; -14]. *)
Theorem C114_decrypt_refuted : let p := thread_exec in_turn (starting Z 0%Z 2) in finished Z p /\ healthy Z p /\ two_turns 2 [0; 1; 0; 1] /\
  round_trip 0%Z (fun z => z) counting_draw seeds_10_20 seeds_10_20 seeds_10_20 p [0; 1; 0; 1] 0 [5; 6]%Z = [-15; -14]%Z.
Proof. exact k_C114_decrypt_refuted. Qed.
Print Assumptions C114_decrypt_refuted.

(** Dropout masks: the threads get successive draws of one generator, so not the same mask. *)
Theorem C114_masks {gstate} (unseeded : gstate) seeded draw next_seed local_seed global_seed : forall p s size, apart p ->
  let q := exec gstate unseeded seeded draw next_seed local_seed global_seed s (begin gstate (mask_draws size) p) in finished gstate q -> Permutation (masks q) (successive draw size (generator p Global_) (length (threads gstate p))).
Proof. exact (k_C114_masks unseeded seeded draw next_seed local_seed global_seed). Qed.
Print Assumptions C114_masks.
Theorem C114_masks_refuted : let p := thread_exec in_turn (starting Z 0%Z 2) in masks (thread_exec [0; 1] (begin Z (mask_draws 2) p)) = [[10; 11]; [12; 13]]%Z.
Proof. exact k_C114_masks_refuted. Qed.
Print Assumptions C114_masks_refuted.

(** With three threads there is an order of steps after which one thread has ended with an exception, whatever comes later: the broadcast of party 0 overtakes a seed. *)
Theorem C114_overtaken_refuted {gstate} (unseeded : gstate) seeded draw next_seed local_seed global_seed :
  exists s, forall s', ~ healthy gstate (exec gstate unseeded seeded draw next_seed local_seed global_seed (s ++ s') (starting gstate unseeded 3)).
Proof. exact (k_C114_overtaken_refuted unseeded seeded draw next_seed local_seed global_seed). Qed.
Print Assumptions C114_overtaken_refuted.

(** the hypotheses on a process: three threads after an initialisation, and their zero shares *)
Definition three_ends : process Z := thread_exec (repeat 0 5 ++ repeat 1 5 ++ repeat 2 5 ++ [1; 2] ++ repeat 0 7 ++ repeat 2 5 ++ repeat 1 5) (starting Z 0%Z 3).
Example C114_three : finished Z three_ends /\ healthy Z three_ends /\ generator three_ends Prev = 10%Z /\ generator three_ends Next = 20%Z /\
  zero_shares (thread_exec [2; 0; 1; 0; 2; 1] (begin Z (przs_draws 1) three_ends)) = [[-9]; [-10]; [-11]]%Z.
Proof. split; [vm_compute; repeat constructor|]. split; [vm_compute; repeat constructor|]. vm_compute. repeat split. Qed.
Example C114_counting_sized : forall g k, length (fst (counting_draw g k)) = k.
Proof. intros g k. cbn. now rewrite map_length, seq_length. Qed.

(** Property theorems C114 (binary sharings): parties that run as threads share one set of random generators. *)
Require Import ZArith List Arith Lia.
From Verif Require Import Ring64 Sharing Threadgen Threadgen_claims Threadbin Threadbin_claims.
Import ListNotations.
Local Open Scope nat_scope.

(** What a binary sharing decrypts to: its value, xored with all draws of both generators, whatever the order of the draws. *)
Theorem C114_binary {gstate} (unseeded : gstate) seeded draw next_seed local_seed global_seed : (forall g k, length (fst (draw g k)) = k) -> forall p s src x, apart p -> src < length (threads gstate p) -> completes unseeded seeded draw next_seed local_seed global_seed p s (length x) ->
  let n := length (threads gstate p) in let back := bin_round_trip unseeded seeded draw next_seed local_seed global_seed p s src x in length back = length x /\ forall j, j < length x ->
  nth j back 0%Z = Z.lxor (nth j x 0%Z) (Z.lxor (xcolumn j (successive draw (length x) (generator p Prev) n)) (xcolumn j (successive draw (length x) (generator p Next) n))).
Proof. exact (k_C114_binary unseeded seeded draw next_seed local_seed global_seed). Qed.
Print Assumptions C114_binary.
(** It decrypts rightly exactly if the draws of the two generators have the same exclusive ors. *)
Theorem C114_binary_right {gstate} (unseeded : gstate) seeded draw next_seed local_seed global_seed : (forall g k, length (fst (draw g k)) = k) -> forall p s src x, apart p -> src < length (threads gstate p) -> completes unseeded seeded draw next_seed local_seed global_seed p s (length x) ->
  let n := length (threads gstate p) in
  (bin_round_trip unseeded seeded draw next_seed local_seed global_seed p s src x = x <-> forall j, j < length x -> xcolumn j (successive draw (length x) (generator p Prev) n) = xcolumn j (successive draw (length x) (generator p Next) n)).
Proof. exact (k_C114_binary_right unseeded seeded draw next_seed local_seed global_seed). Qed.
Print Assumptions C114_binary_right.
(** Two threads, any generator and any seeds: in one order of initialisation a binary sharing decrypts rightly only if the streams of the two parties' seeds have the same exclusive ors; in another order it always does. *)
Theorem C114_binary_two_threads {gstate} (unseeded : gstate) seeded draw next_seed local_seed global_seed : (forall g k, length (fst (draw g k)) = k) -> exists s1 s2,
  let run := exec gstate unseeded seeded draw next_seed local_seed global_seed in let p1 := run s1 (starting gstate unseeded 2) in let p2 := run s2 (starting gstate unseeded 2) in
  (finished gstate p1 /\ healthy gstate p1) /\ (finished gstate p2 /\ healthy gstate p2) /\
  forall s src x, two_turns 2 s -> src < 2 ->
    (bin_round_trip unseeded seeded draw next_seed local_seed global_seed p1 s src x = x <->
     forall j, j < length x -> xcolumn j (successive draw (length x) (seeded (next_seed 0)) 2) = xcolumn j (successive draw (length x) (seeded (next_seed 1)) 2)) /\
    bin_round_trip unseeded seeded draw next_seed local_seed global_seed p2 s src x = x.
Proof. exact (k_C114_binary_two_threads unseeded seeded draw next_seed local_seed global_seed). Qed.
Print Assumptions C114_binary_two_threads.
(** A generator and seeds with which [5; 6; 7], shared by two threads, decrypts to [1; 14; 11]. *)
Theorem C114_binary_refuted : let p := thread_exec in_turn (starting Z 0%Z 2) in finished Z p /\ healthy Z p /\ two_turns 2 [0; 1; 0; 1] /\
  bin_round_trip 0%Z (fun z => z) counting_draw seeds_10_20 seeds_10_20 seeds_10_20 p [0; 1; 0; 1] 0 [5; 6; 7]%Z = [1; 14; 11]%Z.
Proof. exact k_C114_binary_refuted. Qed.
Print Assumptions C114_binary_refuted.

(** the zero shares of two threads after this initialisation, and their exclusive or *)
Example C114_binary_shares : let p := thread_exec in_turn (starting Z 0%Z 2) in
  bin_shares (thread_exec [0; 1; 0; 1] (begin Z (przs_draws 3) p)) = [[30; 30; 26]; [26; 22; 22]]%Z /\ xcolumn 1 [[30; 30; 26]; [26; 22; 22]]%Z = 8%Z.
Proof. cbn zeta. split; vm_compute; reflexivity. Qed.

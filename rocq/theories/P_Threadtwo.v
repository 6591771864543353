(** Property theorems C114 (two threads): the initialisation of two parties that run as threads always ends. *)
Require Import ZArith List Arith Lia.
From Verif Require Import Ring64 Sharing Threadgen Threadgen_claims Threadtwo_claims.
Import ListNotations.
Local Open Scope nat_scope.

(** With two threads no order of steps makes the initialisation fail, and as long as it has not ended one of the threads can go on. *)
Theorem C114_two_safe {gstate} (unseeded : gstate) seeded draw next_seed local_seed global_seed : forall s, let p := exec gstate unseeded seeded draw next_seed local_seed global_seed s (starting gstate unseeded 2) in
  healthy gstate p /\ (finished gstate p \/ exists i, i < 2 /\ remaining (advance gstate unseeded seeded draw next_seed local_seed global_seed p i) < remaining p).
Proof. exact (k_C114_two_safe unseeded seeded draw next_seed local_seed global_seed). Qed.
Print Assumptions C114_two_safe.
(** So from every state that two threads reach they can end, both without an exception. *)
Theorem C114_two_ends {gstate} (unseeded : gstate) seeded draw next_seed local_seed global_seed : forall s, exists s', let p := exec gstate unseeded seeded draw next_seed local_seed global_seed (s ++ s') (starting gstate unseeded 2) in
  finished gstate p /\ healthy gstate p.
Proof. exact (k_C114_two_ends unseeded seeded draw next_seed local_seed global_seed). Qed.
Print Assumptions C114_two_ends.
(** And under any fair scheduler they do: whatever came before, after as many rounds as there are steps, if each round gives both threads a turn. *)
Theorem C114_two_fair {gstate} (unseeded : gstate) seeded draw next_seed local_seed global_seed : forall s rounds, Forall (fun l => In 0 l /\ In 1 l) rounds -> 23 <= length rounds ->
  let p := exec gstate unseeded seeded draw next_seed local_seed global_seed (s ++ concat rounds) (starting gstate unseeded 2) in finished gstate p /\ healthy gstate p.
Proof. exact (k_C114_two_fair unseeded seeded draw next_seed local_seed global_seed). Qed.
Print Assumptions C114_two_fair.

(** a state in which thread 0 waits and thread 1 has not begun: thread 0 cannot go on, thread 1 can *)
Example C114_waiting : let p := thread_exec (repeat 0 5) (starting Z 0%Z 2) in
  remaining p = 18 /\ remaining (thread_exec [0] p) = 18 /\ remaining (thread_exec [1] p) = 17 /\ remaining (thread_exec in_turn (starting Z 0%Z 2)) = 0.
Proof. vm_compute. repeat split. Qed.
(** threads that take turns: after 11 rounds work is left, after 23 none is *)
Example C114_rounds : Forall (fun l => In 0 l /\ In 1 l) (repeat [1; 0] 23) /\ remaining (thread_exec (concat (repeat [1; 0] 11)) (starting Z 0%Z 2)) = 2 /\ remaining (thread_exec (concat (repeat [1; 0] 23)) (starting Z 0%Z 2)) = 0.
Proof. split; [apply Forall_forall; intros l H; apply repeat_spec in H; subst; cbn; auto|]. vm_compute. now split. Qed.

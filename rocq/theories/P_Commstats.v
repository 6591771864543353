(** Theorems for C57. *)
Require Import List ZArith Arith Bool Lia.
From Verif Require Import Commstats Commstats_claims.
Import ListNotations.
Open Scope Z_scope.

(** C57: with verbose accounting, any history of operations leaves a party's counters increased by the number of operations it took part in and by the bytes it sent and received. *)
Theorem C57_party : forall P es p, (2 <= P)%nat -> (p < P)%nat -> (forall e, In e es -> possible P e) -> forall s,
  run true P p (flat_map (fun e => calls e p) es) s =
  (None, mkStats (comm_rounds s + Z.of_nat (length (filter (takes_part p) es))) (comm_bytes s + touching p (flat_map (messages P) es))).
Proof. exact k_party. Qed.
Print Assumptions C57_party.
(** C57: after a reset, the sum of the byte counters of all parties is twice the number of bytes communicated, as the documentation says. *)
Theorem C57_system : forall P es, (2 <= P)%nat -> (forall e, In e es -> possible P e) ->
  (forall p, (p < P)%nat -> fst (run true P p (flat_map (fun e => calls e p) es) reset_communication_stats) = None /\
    comm_rounds (snd (run true P p (flat_map (fun e => calls e p) es) reset_communication_stats)) = Z.of_nat (length (filter (takes_part p) es))) /\
  total (map (fun p => comm_bytes (snd (run true P p (flat_map (fun e => calls e p) es) reset_communication_stats))) (seq 0 P)) = 2 * bytes_of (flat_map (messages P) es).
Proof. exact k_stats. Qed.
Print Assumptions C57_system.
(** C57: without verbose accounting the counters do not change. *)
Theorem C57_quiet : forall P p cs, (2 <= P)%nat -> forall s, run false P p cs s = (None, s).
Proof. exact k_quiet. Qed.
Print Assumptions C57_quiet.

(** C57: a call that raises ends the history: what would follow is not counted. *)
Theorem C57_stops : forall verbose P p cs e s, fst (run verbose P p cs s) = Some e -> forall more, run verbose P p (cs ++ more) s = run verbose P p cs s.
Proof. exact k_stops. Qed.
Print Assumptions C57_stops.

(** three parties: a broadcast of 10 elements from party 1, a batched all_reduce of 2 + 3 elements, an object of 50 bytes from 0 to 2, a scatter of 4, 5, 6 elements *)
Definition history : list event := [Broadcast 1 (inl 10); AllReduce (inr [2; 3]); Object 0 2 50; Scatter 1 [4; 5; 6]].
Example C57_possible : forall e, In e history -> possible 3 e.
Proof. intros e [<-|[<-|[<-|[<-|[]]]]]; cbn; repeat split; auto; discriminate. Qed.
Example C57_counts : map (fun p => snd (run true 3 p (flat_map (fun e => calls e p) history) reset_communication_stats)) [0%nat; 1%nat; 2%nat] = [mkStats 4 242; mkStats 3 320; mkStats 4 258] /\ bytes_of (flat_map (messages 3) history) = 410.
Proof. split; reflexivity. Qed.

(** C57 refuted for broadcast_obj: receivers pass an object of their own (None) and count its size for every party, not what they receive; the sum is twice the bytes communicated only if that size happens to be nbytes / (P - 1). *)
Theorem C57_broadcast_obj_refuted : forall P root nbytes none, (2 <= P)%nat -> (root < P)%nat ->
  let counted := total (map (fun p => comm_bytes (snd (run true P p [mkCall broadcast_obj (Some (Obj (if Nat.eqb p root then nbytes else none))) (Some root) false (Obj nbytes)] reset_communication_stats))) (seq 0 P)) in
  counted = (Z.of_nat P - 1) * nbytes + (Z.of_nat P - 1) * (Z.of_nat P - 1) * none /\ (counted = 2 * bytes_of (map (fun p => (root, p, nbytes)) (others P root)) <-> (Z.of_nat P - 1) * none = nbytes).
Proof. exact k_broadcast_obj'. Qed.
Print Assumptions C57_broadcast_obj_refuted.
Example C57_broadcast_obj_case : total (map (fun p => comm_bytes (snd (run true 3 p [mkCall broadcast_obj (Some (Obj (if Nat.eqb p 1 then 1000 else 16))) (Some 1%nat) false (Obj 1000)] reset_communication_stats))) (seq 0 3)) = 2064 /\ 2 * bytes_of (map (fun p => (1%nat, p, 1000)) (others 3 1)) = 4000.
Proof. split; reflexivity. Qed.
(** C57 refuted for results broadcast by the trusted third party (rank P): only the receipts are counted, so the documented half of the sum is half of the bytes communicated. *)
Theorem C57_ttp_refuted : forall P n, (2 <= P)%nat -> 0 < n ->
  total (map (fun p => comm_bytes (snd (run true P p [mkCall broadcast (Some (Tensor n)) (Some P) false (Tensor n)] reset_communication_stats))) (seq 0 P)) = bytes_of (map (fun p => (P, p, 8 * n)) (seq 0 P)) /\
  bytes_of (map (fun p => (P, p, 8 * n)) (seq 0 P)) <> 0.
Proof.
  intros P n HP Hn. rewrite bytes_map. cbn [snd]. split; [|rewrite total_const, seq_length; lia].
  apply total_ext. intros p Hp. apply in_seq in Hp. cbn [run]. unfold wrapper. destruct (Nat.ltb_spec P 2); [lia|]. cbn [func arg0 arg1 log_before log_after with_arg1 with_arg0 batched nelement logged]. destruct (Nat.eqb_spec P p); [lia|]. unfold log_elements, log_bytes, BYTES_PER_ELEMENT, reset_communication_stats. cbn [snd comm_bytes comm_rounds]. lia.
Qed.
Print Assumptions C57_ttp_refuted.
(** C57 refuted for keyword roots: broadcast(x, src=0), gather, reduce and scatter raise IndexError with verbose accounting, though they work without it. *)
Theorem C57_keyword_root_refuted : forall P rank f p b r s, (2 <= P)%nat -> In f [broadcast; gather; reduce; scatter] ->
  wrapper true P rank (mkCall f (Some p) None b r) s = Raises IndexError s /\ wrapper false P rank (mkCall f (Some p) None b r) s = Returns r s.
Proof. intros P rank f p b r s HP Hf. unfold wrapper. destruct (Nat.ltb_spec P 2); [lia|]. destruct Hf as [<-|[<-|[<-|[<-|[]]]]]; split; reflexivity. Qed.
Print Assumptions C57_keyword_root_refuted.
Example C57_stops_case : run true 2 1 [mkCall barrier None None false (Obj 16); mkCall broadcast (Some (Tensor 3)) None false (Tensor 3); mkCall barrier None None false (Obj 16)] reset_communication_stats = (Some IndexError, mkStats 1 0).
Proof. reflexivity. Qed.
Example C57_keyword_root_case : wrapper true 2 1 (mkCall broadcast (Some (Tensor 3)) None false (Tensor 3)) (mkStats 1 8) = Raises IndexError (mkStats 1 8).
Proof. reflexivity. Qed.
(** C57 refuted for a batch flag given positionally: reduce([x, y], 0, op, True) raises AttributeError with verbose accounting. *)
Theorem C57_positional_batched_refuted : forall P rank f l root r s, (2 <= P)%nat -> In f [broadcast; reduce; all_reduce] ->
  wrapper true P rank (mkCall f (Some (Tensors l)) (Some root) false r) s = Raises AttributeError s /\ wrapper false P rank (mkCall f (Some (Tensors l)) (Some root) false r) s = Returns r s.
Proof. intros P rank f l root r s HP Hf. unfold wrapper. destruct (Nat.ltb_spec P 2); [lia|]. destruct Hf as [<-|[<-|[<-|[]]]]; split; reflexivity. Qed.
Print Assumptions C57_positional_batched_refuted.
(** C57 refuted for one party: scatter returns the list instead of the party's tensor, and recv_obj the rank it was given. *)
Theorem C57_one_party_refuted : forall verbose n src obj s,
  wrapper verbose 1 0 (mkCall scatter (Some (Tensors [n])) (Some 0%nat) false (Tensor n)) s = Returns (Tensors [n]) s /\
  wrapper verbose 1 0 (mkCall recv_obj (Some src) None false obj) s = Returns src s.
Proof. intros. split; reflexivity. Qed.
Print Assumptions C57_one_party_refuted.

(** C55: results of run_multiprocess. *)
Require Import List Arith Bool Lia.
From Verif Require Import Launch Launch_proofs.
Import ListNotations.

(** Whatever the order in which the processes finish and write to the queue, once the parent has joined them it returns None if some process failed and otherwise the (picklable) return values in rank order. *)
Theorem C55_order : forall (V : Type) maxsize capacity (ps : list (outcome V)) w, reachable maxsize capacity ps w -> joined w -> result w = if existsb fails ps then None else Some (returned ps).
Proof. intros V. exact k_C55_result. Qed.
Print Assumptions C55_order.

(** If the messages fit into the pipe and the queue admits them, every execution ends, within a fixed number of steps, with the parent having joined all processes: a state that is not joined has a step, and executions are finite. *)
Theorem C55_completes : forall (V : Type) maxsize capacity (ps : list (outcome V)), bytes ps <= capacity -> match maxsize with Some m => put_count ps <= m | None => True end ->
  (forall w, reachable maxsize capacity ps w -> joined w \/ exists w', step maxsize capacity ps w w') /\ (forall n w, path maxsize capacity ps n (start ps) w -> n <= 2 * length ps + bytes ps) /\
  (forall w, reachable maxsize capacity ps w -> exists n w', path maxsize capacity ps n w w' /\ joined w').
Proof.
  intros V maxsize capacity ps B M. split; [|split].
  - intros w R. now apply k_C55_progress.
  - exact (k_C55_finite maxsize capacity ps).
  - now apply k_C55_joinable.
Qed.
Print Assumptions C55_completes.

(** Otherwise no execution at all gets past the joins: the parent waits for processes that wait for the parent to read the queue. *)
Theorem C55_deadlock_refuted : forall (V : Type) maxsize capacity (ps : list (outcome V)) w, capacity < bytes ps \/ match maxsize with Some m => m < put_count ps | None => False end -> reachable maxsize capacity ps w -> ~ joined w.
Proof. intros V maxsize capacity ps w H R. exact (k_C55_deadlock maxsize capacity ps w R H). Qed.
Print Assumptions C55_deadlock_refuted.

Lemma returned_cons {V} (o : outcome V) l : length (returned (o :: l)) = match o with Returns _ (Some _) => 1 | _ => 0 end + length (returned l).
Proof. destruct o as [|v [s|]]; reflexivity. Qed.
Lemma returned_le {V} (l : list (outcome V)) : length (returned l) <= length l.
Proof. induction l as [|o l IH]; [apply le_n|]. rewrite returned_cons. destruct o as [|v [s|]]; cbn [length]; lia. Qed.
(** An unpicklable value is left out and the values of later ranks move up; with a trusted third party whose server object can be pickled the list has one entry more than there are parties. *)
Theorem C55_length_refuted : forall (V : Type) maxsize capacity (parties : list (outcome V)) server w,
  reachable maxsize capacity (processes parties server) w -> joined w -> existsb fails (processes parties server) = false -> exists l, result w = Some l /\
  (length l <= length parties + match server with Some (Returns _ (Some _)) => 1 | _ => 0 end) /\
  ((exists i v, nth_error parties i = Some (Returns v None)) -> length l < length parties + match server with Some (Returns _ (Some _)) => 1 | _ => 0 end) /\
  ((forall i v, nth_error parties i <> Some (Returns v None)) -> length l = length parties + match server with Some (Returns _ (Some _)) => 1 | _ => 0 end).
Proof.
  intros V maxsize capacity parties server w R J F. exists (returned (processes parties server)). split; [rewrite (k_C55_result maxsize capacity _ w R J), F; reflexivity|].
  assert (E : length (returned (processes parties server)) = length (returned parties) + match server with Some (Returns _ (Some _)) => 1 | _ => 0 end). { unfold processes, returned. rewrite flat_map_app, app_length. f_equal. destruct server as [[|v [s|]]|]; reflexivity. }
  rewrite E. assert (F' : existsb fails parties = false). { unfold processes in F. rewrite existsb_app in F. now apply orb_false_elim in F as [F _]. }
  assert (L : length (returned parties) <= length parties). { apply returned_le. }
  split; [lia|]. split.
  - intros (i & v & H). enough (length (returned parties) < length parties) by lia. clear - H. revert i H. induction parties as [|o l IH]; intros [|i] H; cbn in H; try discriminate.
    + injection H as ->. rewrite returned_cons. pose proof (returned_le l). cbn. lia.
    + specialize (IH i H). rewrite returned_cons. destruct o as [|u [s|]]; cbn [length]; lia.
  - intros H. f_equal. clear - H F'. induction parties as [|o l IH]; [reflexivity|]. cbn in F'. apply orb_false_elim in F' as [Fo F']. specialize (IH F' (fun i v => H (S i) v)). destruct o as [|v [s|]]; [discriminate| |destruct (H 0 v eq_refl)]. rewrite returned_cons. cbn [length]. lia.
Qed.
Print Assumptions C55_length_refuted.

(** Concrete cases: three parties, rank 2 finishes first, then 0, then 1 in two writes. *)
Definition three : list (outcome nat) := [Returns 10 (Some 3); Returns 11 (Some 5); Returns 12 (Some 2)].
Example C55_case : exists w, reachable None 10 three w /\ joined w /\ map fst (sent w) = [2; 0; 1] /\ result w = Some [10; 11; 12].
Proof.
  exists (mkWorld [Exited 0; Exited 0; Exited 0] 10 3 None [(2, 12); (0, 10); (1, 11)]). split; [|split; [repeat constructor|split; reflexivity]].
  assert (R0 : reachable None 10 three (start three)) by apply RStart.
  assert (R1 : reachable None 10 three (mkWorld [Running; Running; Writing 2] 0 1 None [])) by exact (RStep None 10 three _ _ R0 (StPut None 10 three (start three) 2 12 2 eq_refl eq_refl I)).
  assert (R2 : reachable None 10 three (mkWorld [Running; Running; Exited 0] 2 1 None [(2, 12)])) by exact (RStep None 10 three _ _ R1 (StFlush None 10 three (mkWorld [Running; Running; Writing 2] 0 1 None []) 2 2 12 (Some 2) eq_refl eq_refl (or_introl eq_refl) ltac:(cbn; lia))).
  assert (R3 : reachable None 10 three (mkWorld [Running; Writing 5; Exited 0] 2 2 None [(2, 12)])) by exact (RStep None 10 three _ _ R2 (StPut None 10 three (mkWorld [Running; Running; Exited 0] 2 1 None [(2, 12)]) 1 11 5 eq_refl eq_refl I)).
  assert (R4 : reachable None 10 three (mkWorld [Writing 3; Writing 5; Exited 0] 2 3 None [(2, 12)])) by exact (RStep None 10 three _ _ R3 (StPut None 10 three (mkWorld [Running; Writing 5; Exited 0] 2 2 None [(2, 12)]) 0 10 3 eq_refl eq_refl I)).
  assert (R5 : reachable None 10 three (mkWorld [Exited 0; Writing 5; Exited 0] 5 3 None [(2, 12); (0, 10)])) by exact (RStep None 10 three _ _ R4 (StFlush None 10 three (mkWorld [Writing 3; Writing 5; Exited 0] 2 3 None [(2, 12)]) 0 3 10 (Some 3) eq_refl eq_refl (or_introl eq_refl) ltac:(cbn; lia))).
  assert (R6 : reachable None 10 three (mkWorld [Exited 0; Writing 1; Exited 0] 9 3 (Some 1) [(2, 12); (0, 10)])) by exact (RStep None 10 three _ _ R5 (StWrite None 10 three (mkWorld [Exited 0; Writing 5; Exited 0] 5 3 None [(2, 12); (0, 10)]) 1 5 4 eq_refl (or_introl eq_refl) ltac:(lia) ltac:(cbn; lia))).
  assert (R7 : reachable None 10 three (mkWorld [Exited 0; Exited 0; Exited 0] 10 3 None [(2, 12); (0, 10); (1, 11)])) by exact (RStep None 10 three _ _ R6 (StFlush None 10 three (mkWorld [Exited 0; Writing 1; Exited 0] 9 3 (Some 1) [(2, 12); (0, 10)]) 1 1 11 (Some 5) eq_refl eq_refl (or_intror eq_refl) ltac:(cbn; lia))).
  exact R7.
Qed.
Example C55_case_fits : bytes three <= 10 /\ put_count three <= 3 /\ existsb fails three = false /\ 9 < bytes three /\ 2 < put_count three.
Proof. cbn. repeat split; lia. Qed.
Example C55_case_unpicklable : exists w, reachable None 10 [Returns 10 None; Returns 11 (Some 1)] w /\ joined w /\ result w = Some [11].
Proof.
  eexists. split.
  { eapply RStep; [eapply RStep; [eapply RStep; [apply RStart|]|]|].
    - apply (StPut None 10 _ _ 1 11 1); [reflexivity|reflexivity|exact I].
    - apply (StDrop None 10 _ _ 0 10); [reflexivity|reflexivity|exact I].
    - apply (StFlush None 10 _ _ 1 1 11 (Some 1)); [reflexivity|reflexivity|now left|cbn; lia]. }
  split; [repeat constructor|reflexivity].
Qed.

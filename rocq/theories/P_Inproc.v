(** C38, C39: collectives of the in-process communicator. *)
Require Import List Arith Bool Lia Permutation.
From Verif Require Import Inproc Inproc_proofs.
Import ListNotations.

(** Every party passes one tensor, ranks exist. *)
Definition well_formed {V} (n : nat) (o : coll V) : Prop :=
  match o with AllGather xs => length xs = n | Gather d xs => d < n /\ length xs = n | Scatter s xs => s < n /\ length xs = n | Broadcast s _ => s < n end.
(** What the call must return at party [i]. *)
Definition delivered {V} (o : coll V) (i : nat) : result V :=
  match o with
  | AllGather xs => RList xs
  | Gather d xs => if Nat.eqb i d then RList xs else RNone
  | Scatter s xs => match nth_error xs i with Some v => RItem (Plain v) | None => Broken end
  | Broadcast s x => RItem (Plain x)
  end.
Definition is_broadcast {V} (o : coll V) : bool := match o with Broadcast _ _ => true | _ => false end.
Definition finished {V} (n : nat) (w : world V) : Prop := forall i, i < n -> todo (th w i) = [].

Lemma sane_of {V} n (p : list (coll V)) : Forall (well_formed n) p -> Forall (fun o => is_broadcast o = false) p -> sane n false p.
Proof. intros A B. split; [exact A|]. eapply Forall_impl; [|exact B]. intros [] H; [reflexivity..|discriminate]. Qed.
Lemma sane_barrier {V} n (p : list (coll V)) : Forall (well_formed n) p -> sane n true p.
Proof. intros A. split; [exact A|]. apply Forall_forall. intros [] _; reflexivity. Qed.

(** Any mix of all_gather, gather and scatter: whatever the schedule, what party [i] has got so far is what it should have got. *)
Theorem C38_right_values : forall V n (p : list (coll V)) w i, Forall (well_formed n) p -> Forall (fun o => is_broadcast o = false) p -> reach V n false p w -> i < n ->
  rets (th w i) = firstn (length (rets (th w i))) (map (fun o => delivered o i) p) /\ (todo (th w i) = [] -> rets (th w i) = map (fun o => delivered o i) p).
Proof. intros V n p w i A B R Hi. apply (inv_results n); [|exact Hi]. apply (reach_inv n false); [lia|exact (sane_of n p A B)|exact R]. Qed.
(** No schedule deadlocks, and none runs for ever. *)
Theorem C38_no_deadlock : forall V n (p : list (coll V)) w, 0 < n -> Forall (well_formed n) p -> Forall (fun o => is_broadcast o = false) p -> reach V n false p w ->
  finished n w \/ exists w', step V n false w w'.
Proof. intros V n p w Hn A B R. apply (inv_progress n false p); [exact Hn|exact (sane_of n p A B)|]. apply (reach_inv n false); [exact Hn|exact (sane_of n p A B)|exact R]. Qed.
Theorem C38_terminates : forall V n (p : list (coll V)), 0 < n -> Forall (well_formed n) p -> Forall (fun o => is_broadcast o = false) p ->
  exists bound, forall k w, steps n false k (initial V n p) w -> k <= bound.
Proof. intros V n p Hn A B. eexists. intros k w S. pose proof (steps_bound n false p k w Hn (sane_of n p A B) S). eapply Nat.le_trans; [|eassumption]. lia. Qed.

(** Two parties: party 1 broadcasts [a], then party 0 broadcasts [b].  In one complete run party 1 gets them in the wrong order: its own broadcast of [a] returns [b]. *)
Theorem C39_race_refuted : forall V (a b : V), exists w, reach V 2 false [Broadcast 1 a; Broadcast 0 b] w /\ finished 2 w /\
  rets (th w 0) = [RItem (Plain a); RItem (Plain b)] /\ rets (th w 1) = [RItem (Plain b); RItem (Plain a)].
Proof.
  intros V a b. pose (sch := [1; 0; 0; 0; 0; 0; 1; 1; 1; 1; 1; 1; 1; 0; 0; 0]).
  assert (X : match sched 2 false sch (initial V 2 [Broadcast 1 a; Broadcast 0 b]) with
    | Some w => (todo (th w 0) = [] /\ todo (th w 1) = []) /\ rets (th w 0) = [RItem (Plain a); RItem (Plain b)] /\ rets (th w 1) = [RItem (Plain b); RItem (Plain a)]
    | None => False end) by (vm_compute; repeat split).
  destruct (sched 2 false sch _) as [w|] eqn:E; [|destruct X]. exists w. destruct X as ((X0 & X1) & X2 & X3). split; [|split; [|auto]].
  - eapply sched_reach; [apply r_init|exact E].
  - intros [|[|i]] Hi; [assumption|assumption|lia].
Qed.
(** The same race against an all_gather: party 1's broadcast returns a (rank, tensor) pair and its all_gather raises. *)
Theorem C39_race_mixed_refuted : forall V (a x y : V), exists w, reach V 2 false [Broadcast 1 a; AllGather [x; y]] w /\ finished 2 w /\
  rets (th w 0) = [RItem (Plain a); RList [x; y]] /\ rets (th w 1) = [RItem (Tagged 0 x); Broken].
Proof.
  intros V a x y. pose (sch := [1; 0; 0; 0; 0; 0; 1; 1; 1; 1; 1; 1; 1; 0; 0; 0; 0; 0; 1; 1; 1]).
  assert (X : match sched 2 false sch (initial V 2 [Broadcast 1 a; AllGather [x; y]]) with
    | Some w => (todo (th w 0) = [] /\ todo (th w 1) = []) /\ rets (th w 0) = [RItem (Plain a); RList [x; y]] /\ rets (th w 1) = [RItem (Tagged 0 x); Broken]
    | None => False end) by (vm_compute; repeat split).
  destruct (sched 2 false sch _) as [w|] eqn:E; [|destruct X]. exists w. destruct X as ((X0 & X1) & X2 & X3). split; [|split; [|auto]].
  - eapply sched_reach; [apply r_init|exact E].
  - intros [|[|i]] Hi; [assumption|assumption|lia].
Qed.
(** With a barrier in broadcast every program of collectives is right, under every schedule. *)
Theorem C39_barrier_suffices : forall V n (p : list (coll V)) w i, Forall (well_formed n) p -> reach V n true p w -> i < n ->
  rets (th w i) = firstn (length (rets (th w i))) (map (fun o => delivered o i) p) /\ (todo (th w i) = [] -> rets (th w i) = map (fun o => delivered o i) p).
Proof. intros V n p w i A R Hi. apply (inv_results n); [|exact Hi]. apply (reach_inv n true); [lia|exact (sane_barrier n p A)|exact R]. Qed.
Theorem C39_barrier_no_deadlock : forall V n (p : list (coll V)) w, 0 < n -> Forall (well_formed n) p -> reach V n true p w -> finished n w \/ exists w', step V n true w w'.
Proof. intros V n p w Hn A R. apply (inv_progress n true p); [exact Hn|exact (sane_barrier n p A)|]. apply (reach_inv n true); [exact Hn|exact (sane_barrier n p A)|exact R]. Qed.
(** As it is, a run of broadcasts all from the same source is right. *)
Theorem C39_one_source : forall V n s (xs : list V) w i, s < n -> reach V n false (map (Broadcast s) xs) w -> i < n ->
  rets (th w i) = firstn (length (rets (th w i))) (map (fun x => RItem (Plain x)) xs) /\ (todo (th w i) = [] -> rets (th w i) = map (fun x => RItem (Plain x)) xs).
Proof. intros V n s xs w i Hs R Hi. apply (binv_results n s xs); [|exact Hi]. exact (binv_reach n s Hs xs w R). Qed.
Theorem C39_one_source_no_deadlock : forall V n s (xs : list V) w, s < n -> reach V n false (map (Broadcast s) xs) w -> finished n w \/ exists w', step V n false w w'.
Proof. intros V n s xs w Hs R. apply (binv_progress n s Hs xs). exact (binv_reach n s Hs xs w R). Qed.

Print Assumptions C38_right_values.
Print Assumptions C38_no_deadlock.
Print Assumptions C38_terminates.
Print Assumptions C39_race_refuted.
Print Assumptions C39_race_mixed_refuted.
Print Assumptions C39_barrier_suffices.
Print Assumptions C39_barrier_no_deadlock.
Print Assumptions C39_one_source.
Print Assumptions C39_one_source_no_deadlock.

(** Three parties: a gather at 2, a scatter from 1 and an all_gather; a complete run meeting the hypotheses of C38. *)
Definition demo : list (coll nat) := [Gather 2 [7; 8; 9]; Scatter 1 [4; 5; 6]; AllGather [1; 2; 3]].
Example C38_case_hyps : Forall (well_formed 3) demo /\ Forall (fun o => is_broadcast o = false) demo.
Proof. split; repeat constructor. Qed.
Definition round_robin (k : nat) (w : world nat) : world nat :=
  fold_left (fun w i => match act 3 false w (Nat.modulo (i * i + i) 3) with Some w' => w' | None => match act 3 false w (Nat.modulo i 3) with Some w' => w' | None => w end end) (seq 0 k) w.
Example C38_case : let w := round_robin 200 (initial nat 3 demo) in
  map (fun i => (todo (th w i), rets (th w i))) [0; 1; 2] =
  [([], [RNone; RItem (Plain 4); RList [1; 2; 3]]); ([], [RNone; RItem (Plain 5); RList [1; 2; 3]]); ([], [RList [7; 8; 9]; RItem (Plain 6); RList [1; 2; 3]])].
Proof. vm_compute. reflexivity. Qed.
(** Messages do arrive out of rank order: party 1 puts first. *)
Example C38_case_order : match sched 2 false [1; 1; 0; 0] (initial nat 2 [AllGather [10; 20]]) with Some w => mb w 0 = [Tagged 1 20; Tagged 0 10] | None => False end.
Proof. vm_compute. reflexivity. Qed.
(** The source runs ahead and has finished both broadcasts while party 1 has only received the first. *)
Example C39_case : match sched 2 false [0; 0; 0; 0; 0; 0; 0; 0; 0; 0; 1; 1; 1] (initial nat 2 (map (Broadcast 0) [5; 6])) with
  | Some w => rets (th w 1) = [RItem (Plain 5)] /\ rets (th w 0) = [RItem (Plain 5); RItem (Plain 6)] | None => False end.
Proof. vm_compute. repeat split. Qed.

(** C53: nn.Graph evaluates well-formed graphs. *)
Require Import List Arith Bool Lia.
From Verif Require Import Graphmod Graphmod_claims.
Import ListNotations.

(** For every well-formed graph, in any insertion order, the loop ends within one iteration per node and returns the value of the output. *)
Theorem C53_forward : forall V (run : nat -> list V -> V) tuple graph input_names args rank, well_formed run tuple graph input_names args rank -> forall o, In o (map fst graph) ->
  exists v, denotes run tuple graph input_names args o v /\ forall fuel, length graph <= fuel -> forward run tuple graph fuel input_names [o] args = Returns [v].
Proof. exact @k_graph. Qed.
Print Assumptions C53_forward.
(** Several outputs: a node and modules it reads from are all returned, none before the last is computed. *)
Theorem C53_outputs : forall V (run : nat -> list V -> V) tuple graph input_names args rank, well_formed run tuple graph input_names args rank ->
  forall e os, In e graph -> In (fst e) os -> (forall x, In x os -> In x (map fst graph) /\ (x = fst e \/ In x (input_list (snd e)))) ->
  exists vs, Forall2 (denotes run tuple graph input_names args) os vs /\ forall fuel, length graph <= fuel -> forward run tuple graph fuel input_names os args = Returns vs.
Proof. exact @k_graph_many. Qed.
Print Assumptions C53_outputs.
(** The value of a name is unique, so the result does not depend on the insertion order. *)
Theorem C53_unique : forall V (run : nat -> list V -> V) tuple graph input_names args rank, well_formed run tuple graph input_names args rank ->
  forall x v v', denotes run tuple graph input_names args x v -> denotes run tuple graph input_names args x v' -> v = v'.
Proof. exact @k_det. Qed.
Print Assumptions C53_unique.

(** A node that uses one value twice (x * x) is never computed. *)
Theorem C53_duplicate_input_refuted : forall V (run : nat -> list V -> V) tuple graph o, (forall e, In e graph -> fst e = o \/ In o (produced e) -> fst e = o /\ ~ NoDup (input_list (snd e))) ->
  forall input_names args fuel vs, ~ In o input_names -> forward run tuple graph fuel input_names [o] args <> Returns vs.
Proof. exact @k_graph_duplicate. Qed.
Print Assumptions C53_duplicate_input_refuted.
(** Two outputs of one input: the first is cleared before the second is computed. *)
Theorem C53_two_outputs_refuted : forall V (run : nat -> list V -> V) tuple x fuel, 2 <= fuel -> forward run tuple [(1, mkNode [0] None); (2, mkNode [0] None)] fuel [0] [1; 2] [x] = Raises KeyError.
Proof. intros V run tuple x [|[|fuel]] H; [lia|lia|reflexivity]. Qed.
Print Assumptions C53_two_outputs_refuted.
(** The second output of a module as the output of the graph: not known to the graph until computed. *)
Theorem C53_second_output_refuted : forall V (run : nat -> list V -> V) tuple x fuel, 1 <= fuel -> forward run tuple [(1, mkNode [0] None); (2, mkNode [1] (Some [2; 3]))] fuel [0] [3] [x] = Raises KeyError.
Proof. intros V run tuple x [|fuel] H; [lia|reflexivity]. Qed.
Print Assumptions C53_second_output_refuted.
(** A module whose outputs do not include one of its own name is computed forever. *)
Theorem C53_unnamed_output_refuted : forall V (run : nat -> list V -> V) tuple x, (forall v, exists a b, tuple (run 1 v) = Some [a; b]) -> forall fuel, forward run tuple restless fuel [0] [4] [x] = Still_running.
Proof. exact @k_graph_forever. Qed.
Print Assumptions C53_unnamed_output_refuted.

(** Concrete cases: values are lists of numbers, a module adds its inputs and its name; a tuple is a list of two. *)
Definition run1 (k : nat) (vs : list (list nat)) : list nat := match k with 7 => [fold_right Nat.add 0 (concat vs); 5] | _ => [k + fold_right Nat.add 0 (concat vs)] end.
Definition tuple1 (v : list nat) : option (list (list nat)) := match v with [a; b] => Some [[a]; [b]] | _ => None end.
(** the output node is inserted first, its inputs come from the module with two outputs inserted last *)
Definition g1 : list (nat * node) := [(9, mkNode [8; 3] None); (3, mkNode [7; 0] (Some [3])); (7, mkNode [0; 1] (Some [7; 8]))].
Example C53_case_forward : well_formed run1 tuple1 g1 [0; 1] [[10]; [20]] (fun k => match k with 7 => 0 | 3 => 1 | _ => 2 end) /\ In 9 (map fst g1) /\ forward run1 tuple1 g1 3 [0; 1] [9] [[10]; [20]] = Returns [[57]].
Proof.
  split; [|split; [now left|reflexivity]]. constructor.
  - reflexivity.
  - cbn. repeat (constructor; [cbn; intuition discriminate|]). constructor.
  - intros e [<-|[<-|[<-|[]]]]; cbn; auto.
  - intros e [<-|[<-|[<-|[]]]]; cbn; repeat (constructor; [cbn; intuition discriminate|]); constructor.
  - intros e vs [<-|[<-|[<-|[]]]] L; cbn in *; try lia. eexists. split; reflexivity.
  - intros e x [<-|[<-|[<-|[]]]] Ix; cbn in Ix |- *.
    + destruct Ix as [<-|[<-|[]]]; right; [exists (7, mkNode [0; 1] (Some [7; 8]))|exists (3, mkNode [7; 0] (Some [3]))]; cbn; auto.
    + destruct Ix as [<-|[<-|[]]]; [right; exists (7, mkNode [0; 1] (Some [7; 8])); cbn; auto|left; auto].
    + left. tauto.
Qed.
Example C53_case_outputs : In (9, mkNode [8; 3] None) g1 /\ In 9 [3; 9] /\ (forall x, In x [3; 9] -> In x (map fst g1) /\ (x = 9 \/ In x [8; 3])) /\ forward run1 tuple1 g1 3 [0; 1] [3; 9] [[10]; [20]] = Returns [[43]; [57]].
Proof. split; [now left|]. split; [now right; left|]. split; [intros x [<-|[<-|[]]]; cbn; auto|]. vm_compute. reflexivity. Qed.
Example C53_case_duplicate : (forall e, In e [(1, mkNode [0; 0] None)] -> fst e = 1 \/ In 1 (produced e) -> fst e = 1 /\ ~ NoDup (input_list (snd e))) /\ ~ In 1 [0] /\ forward run1 tuple1 [(1, mkNode [0; 0] None)] 5 [0] [1] [[2]] = Raises ValueError.
Proof. split; [|split; [cbn; intuition discriminate|reflexivity]]. intros e [<-|[]] _. split; [reflexivity|]. intros N. inversion N as [|? ? H _]. apply H. now left. Qed.
Definition run2 (k : nat) (vs : list (list nat)) : list nat := [1; 2].
Example C53_case_unnamed : (forall v, exists a b, tuple1 (run2 1 v) = Some [a; b]) /\ forward run2 tuple1 restless 50 [0] [4] [[3]] = Still_running.
Proof. split; [intros v; eexists; eexists; reflexivity|reflexivity]. Qed.

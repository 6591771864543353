(** nn.Graph: crypten/nn/module.py:605-746. Names are numbers. *)
Require Import List Arith Bool.
Import ListNotations.

Section Graph.
  Context {V : Type}.
  (** one entry of self._graph together with the _output_names attribute of the module (add_module, 635-651) *)
  Record node := mkNode { input_list : list nat; output_list : option (list nat) }.
  (** [run k vs]: module k called with its list of inputs (a single input is unpacked, 713-716); [tuple]: the components if a value is a tuple *)
  Variables (run : nat -> list V -> V) (tuple : V -> option (list V)).
  (** self._graph in insertion order *)
  Variable graph : list (nat * node).

  Inductive error := KeyError | AssertionError | ValueError.
  Inductive outcome := Returns (results : list V) | Raises (e : error) | Still_running.
  Record state := mkState { values : list (nat * V); computed : nat -> option bool; inputs_available : list (nat * list bool) }.
  Fixpoint get {A} (k : nat) (l : list (nat * A)) : option A := match l with [] => None | (i, a) :: l => if Nat.eqb i k then Some a else get k l end.
  (** assignment to a dictionary keeps the position of an existing key *)
  Fixpoint put {A} (k : nat) (a : A) (l : list (nat * A)) : list (nat * A) := match l with [] => [(k, a)] | (i, b) :: l => if Nat.eqb i k then (k, a) :: l else (i, b) :: put k a l end.
  Fixpoint position (k : nat) (l : list nat) : option nat := match l with [] => None | x :: l => if Nat.eqb x k then Some 0 else option_map S (position k l) end.
  Fixpoint set_true (i : nat) (l : list bool) : list bool := match l, i with [], _ => [] | _ :: l, O => true :: l | b :: l, S i => b :: set_true i l end.
  Fixpoint gets (ks : list nat) (l : list (nat * V)) : option (list V) := match ks with [] => Some [] | k :: ks => match get k l, gets ks l with Some v, Some vs => Some (v :: vs) | _, _ => None end end.

  (** 660-666 *)
  Definition initial (input_names : list nat) (args : list V) : state :=
    mkState (fold_left (fun l p => put (fst p) (snd p) l) (combine input_names args) [])
            (fun k => if existsb (fun e => Nat.eqb (fst e) k) graph then Some false else None)
            (map (fun e => (fst e, repeat false (length (input_list (snd e))))) graph).
  (** _mark_as_computed, 668-673; the two dictionaries have the same keys in the same order *)
  Definition mark_as_computed (name : nat) (s : state) : state :=
    mkState (values s) (fun k => if Nat.eqb k name then Some true else computed s k)
            (map (fun p => (fst (fst p), match position name (input_list (snd (fst p))) with Some i => set_true i (snd (snd p)) | None => snd (snd p) end)) (combine graph (inputs_available s))).
  (** _find_computable_node, 675-680; KeyError cannot happen since all keys are in [computed] *)
  Definition find_computable_node (s : state) : option nat :=
    option_map fst (find (fun e => forallb id (snd e) && match computed s (fst e) with Some c => negb c | None => false end) (inputs_available s)).
  (** _clear_unused_values, 682-698 *)
  Definition needed (s : state) (name : nat) : bool := existsb (fun e => match computed s (fst e) with Some false => existsb (Nat.eqb name) (input_list (snd e)) | _ => false end) graph.
  Definition clear_unused_values (s : state) : state := mkState (filter (fun e => needed s (fst e)) (values s)) (computed s) (inputs_available s).
  Definition store (name : nat) (v : V) (s : state) : state := mark_as_computed name (mkState (put name v (values s)) (computed s) (inputs_available s)).
  (** one module call, 711-737 *)
  Definition compute (k : nat) (s : state) : error + state :=
    match get k graph with
    | None => inl KeyError
    | Some n => match gets (input_list n) (values s) with
                | None => inl KeyError
                | Some vs => let output := run k vs in
                    match output_list n with
                    | None => inr (store k output s)
                    | Some [name] => if Nat.eqb name k then inr (store k output s) else inl AssertionError
                    | Some names => match tuple output with
                                    | Some outs => if Nat.eqb (length names) (length outs) then inr (fold_left (fun s p => store (fst p) (snd p) s) (combine names outs) s) else inl AssertionError
                                    | None => inl AssertionError
                                    end
                    end
                end
    end.
  (** all(computed[output_name] for ...): stops at the first False, KeyError for names never seen, 740 *)
  Fixpoint all_computed (names : list nat) (s : state) : option bool :=
    match names with [] => Some true | k :: names => match computed s k with Some true => all_computed names s | Some false => Some false | None => None end end.
  (** 708-746; [fuel]: number of loop iterations observed *)
  Fixpoint loop (fuel : nat) (output_names : list nat) (node_to_compute : option nat) (s : state) : outcome :=
    match node_to_compute with
    | None => Raises ValueError
    | Some k => match fuel with
                | O => Still_running
                | S fuel => match compute k s with
                            | inl e => Raises e
                            | inr s => match all_computed output_names s with
                                       | None => Raises KeyError
                                       | Some true => match gets output_names (values s) with Some vs => Returns vs | None => Raises KeyError end
                                       | Some false => loop fuel output_names (find_computable_node s) (clear_unused_values s)
                                       end
                            end
                end
    end.
  Definition forward (fuel : nat) (input_names output_names : list nat) (args : list V) : outcome :=
    if Nat.eqb (length args) (length input_names) then
      let s := fold_left (fun s name => mark_as_computed name s) input_names (initial input_names args) in
      loop fuel output_names (find_computable_node s) s
    else Raises AssertionError.
End Graph.

(** C53: nn.Graph. *)
Require Import List Arith Bool Lia.
From Verif Require Import Graphmod.
Import ListNotations.

Section Spec.
  Context {V : Type}.
  Variables (run : nat -> list V -> V) (tuple : V -> option (list V)) (graph : list (nat * node)) (input_names : list nat) (args : list V).
  (** names of the values a node produces *)
  Definition produced (e : nat * node) : list nat := match output_list (snd e) with None => [fst e] | Some l => l end.
  (** the value of a name: an argument, the output of a module applied to the values of its inputs, or a component of such an output *)
  Inductive denotes : nat -> V -> Prop :=
  | DArg i name v : nth_error input_names i = Some name -> nth_error args i = Some v -> denotes name v
  | DOne e vs : In e graph -> produced e = [fst e] -> Forall2 denotes (input_list (snd e)) vs -> denotes (fst e) (run (fst e) vs)
  | DMany e vs outs j name v : In e graph -> length (produced e) <> 1 -> Forall2 denotes (input_list (snd e)) vs -> tuple (run (fst e) vs) = Some outs ->
      nth_error (produced e) j = Some name -> nth_error outs j = Some v -> denotes name v.
  (** every name is produced once, a node produces a value under its own name, no node uses one input twice, tuples have the declared lengths; each input of a node is an argument or produced by a node of smaller rank *)
  Record well_formed (rank : nat -> nat) : Prop := {
    wf_args : length args = length input_names;
    wf_names : NoDup (input_names ++ flat_map produced graph);
    wf_self : forall e, In e graph -> In (fst e) (produced e);
    wf_once : forall e, In e graph -> NoDup (input_list (snd e));
    wf_tuple : forall e vs, In e graph -> length (produced e) <> 1 -> exists outs, tuple (run (fst e) vs) = Some outs /\ length outs = length (produced e);
    wf_rank : forall e x, In e graph -> In x (input_list (snd e)) -> In x input_names \/ exists e', In e' graph /\ In x (produced e') /\ rank (fst e') < rank (fst e) }.
End Spec.

(** *** Dictionaries *)
Lemma get_put {A} k (a : A) l j : get j (put k a l) = if Nat.eqb k j then Some a else get j l.
Proof.
  induction l as [|[i b] l IH]; cbn [put get]; [reflexivity|]. destruct (Nat.eqb_spec i k) as [E|N]; cbn [get].
  - destruct (Nat.eqb_spec k j) as [F|F]; [reflexivity|]. destruct (Nat.eqb_spec i j); [lia|reflexivity].
  - rewrite IH. destruct (Nat.eqb_spec i j) as [F|F]; [|reflexivity]. destruct (Nat.eqb_spec k j); [lia|reflexivity].
Qed.
Lemma get_in {A} k (l : list (nat * A)) a : get k l = Some a -> In (k, a) l.
Proof. induction l as [|[i b] l IH]; cbn [get]; [discriminate|]. destruct (Nat.eqb_spec i k) as [->|]; [intros [= ->]; now left|right; auto]. Qed.
Lemma get_nodup {A} k (l : list (nat * A)) a : NoDup (map fst l) -> In (k, a) l -> get k l = Some a.
Proof. induction l as [|[i b] l IH]; cbn [get map fst]; [contradiction|]. intros N I. inversion N as [|? ? N1 N2]; subst. destruct I as [E|I]; [injection E as -> ->; now rewrite Nat.eqb_refl|]. destruct (Nat.eqb_spec i k) as [->|]; [exfalso; apply N1; apply in_map_iff; now exists (k, a)|auto]. Qed.
Lemma get_filter {A} (p : nat -> bool) (l : list (nat * A)) k : get k (filter (fun e => p (fst e)) l) = if p k then get k l else None.
Proof.
  induction l as [|[i b] l IH]; cbn [filter get]; [now destruct (p k)|]. cbn [fst]. destruct (p i) eqn:E; cbn [get].
  - destruct (Nat.eqb_spec i k) as [->|]; [now rewrite E|exact IH].
  - rewrite IH. destruct (Nat.eqb_spec i k) as [->|]; [now rewrite E|reflexivity].
Qed.
Lemma position_spec k l : match position k l with Some i => nth_error l i = Some k | None => ~ In k l end.
Proof.
  induction l as [|x l IH]; cbn [position]; [auto|]. destruct (Nat.eqb_spec x k) as [->|N]; [reflexivity|]. destruct (position k l); cbn [option_map]; [exact IH|]. intros [E|I]; auto.
Qed.
Lemma set_true_map (f : nat -> bool) k l : NoDup l -> match position k l with Some i => set_true i (map f l) | None => map f l end = map (fun x => if Nat.eqb x k then true else f x) l.
Proof.
  induction l as [|x l IH]; intros N; cbn [position map]; [reflexivity|]. inversion N as [|? ? N1 N2]; subst. specialize (IH N2). destruct (Nat.eqb_spec x k) as [->|E].
  - cbn [set_true]. f_equal. apply map_ext_in. intros y I. destruct (Nat.eqb_spec y k) as [->|]; [contradiction|reflexivity].
  - destruct (position k l); cbn [option_map set_true]; now rewrite IH.
Qed.
Lemma app_disjoint {A} (l m : list A) x : NoDup (l ++ m) -> In x l -> In x m -> False.
Proof. induction l as [|a l IH]; [contradiction|]. cbn [app]. intros N [->|I] Im; inversion N as [|? ? N1 N2]; subst; [apply N1; apply in_or_app; auto|auto]. Qed.
Lemma NoDup_app_r {A} (l m : list A) : NoDup (l ++ m) -> NoDup m. Proof. induction l as [|a l IH]; [auto|]. cbn [app]. intros N. inversion N. auto. Qed.
Lemma NoDup_app_l {A} (l m : list A) : NoDup (l ++ m) -> NoDup l. Proof. induction l as [|a l IH]; [constructor|]. cbn [app]. intros N. inversion N as [|? ? N1 N2]; subst. constructor; [intros I; apply N1; apply in_or_app; auto|auto]. Qed.
Lemma flat_map_unique {A B} (f : A -> list B) l e e' x : NoDup (flat_map f l) -> In e l -> In e' l -> In x (f e) -> In x (f e') -> e = e'.
Proof.
  induction l as [|a l IH]; cbn [flat_map]; [contradiction|]. intros N I I' Hx Hx'. pose proof (NoDup_app_r _ _ N) as N2.
  destruct I as [->|I], I' as [->|I']; [reflexivity| | |auto]; exfalso; (apply (app_disjoint _ _ x N); [assumption|apply in_flat_map; eauto]).
Qed.

Lemma filter_le {A} (p : A -> bool) l : length (filter p l) <= length l. Proof. induction l as [|a l IH]; [auto|]. cbn [filter]. destruct (p a); cbn [length]; lia. Qed.
Lemma NoDup_nth {A} (l : list A) i j a : NoDup l -> nth_error l i = Some a -> nth_error l j = Some a -> i = j.
Proof. intros N Hi Hj. rewrite NoDup_nth_error in N. apply N; [apply nth_error_Some; congruence|congruence]. Qed.
Lemma Forall2_det {A B} (R : A -> B -> Prop) l : forall m m', (forall x v v', In x l -> R x v -> R x v' -> v = v') -> Forall2 R l m -> Forall2 R l m' -> m = m'.
Proof. induction l as [|a l IH]; intros m m' H F F'; inversion F; inversion F'; subst; [reflexivity|]. f_equal; [apply (H a); [now left|assumption|assumption]|]. apply IH; [intros x v v' I; apply H; now right|assumption|assumption]. Qed.
Section Proofs.
  Context {V : Type}.
  Variables (run : nat -> list V -> V) (tuple : V -> option (list V)) (graph : list (nat * node)) (input_names : list nat) (args : list V) (rank : nat -> nat).
  Hypothesis W : well_formed run tuple graph input_names args rank.
  Notation den := (denotes run tuple graph input_names args).
  Definition ready (s : state (V := V)) (x : nat) : bool := match computed s x with Some true => true | _ => false end.
  Definition is_key (x : nat) : bool := existsb (fun e => Nat.eqb (fst e) x) graph.
  Lemma is_key_in x : is_key x = true <-> exists e, In e graph /\ fst e = x.
  Proof. unfold is_key. rewrite existsb_exists. split; intros (e & I & E); exists e; [apply Nat.eqb_eq in E|apply Nat.eqb_eq in E]; auto. Qed.
  Lemma graph_unique e e' x : In e graph -> In e' graph -> In x (produced e) -> In x (produced e') -> e = e'.
  Proof. apply flat_map_unique. exact (NoDup_app_r _ _ (wf_names _ _ _ _ _ _ W)). Qed.
  Lemma keys_nodup : NoDup (map fst graph).
  Proof.
    pose proof (NoDup_app_r _ _ (wf_names _ _ _ _ _ _ W)) as N. pose proof (wf_self _ _ _ _ _ _ W) as Hs. clear W. induction graph as [|a l IH]; cbn [map]; [constructor|]. cbn [flat_map] in N. constructor.
    - intros I. apply in_map_iff in I as (e & E & I). apply (app_disjoint _ _ (fst a) N); [apply Hs; now left|]. apply in_flat_map. exists e. split; [exact I|]. rewrite <- E. apply Hs. now right.
    - apply IH; [exact (NoDup_app_r _ _ N)|]. intros e I. apply Hs. now right.
  Qed.

  Lemma produced_nodup e : In e graph -> NoDup (produced e).
  Proof.
    intros I. pose proof (NoDup_app_r _ _ (wf_names _ _ _ _ _ _ W)) as N. clear W. induction graph as [|a l IH]; [contradiction|]. cbn [flat_map] in N. destruct I as [->|I]; [exact (NoDup_app_l _ _ N)|]. apply IH; [exact I|exact (NoDup_app_r _ _ N)].
  Qed.
  (** the value of a name is unique *)
  Lemma den_inv x v : den x v -> (exists i, nth_error input_names i = Some x /\ nth_error args i = Some v) \/
    exists e vs, In e graph /\ In x (produced e) /\ Forall2 den (input_list (snd e)) vs /\ ((produced e = [x] /\ v = run x vs) \/ (length (produced e) <> 1 /\ exists outs j, tuple (run (fst e) vs) = Some outs /\ nth_error (produced e) j = Some x /\ nth_error outs j = Some v)).
  Proof.
    intros D. destruct D as [i name v A B|e vs I P F|e vs outs j name v I L F T A B]; [left; eauto|right|right].
    - exists e, vs. split; [exact I|]. split; [rewrite P; now left|]. split; [exact F|]. left. rewrite P. auto.
    - exists e, vs. split; [exact I|]. split; [exact (nth_error_In _ _ A)|]. split; [exact F|]. right. split; [exact L|]. eauto.
  Qed.
  Lemma k_det x v v' : den x v -> den x v' -> v = v'.
  Proof.
    pose proof (wf_names _ _ _ _ _ _ W) as N. pose proof (NoDup_app_l _ _ N) as Ni.
    assert (Base : forall e x, In x input_names -> In e graph -> In x (produced e) -> False) by (intros e y A B C; apply (app_disjoint _ _ y N A); apply in_flat_map; eauto).
    assert (Inp : forall y w w', In y input_names -> den y w -> den y w' -> w = w'). { intros y w w' Iy A B. apply den_inv in A as [(i & A1 & A2)|(e & ? & A1 & A2 & _)]; [|exfalso; eauto]. apply den_inv in B as [(j & B1 & B2)|(e & ? & B1 & B2 & _)]; [|exfalso; eauto]. pose proof (NoDup_nth _ _ _ _ Ni A1 B1). subst j. congruence. }
    assert (Gen : forall n e y w w', In e graph -> In y (produced e) -> rank (fst e) < n -> den y w -> den y w' -> w = w').
    { induction n as [|n IH]; intros e y w w' Ie Iy Hn A B; [lia|]. apply den_inv in A as [(i & A1 & A2)|(e1 & vs1 & A1 & A2 & A3 & A4)]; [exfalso; apply (Base e y); eauto using nth_error_In|]. apply den_inv in B as [(i & B1 & B2)|(e2 & vs2 & B1 & B2 & B3 & B4)]; [exfalso; apply (Base e y); eauto using nth_error_In|].
      assert (e1 = e) by (apply (graph_unique e1 e y); assumption). assert (e2 = e) by (apply (graph_unique e2 e y); assumption). subst e1 e2.
      assert (vs1 = vs2). { apply (Forall2_det den (input_list (snd e))); [|assumption|assumption]. intros z u u' Iz Du Du'. destruct (wf_rank _ _ _ _ _ _ W e z Ie Iz) as [H|(e' & H1 & H2 & H3)]; [exact (Inp z u u' H Du Du')|]. apply (IH e' z u u' H1 H2); [lia|assumption|assumption]. }
      subst vs2. destruct A4 as [[P1 ->]|[P1 (o1 & j1 & T1 & X1 & Y1)]], B4 as [[P2 ->]|[P2 (o2 & j2 & T2 & X2 & Y2)]]; [reflexivity|rewrite P1 in P2; now contradict P2|rewrite P2 in P1; now contradict P1|].
      pose proof (NoDup_nth _ _ _ _ (produced_nodup e Ie) X1 X2). subst j2. congruence. }
    intros A B. destruct (den_inv x v A) as [(i & A1 & A2)|(e & ? & A1 & A2 & _)]; [apply (Inp x v v'); eauto using nth_error_In|]. apply (Gen (S (rank (fst e))) e x v v' A1 A2); [lia|assumption|assumption].
  Qed.

  (** state invariant *)
  Record inv (s : state (V := V)) : Prop := {
    iv_keys : forall x, is_key x = true -> exists b, computed s x = Some b;
    iv_avail : inputs_available s = map (fun e => (fst e, map (ready s) (input_list (snd e)))) graph;
    iv_den : forall x v, get x (values s) = Some v -> den x v;
    iv_needed : forall x, ready s x = true -> needed graph s x = true -> exists v, get x (values s) = Some v;
    iv_done : forall e x, In e graph -> ready s (fst e) = true -> In x (produced e) -> ready s x = true;
    iv_args : forall x, In x input_names -> ready s x = true;
    iv_only : forall x, ready s x = true -> In x input_names \/ exists e, In e graph /\ In x (produced e) /\ ready s (fst e) = true }.

  Lemma ready_mark name (s : state (V := V)) x : ready (mark_as_computed graph name s) x = if Nat.eqb x name then true else ready s x.
  Proof. unfold ready, mark_as_computed. cbn [computed]. destruct (Nat.eqb x name); reflexivity. Qed.
  Lemma combine_map {A B C} (f : A -> B) (g : A * B -> C) l : map g (combine l (map f l)) = map (fun a => g (a, f a)) l.
  Proof. induction l; cbn; congruence. Qed.
  Lemma avail_mark name (s : state (V := V)) : inputs_available s = map (fun e => (fst e, map (ready s) (input_list (snd e)))) graph ->
    inputs_available (mark_as_computed graph name s) = map (fun e => (fst e, map (ready (mark_as_computed graph name s)) (input_list (snd e)))) graph.
  Proof.
    intros E. cbn [mark_as_computed inputs_available]. rewrite E, combine_map. apply map_ext_in. intros e I. cbn [fst snd]. f_equal. rewrite set_true_map by (now apply (wf_once _ _ _ _ _ _ W)). apply map_ext. intros x. now rewrite ready_mark.
  Qed.
  Lemma needed_mark name (s : state (V := V)) x : needed graph (mark_as_computed graph name s) x = true -> needed graph s x = true.
  Proof.
    unfold needed. rewrite !existsb_exists. intros (e & I & E). exists e. split; [exact I|]. cbn [mark_as_computed computed] in E. destruct (Nat.eqb (fst e) name); [discriminate|exact E].
  Qed.
  (** several stores *)
  Definition stores (l : list (nat * V)) (s : state) : state := fold_left (fun s p => store graph (fst p) (snd p) s) l s.
  Lemma ready_stores l : forall s x, ready (stores l s) x = existsb (Nat.eqb x) (map fst l) || ready s x.
  Proof.
    induction l as [|[k v] l IH]; intros s x; cbn [stores fold_left map existsb]; [reflexivity|]. unfold stores in IH. rewrite IH. unfold store. cbn [fst snd]. rewrite ready_mark. change (ready {| values := put k v (values s); computed := computed s; inputs_available := inputs_available s |} x) with (ready s x).
    destruct (Nat.eqb x k), (existsb (Nat.eqb x) (map fst l)), (ready s x); reflexivity.
  Qed.
  Lemma avail_stores l : forall s, inputs_available s = map (fun e => (fst e, map (ready s) (input_list (snd e)))) graph -> inputs_available (stores l s) = map (fun e => (fst e, map (ready (stores l s)) (input_list (snd e)))) graph.
  Proof. induction l as [|[k v] l IH]; intros s E; [exact E|]. cbn [stores fold_left]. apply IH. unfold store. apply avail_mark. exact E. Qed.
  Lemma needed_stores l : forall s x, needed graph (stores l s) x = true -> needed graph s x = true.
  Proof. induction l as [|[k v] l IH]; intros s x E; [exact E|]. cbn [stores fold_left] in E. apply IH in E. unfold store in E. apply needed_mark in E. exact E. Qed.
  Lemma keys_stores l : forall s, (forall x, is_key x = true -> exists b, computed s x = Some b) -> forall x, is_key x = true -> exists b, computed (stores l s) x = Some b.
  Proof. induction l as [|[k v] l IH]; intros s H; [exact H|]. cbn [stores fold_left]. apply IH. intros x K. unfold store, mark_as_computed. cbn [computed fst]. destruct (Nat.eqb x k); eauto. Qed.
  Lemma values_stores l : NoDup (map fst l) -> forall s x, get x (values (stores l s)) = match get x l with Some v => Some v | None => get x (values s) end.
  Proof.
    induction l as [|[k v] l IH]; intros N s x; [reflexivity|]. cbn [map fst] in N. inversion N as [|? ? N1 N2]; subst. cbn [stores fold_left get]. unfold stores in IH. rewrite IH by exact N2. unfold store, mark_as_computed. cbn [values fst snd]. rewrite get_put.
    destruct (Nat.eqb_spec k x) as [->|]; [|reflexivity]. destruct (get x l) eqn:G; [|reflexivity]. exfalso. apply N1. apply get_in in G. apply in_map_iff. now exists (x, v0).
  Qed.

  Lemma gets_den s : (forall x v, get x (values s) = Some v -> den x v) -> forall xs, (forall x, In x xs -> exists v, get x (values s) = Some v) -> exists vs, gets xs (values s) = Some vs /\ Forall2 den xs vs.
  Proof.
    intros D. induction xs as [|x xs IH]; intros H; [exists []; split; [reflexivity|constructor]|]. destruct (H x (or_introl eq_refl)) as (v & G). destruct IH as (vs & E & F); [intros y I; apply H; now right|]. exists (v :: vs). cbn [gets]. rewrite G, E. split; [reflexivity|]. constructor; auto.
  Qed.
  Lemma find_some_node s : inv s -> forall k, find_computable_node s = Some k -> exists e, In e graph /\ fst e = k /\ ready s k = false /\ forall x, In x (input_list (snd e)) -> ready s x = true.
  Proof.
    intros I k. unfold find_computable_node. rewrite (iv_avail _ I). destruct (find _ _) as [[k' bs]|] eqn:E; [|discriminate]. cbn [option_map fst]. intros [= ->]. apply find_some in E as [E1 E2]. apply in_map_iff in E1 as (e & E1 & E3). injection E1 as <- <-. cbn [fst snd] in E2. apply andb_true_iff in E2 as [E2 E4]. exists e. split; [exact E3|]. split; [reflexivity|]. split.
    - unfold ready. destruct (computed s (fst e)) as [[|]|]; [discriminate|reflexivity|reflexivity].
    - intros x Hx. rewrite forallb_forall in E2. apply (E2 (ready s x)). now apply in_map.
  Qed.
  Lemma find_none_node s : inv s -> find_computable_node s = None -> forall e, In e graph -> ready s (fst e) = true.
  Proof.
    intros I E. assert (A : forall n e, In e graph -> rank (fst e) < n -> ready s (fst e) = true).
    { induction n as [|n IH]; intros e Ie Hn; [lia|]. destruct (ready s (fst e)) eqn:R; [reflexivity|]. exfalso. unfold find_computable_node in E. rewrite (iv_avail _ I) in E. destruct (find _ _) eqn:F; [discriminate|].
      assert (Q : forallb id (map (ready s) (input_list (snd e))) = true). { apply forallb_forall. intros b Hb. apply in_map_iff in Hb as (x & <- & Hx). unfold id. destruct (wf_rank _ _ _ _ _ _ W e x Ie Hx) as [H|(e' & H1 & H2 & H3)]; [now apply (iv_args _ I)|]. apply (iv_done _ I e' x H1); [|exact H2]. apply (IH e' H1). lia. }
      pose proof (find_none _ _ F (fst e, map (ready s) (input_list (snd e))) (in_map (fun e => (fst e, map (ready s) (input_list (snd e)))) _ _ Ie)) as Q'. cbn [fst snd] in Q'. rewrite Q in Q'. destruct (iv_keys _ I (fst e)) as (b & Kb); [apply is_key_in; eauto|]. unfold ready in R. rewrite Kb in R, Q'. destruct b; discriminate. }
    intros e Ie. apply (A (S (rank (fst e))) e Ie). lia.
  Qed.

  Lemma zip_get (names : list nat) (vs : list V) : NoDup names -> length vs = length names -> forall x, get x (combine names vs) = match position x names with Some i => nth_error vs i | None => None end.
  Proof.
    revert vs. induction names as [|n names IH]; intros [|v vs] N L x; try discriminate; [reflexivity|]. inversion N as [|? ? N1 N2]; subst. cbn [combine get position]. destruct (Nat.eqb_spec n x) as [->|E]; [reflexivity|]. injection L as L. rewrite (IH vs N2 L). destruct (position x names); reflexivity.
  Qed.
  Lemma map_fst_combine {A B} (l : list A) : forall m : list B, length m = length l -> map fst (combine l m) = l.
  Proof. induction l as [|a l IH]; intros [|b m] E; try discriminate; [reflexivity|]. cbn. f_equal. apply IH. now injection E. Qed.
  (** a module call stores one value per name it produces *)
  Lemma compute_ok s e : inv s -> In e graph -> ready s (fst e) = false -> (forall x, In x (input_list (snd e)) -> ready s x = true) ->
    exists vals, length vals = length (produced e) /\ compute run tuple graph (fst e) s = inr (stores (combine (produced e) vals) s) /\ forall j x v, nth_error (produced e) j = Some x -> nth_error vals j = Some v -> den x v.
  Proof.
    intros I Ie Re Rx. assert (Kb : computed s (fst e) = Some false). { destruct (iv_keys _ I (fst e)) as (b & Kb); [apply is_key_in; eauto|]. unfold ready in Re. rewrite Kb in *. destruct b; [discriminate|reflexivity]. }
    destruct (gets_den s (iv_den _ I) (input_list (snd e))) as (vs & G & F). { intros x Hx. apply (iv_needed _ I); [now apply Rx|]. unfold needed. apply existsb_exists. exists e. split; [exact Ie|]. rewrite Kb. apply existsb_exists. exists x. split; [exact Hx|apply Nat.eqb_refl]. }
    assert (Ge : get (fst e) graph = Some (snd e)) by (apply get_nodup; [exact keys_nodup|now rewrite <- surjective_pairing]). unfold compute. rewrite Ge, G.
    pose proof (wf_self _ _ _ _ _ _ W e Ie) as Self. destruct (Nat.eq_dec (length (produced e)) 1) as [L1|L1].
    - assert (P1 : produced e = [fst e]). { destruct (produced e) as [|a [|b l]]; try discriminate. destruct Self as [->|[]]. reflexivity. }
      exists [run (fst e) vs]. split; [now rewrite L1|]. rewrite P1. split.
      + unfold produced in P1. destruct (output_list (snd e)) as [l|]; [|reflexivity]. rewrite P1, Nat.eqb_refl. reflexivity.
      + intros [|j] x v Hx Hv; cbn in Hx, Hv; [|destruct j; discriminate]. injection Hx as <-. injection Hv as <-. apply DOne; assumption.
    - destruct (wf_tuple _ _ _ _ _ _ W e vs Ie L1) as (outs & T & Lo). exists outs. split; [exact Lo|]. split.
      + unfold produced in *. destruct (output_list (snd e)) as [l|]; [|now contradict L1]. destruct l as [|a [|b l]]; [rewrite T, Lo, Nat.eqb_refl; reflexivity|now contradict L1|rewrite T, Lo, Nat.eqb_refl; reflexivity].
      + intros j x v Hx Hv. now apply (DMany run tuple graph input_names args e vs outs j x v).
  Qed.
  Lemma inv_step s e vals : inv s -> In e graph -> length vals = length (produced e) -> (forall j x v, nth_error (produced e) j = Some x -> nth_error vals j = Some v -> den x v) -> ready s (fst e) = false -> inv (stores (combine (produced e) vals) s).
  Proof.
    intros I Ie L D Re. pose proof (produced_nodup e Ie) as N. pose proof (map_fst_combine (produced e) vals L) as Mf. set (s' := stores (combine (produced e) vals) s).
    assert (R : forall x, ready s' x = existsb (Nat.eqb x) (produced e) || ready s x) by (intros x; unfold s'; rewrite ready_stores, Mf; reflexivity).
    assert (Vs : forall x, get x (values s') = match position x (produced e) with Some i => match nth_error vals i with Some v => Some v | None => get x (values s) end | None => get x (values s) end). { intros x. unfold s'. rewrite values_stores by (now rewrite Mf). rewrite (zip_get _ _ N L). destruct (position x (produced e)); reflexivity. }
    assert (Ex : forall x, existsb (Nat.eqb x) (produced e) = true <-> In x (produced e)). { intros x. rewrite existsb_exists. split; [intros (y & Iy & E); apply Nat.eqb_eq in E; now subst|intros Ix; exists x; split; [exact Ix|apply Nat.eqb_refl]]. }
    constructor.
    - apply keys_stores. exact (iv_keys _ I).
    - apply avail_stores. exact (iv_avail _ I).
    - intros x v G. rewrite Vs in G. pose proof (position_spec x (produced e)) as P. destruct (position x (produced e)) as [i|]; [|now apply (iv_den _ I)]. destruct (nth_error vals i) as [w|] eqn:Ew; [injection G as <-; now apply (D i)|now apply (iv_den _ I)].
    - intros x Rx Nx. rewrite Vs. pose proof (position_spec x (produced e)) as P. destruct (position x (produced e)) as [i|] eqn:Ep.
      + destruct (nth_error vals i) as [w|] eqn:Ew; [eauto|]. apply nth_error_None in Ew. assert (i < length (produced e)) by (apply nth_error_Some; congruence). lia.
      + rewrite R in Rx. destruct (existsb (Nat.eqb x) (produced e)) eqn:Q; [apply Ex in Q; contradiction|]. apply (iv_needed _ I); [exact Rx|]. exact (needed_stores _ _ _ Nx).
    - intros e' x Ie' Re' Hx. rewrite R in *. apply orb_true_iff in Re' as [Q|Q].
      + apply Ex in Q. assert (e' = e) by (apply (graph_unique e' e (fst e') Ie' Ie); [now apply (wf_self _ _ _ _ _ _ W)|exact Q]). subst e'. apply Ex in Hx. now rewrite Hx.
      + rewrite (iv_done _ I e' x Ie' Q Hx). apply orb_true_r.
    - intros x Hx. rewrite R, (iv_args _ I x Hx). apply orb_true_r.
    - intros x Rx. rewrite R in Rx. apply orb_true_iff in Rx as [Q|Q].
      + right. exists e. apply Ex in Q. split; [exact Ie|]. split; [exact Q|]. rewrite R. pose proof (wf_self _ _ _ _ _ _ W e Ie) as Self. apply Ex in Self. now rewrite Self.
      + destruct (iv_only _ I x Q) as [H|(e' & H1 & H2 & H3)]; [now left|right]. exists e'. split; [exact H1|]. split; [exact H2|]. rewrite R, H3. apply orb_true_r.
  Qed.
  Lemma inv_clear s : inv s -> inv (clear_unused_values graph s).
  Proof.
    intros I. destruct I as [I1 I2 I3 I4 I5 I6 I7]. constructor; try assumption.
    - intros x v G. cbn [clear_unused_values values] in G. rewrite get_filter in G. destruct (needed graph s x); [now apply I3|discriminate].
    - intros x R N. cbn [clear_unused_values values]. rewrite get_filter. change (needed graph (clear_unused_values graph s) x) with (needed graph s x) in N. rewrite N. now apply I4.
  Qed.

  (** number of nodes that are not computed *)
  Definition missing (s : state (V := V)) : nat := length (filter (fun e => negb (ready s (fst e))) graph).
  Lemma filter_lt {A} (p q : A -> bool) l a : (forall x, q x = true -> p x = true) -> In a l -> p a = true -> q a = false -> length (filter q l) < length (filter p l).
  Proof.
    intros H. assert (Le : forall l, length (filter q l) <= length (filter p l)). { induction l0 as [|x l0 IH]; [auto|]. cbn [filter]. destruct (q x) eqn:E; [rewrite (H _ E); cbn; lia|]. destruct (p x); cbn; lia. }
    induction l as [|x l IH]; [contradiction|]. intros [->|I] P Q; cbn [filter].
    - rewrite P, Q. cbn. specialize (Le l). lia.
    - specialize (IH I P Q). destruct (q x) eqn:E; [rewrite (H _ E); cbn; lia|]. destruct (p x); cbn; lia.
  Qed.
  Lemma loop_ok o : is_key o = true -> forall n s, inv s -> missing s <= n -> ready s o = false -> exists v, den o v /\ forall fuel, n <= fuel -> loop run tuple graph fuel [o] (find_computable_node s) s = Returns [v].
  Proof.
    intros Ko. induction n as [|n IH]; intros s I Hm Ro.
    - exfalso. apply is_key_in in Ko as (e & Ie & <-). assert (In e (filter (fun e => negb (ready s (fst e))) graph)) by (apply filter_In; rewrite Ro; auto). unfold missing in Hm. destruct (filter _ graph); [contradiction|cbn in Hm; lia].
    - destruct (find_computable_node s) as [k|] eqn:E.
      2: { exfalso. apply is_key_in in Ko as (e & Ie & <-). rewrite (find_none_node s I E e Ie) in Ro. discriminate. }
      destruct (find_some_node s I k E) as (e & Ie & Ek & Rk & Rx). subst k. destruct (compute_ok s e I Ie Rk Rx) as (vals & L & Ec & D). pose proof (inv_step s e vals I Ie L D Rk) as I'. set (s' := stores (combine (produced e) vals) s) in *.
      pose proof (produced_nodup e Ie) as N. pose proof (map_fst_combine (produced e) vals L) as Mf. destruct (iv_keys _ I' o Ko) as (b & Kb). destruct b.
      + assert (Rs : ready s' o = true) by (unfold ready; now rewrite Kb). unfold s' in Rs. rewrite ready_stores, Mf, Ro, orb_false_r in Rs. apply existsb_exists in Rs as (y & Iy & Ey). apply Nat.eqb_eq in Ey. subst y.
        assert (G : exists v, get o (values s') = Some v /\ den o v). { unfold s'. rewrite values_stores by (now rewrite Mf). rewrite (zip_get _ _ N L). pose proof (position_spec o (produced e)) as P. destruct (position o (produced e)) as [i|]; [|contradiction]. destruct (nth_error vals i) as [w|] eqn:Ew; [exists w; split; [reflexivity|now apply (D i)]|]. apply nth_error_None in Ew. assert (i < length (produced e)) by (apply nth_error_Some; congruence). lia. }
        destruct G as (v & G & Dv). exists v. split; [exact Dv|]. intros [|fuel] Hf; [lia|]. cbn [loop]. rewrite Ec. cbn [all_computed]. rewrite Kb. cbn [gets]. now rewrite G.
      + assert (Ro' : ready (clear_unused_values graph s') o = false) by (unfold ready; cbn [clear_unused_values computed]; now rewrite Kb).
        destruct (IH (clear_unused_values graph s') (inv_clear s' I')) as (v & Dv & Lv); [|exact Ro'|].
        * unfold missing in *. assert (length (filter (fun e0 => negb (ready (clear_unused_values graph s') (fst e0))) graph) < length (filter (fun e0 => negb (ready s (fst e0))) graph)); [|lia]. apply (filter_lt _ _ graph e); [|exact Ie|now rewrite Rk|].
          -- intros x. change (ready (clear_unused_values graph s') (fst x)) with (ready s' (fst x)). unfold s'. rewrite ready_stores. destruct (existsb _ _), (ready s (fst x)); auto.
          -- change (ready (clear_unused_values graph s') (fst e)) with (ready s' (fst e)). unfold s'. rewrite ready_stores, Mf. replace (existsb (Nat.eqb (fst e)) (produced e)) with true; [reflexivity|]. symmetry. apply existsb_exists. exists (fst e). split; [now apply (wf_self _ _ _ _ _ _ W)|apply Nat.eqb_refl].
        * exists v. split; [exact Dv|]. intros [|fuel] Hf; [lia|]. cbn [loop]. rewrite Ec. cbn [all_computed]. rewrite Kb. change (find_computable_node s') with (find_computable_node (clear_unused_values graph s')). apply Lv. lia.
  Qed.

  (** several outputs: the last one together with some of its own inputs *)
  Lemma all_computed_keys os : forall s, inv s -> (forall x, In x os -> is_key x = true) -> all_computed os s = Some (forallb (ready s) os).
  Proof.
    intros s I. induction os as [|x os IH]; intros K; [reflexivity|]. cbn [all_computed forallb]. destruct (iv_keys _ I x (K x (or_introl eq_refl))) as (b & Kb). unfold ready at 1. rewrite Kb. destruct b; [|reflexivity]. apply IH. intros y Hy. apply K. now right.
  Qed.
  Lemma loop_many e0 os : In e0 graph -> In (fst e0) os -> (forall x, In x os -> is_key x = true /\ (x = fst e0 \/ In x (input_list (snd e0)))) ->
    forall n s, inv s -> missing s <= n -> ready s (fst e0) = false -> exists vs, Forall2 den os vs /\ forall fuel, n <= fuel -> loop run tuple graph fuel os (find_computable_node s) s = Returns vs.
  Proof.
    intros I0 Io Hos. induction n as [|n IH]; intros s I Hm Ro.
    - exfalso. assert (In e0 (filter (fun e => negb (ready s (fst e))) graph)) by (apply filter_In; rewrite Ro; auto). unfold missing in Hm. destruct (filter _ graph); [contradiction|cbn in Hm; lia].
    - destruct (find_computable_node s) as [k|] eqn:E; [|rewrite (find_none_node s I E e0 I0) in Ro; discriminate].
      destruct (find_some_node s I k E) as (e & Ie & Ek & Rk & Rx). subst k. destruct (compute_ok s e I Ie Rk Rx) as (vals & L & Ec & D). pose proof (inv_step s e vals I Ie L D Rk) as I'. set (s' := stores (combine (produced e) vals) s) in *.
      pose proof (produced_nodup e Ie) as N. pose proof (map_fst_combine (produced e) vals L) as Mf.
      pose proof (all_computed_keys os s' I' (fun x Hx => proj1 (Hos x Hx))) as Ac. destruct (ready s' (fst e0)) eqn:Rs.
      + assert (In (fst e0) (produced e)). { unfold s' in Rs. rewrite ready_stores, Mf, Ro, orb_false_r in Rs. apply existsb_exists in Rs as (y & Iy & Ey). apply Nat.eqb_eq in Ey. now subst y. }
        assert (e = e0) by (apply (graph_unique e e0 (fst e0) Ie I0); [assumption|now apply (wf_self _ _ _ _ _ _ W)]). subst e.
        assert (All : forallb (ready s') os = true). { apply forallb_forall. intros x Hx. destruct (Hos x Hx) as [_ [->|Hi]]; [exact Rs|]. unfold s'. rewrite ready_stores, (Rx x Hi). apply orb_true_r. }
        assert (Kb : computed s (fst e0) = Some false). { destruct (iv_keys _ I (fst e0)) as (b & Kb); [apply is_key_in; eauto|]. unfold ready in Ro. rewrite Kb in *. destruct b; [discriminate|reflexivity]. }
        destruct (gets_den s' (iv_den _ I') os) as (vs & G & F).
        { intros x Hx. unfold s'. rewrite values_stores by (now rewrite Mf). destruct (Hos x Hx) as [_ [->|Hi]].
          - rewrite (zip_get _ _ N L). pose proof (position_spec (fst e0) (produced e0)) as P. destruct (position (fst e0) (produced e0)) as [i|]; [|contradiction]. destruct (nth_error vals i) as [w|] eqn:Ew; [eauto|]. apply nth_error_None in Ew. assert (i < length (produced e0)) by (apply nth_error_Some; congruence). lia.
          - destruct (get x (combine (produced e0) vals)); [eauto|]. apply (iv_needed _ I); [now apply Rx|]. unfold needed. apply existsb_exists. exists e0. split; [exact I0|]. rewrite Kb. apply existsb_exists. exists x. split; [exact Hi|apply Nat.eqb_refl]. }
        exists vs. split; [exact F|]. intros [|fuel] Hf; [lia|]. cbn [loop]. rewrite Ec. fold s'. rewrite Ac, All, G. reflexivity.
      + destruct (IH (clear_unused_values graph s') (inv_clear s' I')) as (vs & Dv & Lv); [|exact Rs|].
        * unfold missing in *. assert (length (filter (fun e0 => negb (ready (clear_unused_values graph s') (fst e0))) graph) < length (filter (fun e0 => negb (ready s (fst e0))) graph)); [|lia]. apply (filter_lt _ _ graph e); [|exact Ie|now rewrite Rk|].
          -- intros x. change (ready (clear_unused_values graph s') (fst x)) with (ready s' (fst x)). unfold s'. rewrite ready_stores. destruct (existsb _ _), (ready s (fst x)); auto.
          -- change (ready (clear_unused_values graph s') (fst e)) with (ready s' (fst e)). unfold s'. rewrite ready_stores, Mf. replace (existsb (Nat.eqb (fst e)) (produced e)) with true; [reflexivity|]. symmetry. apply existsb_exists. exists (fst e). split; [now apply (wf_self _ _ _ _ _ _ W)|apply Nat.eqb_refl].
        * exists vs. split; [exact Dv|]. intros [|fuel] Hf; [lia|]. cbn [loop]. rewrite Ec. fold s'. rewrite Ac. replace (forallb (ready s') os) with false; [change (find_computable_node s') with (find_computable_node (clear_unused_values graph s')); apply Lv; lia|]. symmetry. apply not_true_is_false. intros Q. rewrite forallb_forall in Q. rewrite (Q _ Io) in Rs. discriminate.
  Qed.

  (** the state before the loop *)
  Lemma fold_put (names : list nat) : forall (vs : list V) l x, NoDup names -> length vs = length names -> get x (fold_left (fun l p => put (fst p) (snd p) l) (combine names vs) l) = match get x (combine names vs) with Some v => Some v | None => get x l end.
  Proof.
    induction names as [|n names IH]; intros [|v vs] l x N L; try discriminate; [reflexivity|]. inversion N as [|? ? N1 N2]; subst. injection L as L. cbn [combine fold_left fst snd get]. rewrite (IH vs _ x N2 L), get_put. destruct (Nat.eqb_spec n x) as [->|]; [|reflexivity]. destruct (get x (combine names vs)) eqn:G; [|reflexivity]. exfalso. apply N1. apply get_in in G. now apply in_combine_l in G.
  Qed.
  Lemma marks names : forall s : state (V := V), (forall x, ready (fold_left (fun s n => mark_as_computed graph n s) names s) x = existsb (Nat.eqb x) names || ready s x) /\
    values (fold_left (fun s n => mark_as_computed graph n s) names s) = values s /\
    ((forall x, is_key x = true -> exists b, computed s x = Some b) -> forall x, is_key x = true -> exists b, computed (fold_left (fun s n => mark_as_computed graph n s) names s) x = Some b) /\
    (inputs_available s = map (fun e => (fst e, map (ready s) (input_list (snd e)))) graph -> inputs_available (fold_left (fun s n => mark_as_computed graph n s) names s) = map (fun e => (fst e, map (ready (fold_left (fun s n => mark_as_computed graph n s) names s)) (input_list (snd e)))) graph).
  Proof.
    induction names as [|n names IH]; intros s; cbn [fold_left existsb]; [repeat split; auto|]. destruct (IH (mark_as_computed graph n s)) as (A & B & C & D). split; [|split; [|split]].
    - intros x. rewrite A, ready_mark. destruct (Nat.eqb x n), (existsb (Nat.eqb x) names), (ready s x); reflexivity.
    - now rewrite B.
    - intros H. apply C. intros x K. unfold mark_as_computed. cbn [computed]. destruct (Nat.eqb x n); eauto.
    - intros H. apply D. now apply avail_mark.
  Qed.
  Lemma start_inv : let s := fold_left (fun s n => mark_as_computed graph n s) input_names (initial graph input_names args) in inv s /\ forall x, is_key x = true -> ready s x = false.
  Proof.
    pose proof (wf_names _ _ _ _ _ _ W) as N. pose proof (NoDup_app_l _ _ N) as Ni. pose proof (wf_args _ _ _ _ _ _ W) as La. destruct (marks input_names (initial graph input_names args)) as (A & B & C & D). set (s := fold_left _ input_names _) in *.
    assert (R0 : forall x, ready (initial graph input_names args) x = false) by (intros x; unfold ready, initial; cbn [computed]; destruct (existsb _ graph); reflexivity).
    assert (R : forall x, ready s x = true <-> In x input_names). { intros x. rewrite A, R0, orb_false_r, existsb_exists. split; [intros (y & Iy & E); apply Nat.eqb_eq in E; now subst|intros Ix; exists x; split; [exact Ix|apply Nat.eqb_refl]]. }
    assert (Kr : forall x, is_key x = true -> ready s x = false). { intros x K. apply not_true_is_false. intros Q. apply R in Q. apply is_key_in in K as (e & Ie & <-). apply (app_disjoint _ _ (fst e) N Q). apply in_flat_map. exists e. split; [exact Ie|]. now apply (wf_self _ _ _ _ _ _ W). }
    assert (Vs : forall x, get x (values s) = match position x input_names with Some i => nth_error args i | None => None end). { intros x. rewrite B. cbn [initial values]. rewrite (fold_put _ _ _ _ Ni La), (zip_get _ _ Ni La). destruct (position x input_names); [destruct (nth_error args n)|]; reflexivity. }
    split; [|exact Kr]. constructor.
    - apply C. intros x K. unfold initial. cbn [computed]. unfold is_key in K. rewrite K. eauto.
    - apply D. unfold initial. cbn [inputs_available]. apply map_ext. intros e. f_equal. induction (input_list (snd e)) as [|y l IH]; [reflexivity|]. cbn [length repeat map]. rewrite IH. f_equal. symmetry. apply R0.
    - intros x v G. rewrite Vs in G. pose proof (position_spec x input_names) as P. destruct (position x input_names) as [i|]; [|discriminate]. now apply (DArg run tuple graph input_names args i).
    - intros x Rx _. rewrite Vs. pose proof (position_spec x input_names) as P. destruct (position x input_names) as [i|]; [|apply R in Rx; contradiction]. destruct (nth_error args i) eqn:E; [eauto|]. apply nth_error_None in E. assert (i < length input_names) by (apply nth_error_Some; congruence). lia.
    - intros e x Ie Re _. rewrite (Kr (fst e)) in Re; [discriminate|]. apply is_key_in. eauto.
    - intros x Hx. now apply R.
    - intros x Rx. left. now apply R.
  Qed.
  Lemma k_graph o : In o (map fst graph) -> exists v, den o v /\ forall fuel, length graph <= fuel -> forward run tuple graph fuel input_names [o] args = Returns [v].
  Proof.
    intros Io. assert (Ko : is_key o = true) by (apply is_key_in; apply in_map_iff in Io as (e & E & I); eauto). destruct start_inv as [I K]. destruct (loop_ok o Ko (length graph) _ I) as (v & D & F).
    - apply filter_le.
    - now apply K.
    - exists v. split; [exact D|]. intros fuel Hf. unfold forward. rewrite (wf_args _ _ _ _ _ _ W), Nat.eqb_refl. now apply F.
  Qed.
  Lemma k_graph_many e os : In e graph -> In (fst e) os -> (forall x, In x os -> In x (map fst graph) /\ (x = fst e \/ In x (input_list (snd e)))) ->
    exists vs, Forall2 den os vs /\ forall fuel, length graph <= fuel -> forward run tuple graph fuel input_names os args = Returns vs.
  Proof.
    intros Ie Io H. assert (Kf : forall x, In x (map fst graph) -> is_key x = true) by (intros x Hx; apply is_key_in; apply in_map_iff in Hx as (e' & E & I); eauto). destruct start_inv as [I K]. destruct (loop_many e os Ie Io (fun x Hx => conj (Kf x (proj1 (H x Hx))) (proj2 (H x Hx))) (length graph) _ I) as (vs & D & F).
    - apply filter_le.
    - apply K, Kf. apply in_map_iff. eauto.
    - exists vs. split; [exact D|]. intros fuel Hf. unfold forward. rewrite (wf_args _ _ _ _ _ _ W), Nat.eqb_refl. now apply F.
  Qed.
End Proofs.

(** *** Graphs that fail *)
Section Duplicates.
  Context {V : Type}.
  Variables (run : nat -> list V -> V) (tuple : V -> option (list V)) (graph : list (nat * node)) (o : nat).
  Hypothesis Dup : forall e, In e graph -> fst e = o \/ In o (produced e) -> fst e = o /\ ~ NoDup (input_list (snd e)).
  (** only the first of equal inputs is ever marked *)
  Definition later_false (e : nat * node) (a : nat * list bool) : Prop :=
    fst a = fst e /\ forall i j x, nth_error (input_list (snd e)) i = Some x -> nth_error (input_list (snd e)) j = Some x -> i < j -> nth_error (snd a) j = Some false.
  Lemma position_first x l : forall i, nth_error l i = Some x -> exists p, position x l = Some p /\ p <= i.
  Proof.
    induction l as [|y l IH]; intros i H; [destruct i; discriminate|]. cbn [position]. destruct (Nat.eqb_spec y x) as [->|N]; [exists 0; split; [reflexivity|lia]|]. destruct i as [|i]; [cbn in H; congruence|]. destruct (IH i H) as (p & E & L). exists (S p). rewrite E. split; [reflexivity|lia].
  Qed.
  Lemma set_true_other l : forall i j, i <> j -> nth_error (set_true i l) j = nth_error l j.
  Proof. induction l as [|b l IH]; intros [|i] [|j] N; cbn; auto; try congruence. Qed.
  Lemma later_mark name s : Forall2 later_false graph (inputs_available s) -> Forall2 later_false graph (inputs_available (mark_as_computed (V := V) graph name s)).
  Proof.
    cbn [mark_as_computed inputs_available]. generalize (inputs_available s). clear Dup. induction graph as [|e l IH]; intros m F; inversion F as [|? a ? m' [F1 F2] F3]; subst; cbn [combine map]; [constructor|]. constructor; [|now apply IH]. split; [reflexivity|]. cbn [fst snd]. intros i j x Hi Hj L.
    pose proof (position_spec name (input_list (snd e))) as P. destruct (position name (input_list (snd e))) as [p|] eqn:E; [|now apply (F2 i j x)]. rewrite set_true_other; [now apply (F2 i j x)|]. intros ->. assert (x = name) by congruence. subst x. destruct (position_first name _ _ Hi) as (q & Eq & Lq). assert (j = q) by congruence. lia.
  Qed.
  Definition inv' (s : state (V := V)) : Prop := Forall2 later_false graph (inputs_available s) /\ computed s o <> Some true.
  Lemma dup_two l : ~ NoDup l -> exists i j (x : nat), nth_error l i = Some x /\ nth_error l j = Some x /\ i < j.
  Proof.
    induction l as [|a l IH]; intros N; [exfalso; apply N; constructor|]. destruct (in_dec Nat.eq_dec a l) as [I|I].
    - apply In_nth_error in I as (j & Hj). exists 0, (S j), a. cbn. repeat split; auto; lia.
    - destruct IH as (i & j & x & A & B & C); [intros N'; apply N; now constructor|]. exists (S i), (S j), x. cbn. repeat split; auto; lia.
  Qed.
  Lemma not_found s : inv' s -> find_computable_node s <> Some o.
  Proof.
    intros [F _] E. unfold find_computable_node in E. destruct (find _ _) as [[k bs]|] eqn:Q; [|discriminate]. cbn [option_map fst] in E. injection E as ->. apply find_some in Q as [I T]. cbn [fst snd] in T. apply andb_true_iff in T as [T _]. rewrite forallb_forall in T. revert F I Dup. generalize (inputs_available s). induction graph as [|e l IH]; intros m F I D; inversion F as [|? a ? m' [F1 F2] F3]; subst; [contradiction|]. destruct I as [->|I].
    - cbn [fst snd] in *. destruct (D e (or_introl eq_refl) (or_introl (eq_sym F1))) as [_ N]. destruct (dup_two _ N) as (i & j & x & A & B & C). specialize (F2 i j x A B C). apply nth_error_In in F2. specialize (T false F2). discriminate.
    - apply (IH m' F3 I). intros e' Ie'. apply D. now right.
  Qed.
  Lemma inv'_store x v s : x <> o -> inv' s -> inv' (store graph x v s).
  Proof. intros N [A B]. split; [unfold store; now apply later_mark|]. unfold store, mark_as_computed. cbn [computed]. destruct (Nat.eqb_spec o x); [congruence|exact B]. Qed.
  Lemma inv'_stores l : forall s, ~ In o (map fst l) -> inv' s -> inv' (fold_left (fun s p => store graph (fst p) (snd p) s) l s).
  Proof. induction l as [|[k v] l IH]; intros s N I; [exact I|]. cbn [fold_left map In fst] in *. apply IH; [tauto|]. apply inv'_store; [intros E; apply N; now left|exact I]. Qed.
  Lemma inv'_compute k s s' : k <> o -> inv' s -> compute run tuple graph k s = inr s' -> inv' s'.
  Proof.
    intros N I. unfold compute. destruct (get k graph) as [n|] eqn:G; [|discriminate]. apply get_in in G. assert (P : ~ In o (produced (k, n))) by (intros P; destruct (Dup _ G (or_intror P)); cbn in *; congruence). unfold produced in P. cbn [snd fst] in P. destruct (gets (input_list n) (values s)) as [vs|]; [|discriminate].
    assert (Many : forall names outs, ~ In o names -> inv' (fold_left (fun s p => store graph (fst p) (snd p) s) (combine names outs) s)). { intros names outs H. apply inv'_stores; [|exact I]. intros Q. apply in_map_iff in Q as ([a b] & <- & Q). apply in_combine_l in Q. auto. }
    destruct (output_list n) as [[|a [|b l]]|].
    - destruct (tuple _); [|discriminate]. destruct (Nat.eqb _ _); [|discriminate]. intros [= <-]. exact I.
    - destruct (Nat.eqb a k); [|discriminate]. intros [= <-]. now apply inv'_store.
    - destruct (tuple _); [|discriminate]. destruct (Nat.eqb _ _); [|discriminate]. intros [= <-]. now apply (Many (a :: b :: l)).
    - intros [= <-]. now apply inv'_store.
  Qed.
  Lemma loop_dup fuel : forall s vs, inv' s -> loop run tuple graph fuel [o] (find_computable_node s) s <> Returns vs.
  Proof.
    induction fuel as [|fuel IH]; intros s vs I; cbn [loop]; destruct (find_computable_node s) as [k|] eqn:E; try discriminate. assert (k <> o) by (intros ->; now apply (not_found s I)). destruct (compute run tuple graph k s) as [|s'] eqn:C; [discriminate|]. pose proof (inv'_compute k s s' H I C) as I'.
    cbn [all_computed]. destruct (computed s' o) as [[|]|] eqn:Q; [exfalso; now apply (proj2 I')|change (find_computable_node s') with (find_computable_node (clear_unused_values graph s')); now apply IH|discriminate].
  Qed.
  Lemma k_graph_duplicate input_names args fuel vs : ~ In o input_names -> forward run tuple graph fuel input_names [o] args <> Returns vs.
  Proof.
    intros N. unfold forward. destruct (Nat.eqb _ _); [|discriminate]. apply loop_dup.
    assert (H : forall names s, ~ In o names -> inv' s -> inv' (fold_left (fun s n => mark_as_computed graph n s) names s)). { induction names as [|n names IH]; intros s Nn I; [exact I|]. cbn [fold_left In] in *. apply IH; [tauto|]. destruct I as [A B]. split; [now apply later_mark|]. cbn [mark_as_computed computed]. destruct (Nat.eqb_spec o n); [exfalso; apply Nn; now left|exact B]. }
    apply H; [exact N|]. split.
    - cbn [initial inputs_available]. clear. induction graph as [|e l IH]; constructor; [|exact IH]. split; [reflexivity|]. cbn [snd]. intros i j x _ Hj _. assert (j < length (input_list (snd e))) by (apply nth_error_Some; congruence). clear Hj. revert j H. induction (length (input_list (snd e))) as [|m IHm]; intros j Hj; [lia|]. destruct j as [|j]; cbn [repeat nth_error]; [reflexivity|]. apply IHm. lia.
    - cbn [initial computed]. destruct (existsb _ graph); discriminate.
  Qed.
End Duplicates.
(** a module whose outputs do not include a value under its own name is computed again and again *)
Definition restless : list (nat * node) := [(1, mkNode [0] (Some [2; 3])); (4, mkNode [2] None)].
Lemma k_graph_forever {V} (run : nat -> list V -> V) (tuple : V -> option (list V)) (x : V) :
  (forall v, exists a b, tuple (run 1 v) = Some [a; b]) -> forall fuel, forward run tuple restless fuel [0] [4] [x] = Still_running.
Proof.
  intros T fuel. unfold forward. cbn [length Nat.eqb]. set (s0 := fold_left _ _ _).
  assert (Fnd : forall s : state (V := V), computed s 1 = Some false -> forall a, inputs_available s = [(1, [true]); (4, [a])] -> find_computable_node s = Some 1) by (intros s C a A; unfold find_computable_node; rewrite A; cbn [find forallb fst snd]; rewrite C; reflexivity).
  assert (H : forall n s, get 0 (values s) = Some x -> computed s 1 = Some false -> computed s 4 = Some false -> (exists a, inputs_available s = [(1, [true]); (4, [a])]) -> loop run tuple restless n [4] (find_computable_node s) s = Still_running).
  { induction n as [|n IH]; intros s G C1 C4 (a & A).
    - rewrite (Fnd s C1 a A). reflexivity.
    - rewrite (Fnd s C1 a A). cbn [loop]. unfold compute. change (get 1 restless) with (Some (mkNode [0] (Some [2; 3]))). cbv iota. cbn [input_list output_list gets]. rewrite G. destruct (T [x]) as (p & q & E). rewrite E. cbn [length Nat.eqb combine fold_left].
      set (s' := store _ _ _ _). cbn [fst snd] in s'. assert (C4' : computed s' 4 = Some false) by (unfold s', store, mark_as_computed; cbn [computed Nat.eqb]; exact C4). cbn [all_computed]. rewrite C4'.
      assert (C1' : computed s' 1 = Some false) by (unfold s', store, mark_as_computed; cbn [computed Nat.eqb]; exact C1).
      change (find_computable_node s') with (find_computable_node (clear_unused_values restless s')). apply IH; [|exact C1'|exact C4'|].
      + unfold clear_unused_values. cbn [values]. rewrite (get_filter (needed restless s')). replace (needed restless s' 0) with true; [|unfold needed; cbn [restless existsb fst snd input_list]; rewrite C1'; reflexivity]. unfold s', store, mark_as_computed. cbn [values fst snd]. rewrite !get_put. cbn [Nat.eqb]. exact G.
      + unfold clear_unused_values. cbn [inputs_available]. exists true. unfold s', store, mark_as_computed. cbn [inputs_available fst snd]. rewrite A. reflexivity. }
  apply H; try reflexivity. exists false. reflexivity.
Qed.

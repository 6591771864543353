(** C86: importing an ONNX model. *)
Require Import List Arith Bool Lia.
From Verif Require Import Gradfn Graphmod Graphmod_claims Onnx.
Import ListNotations.

(** *** ONNX's meaning of a model: the nodes are evaluated in order, each in the environment of the inputs, the initializers and the earlier outputs *)
Section Spec.
  Context {V Op : Type}.
  Fixpoint value_of (name : nat) (env : list (nat * V)) : option V := match env with [] => None | (n, v) :: env => if Nat.eqb n name then Some v else value_of name env end.
  Fixpoint values_of (names : list nat) (env : list (nat * V)) : option (list V) := match names with [] => Some [] | n :: ns => match value_of n env, values_of ns env with Some v, Some vs => Some (v :: vs) | _, _ => None end end.
  (** the values of all outputs of an operator *)
  Variable sem : Op -> list V -> list V.
  Fixpoint evaluate (ns : list (onnx_node (Op := Op))) (env : list (nat * V)) : option (list (nat * V)) :=
    match ns with
    | [] => Some env
    | n :: ns => match values_of (node_input n) env with Some vs => evaluate ns (combine (node_output n) (sem (op n) vs) ++ env) | None => None end
    end.
  Definition onnx_value (m : onnx_model (V := V) (Op := Op)) (args : list V) (name : nat) : option V :=
    match evaluate (nodes m) (initializer m ++ combine (graph_input m) args) with Some env => value_of name env | None => None end.
  (** every name is given once *)
  Definition named_once (m : onnx_model (V := V) (Op := Op)) : Prop := NoDup (graph_input m ++ map fst (initializer m) ++ flat_map node_output (nodes m)).
  (** the modules compute the outputs that are kept *)
  Definition faithful (is_dropout supported : Op -> bool) (call : Op -> list V -> V) (tuple : V -> option (list V)) (n : onnx_node (Op := Op)) : Prop :=
    supported (op n) = true /\ node_output n <> [] /\
    forall vs, length (sem (op n) vs) = length (node_output n) /\
      match output_names is_dropout n with [_] => nth_error (sem (op n) vs) 0 = Some (call (op n) vs) | _ => tuple (call (op n) vs) = Some (sem (op n) vs) end.
  (** the names a node drops: the mask of Dropout *)
  Definition dropped (is_dropout : Op -> bool) (n : onnx_node (Op := Op)) : list nat := if is_dropout (op n) then tl (node_output n) else [].
End Spec.

Lemma NoDup_app_iff {A} (l m : list A) : NoDup (l ++ m) <-> NoDup l /\ NoDup m /\ forall x, In x l -> In x m -> False.
Proof.
  induction l as [|a l IH]; cbn [app]; [split; [intros N; repeat split; [constructor|exact N|contradiction]|tauto]|]. split.
  - intros N. inversion N as [|? ? N1 N2]; subst. apply IH in N2 as (A1 & A2 & A3). split; [constructor; [intros I; apply N1; apply in_or_app; auto|exact A1]|]. split; [exact A2|]. intros x [->|I] J; [apply N1; apply in_or_app; auto|eauto].
  - intros (N & M & D). inversion N as [|? ? N1 N2]; subst. constructor; [intros I; apply in_app_or in I as [I|I]; [auto|apply (D a); [now left|exact I]]|]. apply IH. repeat split; auto. intros x I J. apply (D x); [now right|exact J].
Qed.
Lemma value_app {A} k (l m : list (nat * A)) : value_of k (l ++ m) = match value_of k l with Some a => Some a | None => value_of k m end.
Proof. induction l as [|[i a] l IH]; [reflexivity|]. cbn [app value_of]. destruct (Nat.eqb i k); auto. Qed.
Lemma value_in {A} k (l : list (nat * A)) a : value_of k l = Some a -> In (k, a) l.
Proof. induction l as [|[i b] l IH]; cbn [value_of]; [discriminate|]. destruct (Nat.eqb_spec i k) as [->|]; [intros [= ->]; now left|right; auto]. Qed.
Lemma value_combine {A} k (names : list nat) : forall (vs : list A) v, value_of k (combine names vs) = Some v -> exists i, nth_error names i = Some k /\ nth_error vs i = Some v.
Proof.
  induction names as [|n names IH]; intros [|w vs] v; try discriminate. cbn [combine value_of]. destruct (Nat.eqb_spec n k) as [->|N]; [intros [= ->]; exists 0; auto|]. intros H. destruct (IH vs v H) as (i & A1 & A2). exists (S i). auto.
Qed.

Fixpoint index (k : nat) (l : list nat) : nat := match l with [] => 0 | x :: l => if Nat.eqb x k then 0 else S (index k l) end.
Lemma index_app_l k l m : In k l -> index k (l ++ m) = index k l.
Proof. induction l as [|x l IH]; [contradiction|]. cbn [app index]. intros [->|I]; [now rewrite Nat.eqb_refl|]. destruct (Nat.eqb x k); [reflexivity|]. now rewrite IH. Qed.
Lemma index_app_r k l m : ~ In k l -> index k (l ++ m) = length l + index k m.
Proof. induction l as [|x l IH]; [reflexivity|]. cbn [app index length]. intros N. destruct (Nat.eqb_spec x k) as [->|]; [exfalso; apply N; now left|]. rewrite IH by (intros I; apply N; now right). reflexivity. Qed.
Lemma index_lt k l : In k l -> index k l < length l.
Proof. induction l as [|x l IH]; [contradiction|]. cbn [index length]. destruct (Nat.eqb_spec x k) as [->|]; [lia|]. intros [->|I]; [contradiction|]. specialize (IH I). lia. Qed.

Section Import.
  Context {V Op : Type}.
  Variables (sem : Op -> list V -> list V) (is_dropout supported : Op -> bool) (call : Op -> list V -> V) (tuple : V -> option (list V)) (default : V).
  Variables (m : onnx_model (V := V) (Op := Op)) (args : list V) (o : nat) (v : V).
  Hypothesis Hin : graph_input m <> [].
  Hypothesis Hargs : length args = length (graph_input m).
  Hypothesis Hout : graph_output m = [o].
  Hypothesis Hnames : named_once m.
  Hypothesis Hfaith : forall n, In n (nodes m) -> faithful sem is_dropout supported call tuple n.
  Hypothesis Hdup : forall n, In n (nodes m) -> NoDup (node_input n).
  Hypothesis Hmask : forall n n' x, In n (nodes m) -> In n' (nodes m) -> In x (node_input n') -> ~ In x (dropped is_dropout n).
  Hypothesis Hfirst : In o (map fst (initializer m)) \/ exists n, In n (nodes m) /\ nth_error (node_output n) 0 = Some o.
  Hypothesis Hval : onnx_value sem m args o = Some v.

  Notation entry := (nat * node * (list V -> V))%type.
  Definition init_entry (p : nat * V) : entry := (fst p, mkNode [] None, fun _ => snd p).
  Definition node_entry (n : onnx_node (Op := Op)) : entry := (hd 0 (node_output n), mkNode (node_input n) (Some (output_names is_dropout n)), call (op n)).
  Definition G : list entry := map init_entry (initializer m) ++ map node_entry (nodes m).
  Lemma outputs_head n : In n (nodes m) -> exists a l, node_output n = a :: l /\ output_names is_dropout n = (if is_dropout (op n) then [a] else a :: l).
  Proof. intros I. destruct (Hfaith n I) as (_ & N & _). destruct (node_output n) as [|a l] eqn:E; [congruence|]. exists a, l. split; [reflexivity|]. unfold output_names. rewrite E. reflexivity. Qed.
  Lemma kept n x : In x (output_names is_dropout n) -> In x (node_output n).
  Proof. unfold output_names. destruct (is_dropout (op n)); [|auto]. destruct (node_output n); [contradiction|]. intros [->|[]]. now left. Qed.
  Lemma kept_or_dropped n x : In x (node_output n) -> In x (output_names is_dropout n) \/ In x (dropped is_dropout n).
  Proof. unfold output_names, dropped. destruct (is_dropout (op n)); [|auto]. destruct (node_output n); [contradiction|]. intros [->|I]; [left; now left|right; exact I]. Qed.
  Lemma flat_kept ns x : In x (flat_map (output_names is_dropout) ns) -> In x (flat_map (node_output (Op := Op)) ns).
  Proof. intros I. apply in_flat_map in I as (n & A & B). apply in_flat_map. exists n. split; [exact A|now apply kept]. Qed.
  Lemma NoDup_kept ns : NoDup (flat_map (node_output (Op := Op)) ns) -> NoDup (flat_map (output_names is_dropout) ns).
  Proof.
    induction ns as [|n ns IH]; [auto|]. cbn [flat_map]. intros N. apply NoDup_app_iff in N as (A & B & D). apply NoDup_app_iff. split; [|split; [auto|]].
    - unfold output_names. destruct (is_dropout (op n)); [|exact A]. destruct (node_output n); [constructor|]. repeat constructor. auto.
    - intros x I J. apply (D x); [now apply kept|now apply flat_kept].
  Qed.
  (** the graph that is built *)
  Lemma head_in n : In n (nodes m) -> In (hd 0 (node_output n)) (node_output n).
  Proof. intros I. destruct (outputs_head n I) as (a & l & E & _). rewrite E. now left. Qed.
  Lemma add_fresh (g : list entry) name nd md : ~ In name (map (fun e : entry => fst (fst e)) g) -> add_module name nd md g = Some (g ++ [(name, nd, md)]).
  Proof.
    intros N. unfold add_module. destruct (existsb _ g) eqn:E; [|reflexivity]. exfalso. apply existsb_exists in E as (e & I & Q). apply Nat.eqb_eq in Q. apply N. apply in_map_iff. eauto.
  Qed.
  Lemma names_parts : NoDup (map fst (initializer m)) /\ NoDup (flat_map (node_output (Op := Op)) (nodes m)) /\ (forall x, In x (map fst (initializer m)) -> In x (flat_map node_output (nodes m)) -> False) /\ (forall x, In x (graph_input m) -> In x (map fst (initializer m) ++ flat_map node_output (nodes m)) -> False) /\ NoDup (graph_input m).
  Proof. unfold named_once in Hnames. apply NoDup_app_iff in Hnames as (A & B & C). apply NoDup_app_iff in B as (B1 & B2 & B3). repeat split; auto. Qed.
  Lemma built : to_crypten is_dropout supported call m = Some G.
  Proof.
    unfold to_crypten. destruct (graph_input m) as [|i0 is] eqn:Ei; [contradiction|]. rewrite Hout. destruct names_parts as (N1 & N2 & N3 & _).
    assert (A : forall l (g : list entry), NoDup (map fst l) -> (forall x, In x (map fst l) -> ~ In x (map (fun e : entry => fst (fst e)) g)) ->
      fold_left (fun g p => do g <- g; add_module (fst p) (mkNode [] None) (fun _ => snd p) g) l (Some g) = Some (g ++ map init_entry l)).
    { induction l as [|p l IH]; intros g N D; cbn [fold_left map]; [now rewrite app_nil_r|]. cbn [bind]. rewrite add_fresh by (apply D; now left). cbn [map] in N. inversion N as [|? ? M1 M2]; subst. rewrite IH.
      - rewrite <- app_assoc. reflexivity.
      - exact M2.
      - intros x I J. rewrite map_app in J. apply in_app_or in J as [J|J]; [now apply (D x); [right|]|]. cbn in J. destruct J as [<-|[]]. contradiction. }
    rewrite A by (try exact N1; intros x _ []). cbn [app bind].
    assert (B : forall l (g : list entry), (forall n, In n l -> In n (nodes m)) -> NoDup (flat_map (node_output (Op := Op)) l) -> (forall x, In x (flat_map node_output l) -> ~ In x (map (fun e : entry => fst (fst e)) g)) ->
      fold_left (fun g n => do g <- g; add_node is_dropout supported call n g) l (Some g) = Some (g ++ map node_entry l)).
    { induction l as [|n l IH]; intros g S N D; cbn [fold_left map]; [now rewrite app_nil_r|]. cbn [bind]. assert (In_n : In n (nodes m)) by (apply S; now left). destruct (Hfaith n In_n) as (Sp & _). destruct (outputs_head n In_n) as (a & r & E & E'). unfold add_node. rewrite Sp. cbn [flat_map] in N, D. apply NoDup_app_iff in N as (M1 & M2 & M3).
      assert (O : exists t, output_names is_dropout n = a :: t) by (rewrite E'; destruct (is_dropout (op n)); eauto). destruct O as (t & O). rewrite O. rewrite add_fresh by (apply D; apply in_or_app; left; rewrite E; now left). rewrite IH.
      - rewrite <- app_assoc. cbn [app]. unfold node_entry at 2. rewrite E, O. reflexivity.
      - intros n' I. apply S. now right.
      - exact M2.
      - intros x I J. rewrite map_app in J. apply in_app_or in J as [J|J]; [apply (D x); [apply in_or_app; now right|exact J]|]. cbn in J. destruct J as [<-|[]]. apply (M3 a); [rewrite E; now left|exact I]. }
    rewrite B; [reflexivity|auto|exact N2|]. intros x I J. rewrite map_map in J. apply (N3 x); [|exact I]. apply in_map_iff in J as (p & <- & J). apply in_map_iff. exists p. auto.
  Qed.

  Notation graph := (map fst G).
  Notation run := (modules_run default G).
  Notation den := (denotes run tuple graph (graph_input m) args).
  Lemma keys_G : map (fun e : entry => fst (fst e)) G = map fst (initializer m) ++ map (fun n => hd 0 (node_output n)) (nodes m).
  Proof. unfold G. rewrite map_app, !map_map. reflexivity. Qed.
  Lemma NoDup_heads ns : (forall n, In n ns -> In n (nodes m)) -> NoDup (flat_map (node_output (Op := Op)) ns) -> NoDup (map (fun n => hd 0 (node_output n)) ns).
  Proof.
    induction ns as [|n ns IH]; intros S N; cbn [map]; [constructor|]. cbn [flat_map] in N. apply NoDup_app_iff in N as (A & B & D). constructor; [|apply IH; [intros n' I; apply S; now right|exact B]].
    intros I. apply in_map_iff in I as (n' & E & I). apply (D (hd 0 (node_output n))); [apply head_in; apply S; now left|]. apply in_flat_map. exists n'. split; [exact I|]. rewrite <- E. apply head_in. apply S. now right.
  Qed.
  Lemma keys_once : NoDup (map (fun e : entry => fst (fst e)) G).
  Proof.
    rewrite keys_G. destruct names_parts as (N1 & N2 & N3 & _). apply NoDup_app_iff. split; [exact N1|]. split; [apply NoDup_heads; auto|]. intros x I J. apply (N3 x I). apply in_map_iff in J as (n & <- & J). apply in_flat_map. exists n. split; [exact J|now apply head_in].
  Qed.
  Lemma run_entry e vs : In e G -> run (fst (fst e)) vs = snd e vs.
  Proof.
    intros I. unfold modules_run. pose proof keys_once as K. revert I K. generalize G. intros g. induction g as [|a g IH]; [contradiction|]. cbn [find map]. intros [->|I] K; [now rewrite Nat.eqb_refl|]. inversion K as [|? ? K1 K2]; subst. destruct (Nat.eqb_spec (fst (fst a)) (fst (fst e))) as [Q|Q]; [|now apply IH]. exfalso. apply K1. rewrite Q. apply in_map_iff. eauto.
  Qed.
  Lemma produced_all : flat_map produced graph = map fst (initializer m) ++ flat_map (output_names is_dropout) (nodes m).
  Proof.
    assert (A : forall l, flat_map produced (map fst (map init_entry l)) = map fst l) by (induction l as [|p l IH]; [reflexivity|cbn [map flat_map]; rewrite IH; reflexivity]).
    assert (B : forall l, flat_map produced (map fst (map node_entry l)) = flat_map (output_names is_dropout) l) by (induction l as [|n l IH]; [reflexivity|cbn [map flat_map]; rewrite IH; reflexivity]).
    unfold G. rewrite map_app, flat_map_app, A, B. reflexivity.
  Qed.
  Lemma den_init p : In p (initializer m) -> den (fst p) (snd p).
  Proof.
    intros I. assert (Ie : In (init_entry p) G) by (unfold G; apply in_or_app; left; now apply in_map). rewrite <- (run_entry (init_entry p) [] Ie : run (fst p) [] = snd p). apply (DOne run tuple graph (graph_input m) args (fst (init_entry p)) []); [now apply in_map|reflexivity|constructor].
  Qed.
  Lemma den_node n vs j x w : In n (nodes m) -> Forall2 den (node_input n) vs -> nth_error (output_names is_dropout n) j = Some x -> nth_error (sem (op n) vs) j = Some w -> den x w.
  Proof.
    intros I F Ex Ew. assert (Ie : In (node_entry n) G) by (unfold G; apply in_or_app; right; now apply in_map). destruct (Hfaith n I) as (_ & _ & H). specialize (H vs) as [L H]. destruct (outputs_head n I) as (a & l & E & E').
    assert (Hd : fst (fst (node_entry n)) = a) by (unfold node_entry; cbn [fst]; now rewrite E). assert (Pr : produced (fst (node_entry n)) = output_names is_dropout n) by reflexivity.
    destruct (output_names is_dropout n) as [|a' [|b t]] eqn:O.
    - now rewrite nth_error_nil in Ex || (destruct j; discriminate).
    - assert (a' = a) by (destruct (is_dropout (op n)); congruence). subst a'. destruct j as [|j]; [|destruct j; discriminate]. injection Ex as <-. rewrite H in Ew. injection Ew as <-. pose proof (run_entry (node_entry n) vs Ie) as R. rewrite Hd in R. cbn [node_entry snd] in R. rewrite <- R. pose proof (DOne run tuple graph (graph_input m) args (fst (node_entry n)) vs) as D. rewrite Hd in D. apply D; [now apply in_map|exact Pr|exact F].
    - apply (DMany run tuple graph (graph_input m) args (fst (node_entry n)) vs (sem (op n) vs) j); [now apply in_map|rewrite Pr; cbn; lia|exact F| |rewrite Pr; exact Ex|exact Ew]. rewrite run_entry by exact Ie. exact H.
  Qed.
  (** every value of the environment that is not a dropped mask is the value of its name in the graph *)
  Definition is_dropped (x : nat) : Prop := exists n, In n (nodes m) /\ In x (dropped is_dropout n).
  Lemma gets_den names env vs : (forall x w, In x names -> value_of x env = Some w -> den x w) -> values_of names env = Some vs -> Forall2 den names vs.
  Proof.
    revert vs. induction names as [|x names IH]; intros vs H E; cbn [values_of] in E; [injection E as <-; constructor|]. destruct (value_of x env) as [w|] eqn:Gx; [|discriminate]. destruct (values_of names env) as [ws|]; [|discriminate]. injection E as <-. constructor; [apply H; [now left|exact Gx]|]. apply IH; [|reflexivity]. intros y u I. apply H. now right.
  Qed.
  Lemma evaluate_den ns : forall env env', (forall n, In n ns -> In n (nodes m)) -> (forall x w, value_of x env = Some w -> is_dropped x \/ den x w) -> evaluate sem ns env = Some env' -> forall x w, value_of x env' = Some w -> is_dropped x \/ den x w.
  Proof.
    induction ns as [|n ns IH]; intros env env' S H E; cbn [evaluate] in E; [injection E as <-; exact H|]. destruct (values_of (node_input n) env) as [vs|] eqn:Gv; [|discriminate]. assert (In_n : In n (nodes m)) by (apply S; now left).
    refine (IH _ _ _ _ E); [intros n' I; apply S; now right|]. intros x w. rewrite value_app. destruct (value_of x (combine _ _)) as [u|] eqn:Gc; [|now apply H]. intros [= ->]. apply value_combine in Gc as (i & A & B).
    destruct (kept_or_dropped n x (nth_error_In _ _ A)) as [K|K]; [right|left; exists n; auto]. apply (den_node n vs i x w In_n); [|  |exact B].
    - apply (gets_den _ env); [|exact Gv]. intros y u Iy Gy. destruct (H y u Gy) as [(n' & In' & Q)|D]; [|exact D]. exfalso. exact (Hmask n' n y In' In_n Iy Q).
    - unfold output_names in *. destruct (is_dropout (op n)); [|exact A]. destruct names_parts as (_ & N2 & _). destruct (node_output n) as [|a l] eqn:En; [contradiction|]. cbn [firstn] in K. destruct K as [<-|[]]. destruct i as [|i]; [reflexivity|]. exfalso. cbn [nth_error] in A. apply nth_error_In in A. apply in_split in In_n as (l1 & l2 & Sp). rewrite Sp, flat_map_app in N2. apply NoDup_app_iff in N2 as (_ & N2 & _). cbn [flat_map] in N2. rewrite En in N2. cbn [app] in N2. inversion N2 as [|? ? M _]; subst. apply M. apply in_or_app. now left.
  Qed.
  (** the inputs of a node come from the arguments, the initializers or earlier nodes *)
  Lemma gets_in names (env : list (nat * V)) vs x : values_of names env = Some vs -> In x names -> exists w, value_of x env = Some w.
  Proof. revert vs. induction names as [|y names IH]; intros vs E I; [contradiction|]. cbn [values_of] in E. destruct (value_of y env) as [w|] eqn:Gy; [|discriminate]. destruct (values_of names env) as [ws|]; [|discriminate]. destruct I as [->|I]; [eauto|]. eapply IH; eauto. Qed.
  Lemma evaluate_inputs pre n post : forall env env', evaluate sem (pre ++ n :: post) env = Some env' -> forall x, In x (node_input n) -> (exists w, value_of x env = Some w) \/ exists n', In n' pre /\ In x (node_output n').
  Proof.
    induction pre as [|a pre IH]; intros env env' E x I; cbn [app evaluate] in E.
    - destruct (values_of (node_input n) env) as [vs|] eqn:Gv; [|discriminate]. left. eapply gets_in; eauto.
    - destruct (values_of (node_input a) env) as [vs|] eqn:Gv; [|discriminate]. destruct (IH _ _ E x I) as [(w & Gw)|(n' & A & B)]; [|right; exists n'; split; [now right|exact B]]. rewrite value_app in Gw. destruct (value_of x (combine _ _)) as [u|] eqn:Gc; [|left; eauto]. right. exists a. split; [now left|]. apply value_combine in Gc as (i & Q & _). eapply nth_error_In. exact Q.
  Qed.
  Lemma env_start x w : value_of x (initializer m ++ combine (graph_input m) args) = Some w -> den x w.
  Proof.
    rewrite value_app. destruct (value_of x (initializer m)) as [u|] eqn:E.
    - intros [= <-]. apply value_in in E. exact (den_init (x, u) E).
    - intros C. apply value_combine in C as (i & A & B). exact (DArg run tuple graph (graph_input m) args i x w A B).
  Qed.
  Definition rank_of (k : nat) : nat := index k (map (fun e : entry => fst (fst e)) G).
  Lemma evaluated : exists env, evaluate sem (nodes m) (initializer m ++ combine (graph_input m) args) = Some env /\ value_of o env = Some v.
  Proof. unfold onnx_value in Hval. destruct (evaluate _ _ _) as [env|]; [eauto|discriminate]. Qed.
  Lemma well : well_formed run tuple graph (graph_input m) args rank_of.
  Proof.
    destruct names_parts as (N1 & N2 & N3 & N4 & N5). split.
    - exact Hargs.
    - rewrite produced_all. apply NoDup_app_iff. split; [exact N5|]. split; [apply NoDup_app_iff; split; [exact N1|split; [now apply NoDup_kept|]]|].
      + intros x I J. apply (N3 x I). now apply flat_kept.
      + intros x I J. apply (N4 x I). apply in_app_or in J as [J|J]; apply in_or_app; [left; exact J|right; now apply flat_kept].
    - intros e I. apply in_map_iff in I as (e0 & <- & I). unfold G in I. apply in_app_or in I as [I|I]; apply in_map_iff in I as (y & <- & I).
      + now left.
      + destruct (outputs_head y I) as (a & l & E & E'). cbn [produced node_entry fst snd output_list]. rewrite E, E'. destruct (is_dropout (op y)); now left.
    - intros e I. apply in_map_iff in I as (e0 & <- & I). unfold G in I. apply in_app_or in I as [I|I]; apply in_map_iff in I as (y & <- & I); [constructor|]. now apply Hdup.
    - intros e vs I L. apply in_map_iff in I as (e0 & <- & I). rewrite run_entry by exact I. unfold G in I. apply in_app_or in I as [I|I]; apply in_map_iff in I as (y & <- & I); [exfalso; now apply L|]. destruct (Hfaith y I) as (_ & _ & H). specialize (H vs) as [Ls H]. cbn [produced node_entry fst snd output_list] in L |- *. exists (sem (op y) vs). destruct (output_names is_dropout y) as [|a [|b t]] eqn:O; [|exfalso; now apply L|].
      + destruct (outputs_head y I) as (a & l & E & E'). rewrite E' in O. destruct (is_dropout (op y)); discriminate.
      + split; [exact H|]. rewrite Ls. unfold output_names in O. destruct (is_dropout (op y)); [destruct (node_output y); discriminate|]. now rewrite O.
    - intros e x I Ix. apply in_map_iff in I as (e0 & <- & I). unfold G in I. apply in_app_or in I as [I|I]; apply in_map_iff in I as (y & <- & I); [contradiction|]. cbn [node_entry fst snd input_list] in Ix |- *. destruct evaluated as (env & Ev & _). pose proof I as Iy. apply in_split in I as (l1 & l2 & Sp). pose proof Ev as Ev'. rewrite Sp in Ev'.
      assert (Rk : rank_of (hd 0 (node_output y)) = length (initializer m) + length l1).
      { unfold rank_of. rewrite keys_G. pose proof keys_once as K. rewrite keys_G in K. apply NoDup_app_iff in K as (_ & K & D). rewrite index_app_r.
        - rewrite map_length. f_equal. rewrite Sp in K |- *. rewrite map_app in K |- *. apply NoDup_app_iff in K as (_ & _ & K). rewrite index_app_r; [rewrite map_length; cbn [map index]; rewrite Nat.eqb_refl; lia|]. intros J. exact (K _ J (or_introl eq_refl)).
        - intros J. apply (D _ J). apply in_map_iff. eauto. }
      rewrite Rk. destruct (evaluate_inputs l1 y l2 _ _ Ev' x Ix) as [(w & Gw)|(n' & A & B)].
      + rewrite value_app in Gw. destruct (value_of x (initializer m)) as [u|] eqn:E.
        * right. apply value_in in E. exists (fst (init_entry (x, u))). split; [apply in_map; unfold G; apply in_or_app; left; apply in_map; exact E|]. split; [now left|]. cbn [init_entry fst]. unfold rank_of. rewrite keys_G. assert (J : In x (map fst (initializer m))) by (apply in_map_iff; exists (x, u); auto). rewrite index_app_l by exact J. pose proof (index_lt _ _ J) as Q. rewrite map_length in Q. lia.
        * left. apply value_combine in Gw as (i & A & _). eapply nth_error_In. exact A.
      + right. assert (In' : In n' (nodes m)) by (rewrite Sp; apply in_or_app; now left). exists (fst (node_entry n')). split; [apply in_map; unfold G; apply in_or_app; right; now apply in_map|]. split.
        * cbn [produced node_entry fst snd output_list]. destruct (kept_or_dropped n' x B) as [K|K]; [exact K|]. exfalso. exact (Hmask n' y x In' Iy Ix K).
        * cbn [node_entry fst]. unfold rank_of. rewrite keys_G. pose proof keys_once as K. rewrite keys_G in K. apply NoDup_app_iff in K as (_ & _ & D). rewrite index_app_r by (intros J; apply (D _ J); apply in_map_iff; eauto). rewrite map_length. rewrite Sp, map_app, index_app_l by (apply in_map_iff; eauto). assert (J : In (hd 0 (node_output n')) (map (fun n => hd 0 (node_output n)) l1)) by (apply in_map_iff; eauto). apply index_lt in J. rewrite map_length in J. lia.
  Qed.
  Lemma output_key : In o (map fst graph).
  Proof.
    rewrite map_map. rewrite keys_G. apply in_or_app. destruct Hfirst as [I|(n & I & E)]; [now left|right]. apply in_map_iff. exists n. split; [|exact I]. destruct (node_output n); [discriminate|]. now injection E.
  Qed.
  Lemma not_dropped : ~ is_dropped o.
  Proof.
    intros (n & I & D). destruct names_parts as (_ & N2 & N3 & _). assert (Dn : In o (tl (node_output n))) by (unfold dropped in D; destruct (is_dropout (op n)); [exact D|contradiction]). assert (Do : In o (node_output n)) by (destruct (node_output n); [contradiction|now right]).
    destruct Hfirst as [J|(n' & I' & E)]; [apply (N3 o J); apply in_flat_map; eauto|].
    apply in_split in I as (l1 & l2 & Sp). rewrite Sp, flat_map_app in N2. cbn [flat_map] in N2. apply NoDup_app_iff in N2 as (_ & N2 & D1). apply NoDup_app_iff in N2 as (Nn & _ & D2). rewrite Sp in I'. apply in_app_or in I' as [I'|[<-|I']].
    - apply (D1 o); [apply in_flat_map; exists n'; split; [exact I'|eapply nth_error_In; exact E]|apply in_or_app; now left].
    - destruct (node_output n) as [|a l]; [discriminate|]. injection E as ->. inversion Nn; subst. contradiction.
    - apply (D2 o Do). apply in_flat_map. exists n'. split; [exact I'|eapply nth_error_In; exact E].
  Qed.
  Lemma import_ok : exists g, to_crypten is_dropout supported call m = Some g /\ forall fuel, length g <= fuel -> imported default tuple g m fuel args = Returns [v].
  Proof.
    exists G. split; [exact built|]. intros fuel Hf. destruct (k_graph run tuple graph (graph_input m) args rank_of well o output_key) as (v' & D & F). unfold imported. rewrite Hout. destruct evaluated as (env & Ev & Go). destruct (evaluate_den (nodes m) _ env (fun n I => I) (fun x w E => or_intror (env_start x w E)) Ev o v Go) as [X|X]; [exfalso; exact (not_dropped X)|].
    rewrite (k_det run tuple graph (graph_input m) args rank_of well o v v' X D). apply F. now rewrite map_length.
  Qed.
End Import.

(** *** Models that cannot be run *)
Lemma fold_none {A B} (f : B -> A -> option B) l : fold_left (fun g a => do g <- g; f g a) l None = None.
Proof. induction l as [|a l IH]; [reflexivity|exact IH]. Qed.
Section Built.
  Context {V Op : Type}.
  Variables (is_dropout supported : Op -> bool) (call : Op -> list V -> V) (m : onnx_model (V := V) (Op := Op)) (g : list (nat * node * (list V -> V))).
  Hypothesis Hg : to_crypten is_dropout supported call m = Some g.
  Notation entry := (nat * node * (list V -> V))%type.
  Lemma built_graph : g = map init_entry (initializer m) ++ map (node_entry is_dropout call) (nodes m) /\ forall n, In n (nodes m) -> node_output n <> [].
  Proof.
    revert Hg. unfold to_crypten. destruct (graph_input m) as [|i0 is]; [discriminate|]. destruct (graph_output m) as [|o [|]]; try discriminate.
    assert (A : forall l (g0 g1 : list entry), fold_left (fun g p => do g <- g; add_module (fst p) (mkNode [] None) (fun _ => snd p) g) l (Some g0) = Some g1 -> g1 = g0 ++ map init_entry l).
    { induction l as [|p l IH]; intros g0 g1; cbn [fold_left map]; [intros [= ->]; now rewrite app_nil_r|]. cbn [bind]. unfold add_module at 2. destruct (existsb _ g0); [intros E; exfalso; rewrite (fold_none (fun g (p : nat * V) => add_module (fst p) (mkNode [] None) (fun _ => snd p) g)) in E; discriminate|]. intros E. apply IH in E. rewrite E, <- app_assoc. reflexivity. }
    assert (B : forall l (g0 g1 : list entry), fold_left (fun g n => do g <- g; add_node is_dropout supported call n g) l (Some g0) = Some g1 -> g1 = g0 ++ map (node_entry is_dropout call) l /\ forall n, In n l -> node_output n <> []).
    { induction l as [|n l IH]; intros g0 g1; cbn [fold_left map]; [intros [= ->]; rewrite app_nil_r; split; [reflexivity|contradiction]|]. cbn [bind].
      assert (X : forall r, add_node is_dropout supported call n g0 = Some r -> r = g0 ++ [node_entry is_dropout call n] /\ node_output n <> []).
      { intros r. unfold add_node. destruct (supported (op n)); [|discriminate]. unfold node_entry, output_names. destruct (is_dropout (op n)); destruct (node_output n) as [|a t]; cbn [firstn]; try discriminate; unfold add_module; destruct (existsb _ g0); try discriminate; intros [= <-]; (split; [reflexivity|discriminate]). }
      destruct (add_node is_dropout supported call n g0) as [r|] eqn:E; [|intros F; exfalso; rewrite (fold_none (fun g n => add_node is_dropout supported call n g)) in F; discriminate]. intros F. destruct (X r eq_refl) as [-> N]. apply IH in F as [-> H]. rewrite <- app_assoc. split; [reflexivity|]. intros n' [<-|I]; [exact N|auto]. }
    destruct (fold_left _ (initializer m) _) as [g0|] eqn:E; [|discriminate]. apply A in E. cbn [app] in E. cbn [bind]. intros F. apply B in F as [-> H]. rewrite E. split; [reflexivity|exact H].
  Qed.
  Lemma built_keys : NoDup (map fst (map fst g)).
  Proof.
    revert Hg. unfold to_crypten. destruct (graph_input m) as [|i0 is]; [discriminate|]. destruct (graph_output m) as [|o [|]]; try discriminate.
    assert (Add : forall name nd md (g0 g1 : list entry), add_module name nd md g0 = Some g1 -> NoDup (map fst (map fst g0)) -> NoDup (map fst (map fst g1))).
    { intros name nd md g0 g1. unfold add_module. destruct (existsb _ g0) eqn:E; [discriminate|]. intros [= <-] N. rewrite !map_app. apply NoDup_app_iff. split; [exact N|]. split; [repeat constructor; auto|]. intros x I [<-|[]]. rewrite map_map in I. apply in_map_iff in I as (e & Q & I). assert (T : existsb (fun e : entry => Nat.eqb (fst (fst e)) name) g0 = true) by (apply existsb_exists; exists e; split; [exact I|now apply Nat.eqb_eq]). cbn [fst] in T. congruence. }
    assert (A : forall l (g0 g1 : list entry), fold_left (fun g p => do g <- g; add_module (fst p) (mkNode [] None) (fun _ => snd p) g) l (Some g0) = Some g1 -> NoDup (map fst (map fst g0)) -> NoDup (map fst (map fst g1))).
    { induction l as [|p l IH]; intros g0 g1; cbn [fold_left]; [now intros [= ->]|]. cbn [bind]. destruct (add_module (fst p) _ _ g0) as [r|] eqn:E; [|intros F; exfalso; rewrite (fold_none (fun g (p : nat * V) => add_module (fst p) (mkNode [] None) (fun _ => snd p) g)) in F; discriminate]. intros F N. apply (IH _ _ F). exact (Add _ _ _ _ _ E N). }
    assert (B : forall l (g0 g1 : list entry), fold_left (fun g n => do g <- g; add_node is_dropout supported call n g) l (Some g0) = Some g1 -> NoDup (map fst (map fst g0)) -> NoDup (map fst (map fst g1))).
    { induction l as [|n l IH]; intros g0 g1; cbn [fold_left]; [now intros [= ->]|]. cbn [bind]. destruct (add_node is_dropout supported call n g0) as [r|] eqn:E; [|intros F; exfalso; rewrite (fold_none (fun g n => add_node is_dropout supported call n g)) in F; discriminate]. intros F N. apply (IH _ _ F). unfold add_node in E. destruct (supported (op n)); [|discriminate]. destruct (output_names is_dropout n); [discriminate|]. exact (Add _ _ _ _ _ E N). }
    destruct (fold_left _ (initializer m) _) as [g0|] eqn:E; [|discriminate]. cbn [bind]. intros F. apply (B _ _ _ F). apply (A _ _ _ E). constructor.
  Qed.
  Lemma graph_entries e : In e (map fst g) -> (exists p, In p (initializer m) /\ e = (fst p, mkNode [] None)) \/ exists n, In n (nodes m) /\ e = (hd 0 (node_output n), mkNode (node_input n) (Some (output_names is_dropout n))).
  Proof. destruct built_graph as [-> _]. rewrite map_app, !map_map. intros I. apply in_app_or in I as [I|I]; apply in_map_iff in I as (y & <- & I); eauto. Qed.
End Built.

(** names that wait for one another, or for a name nobody gives, are never computed *)
Section Stuck.
  Context {V : Type}.
  Variables (run : nat -> list V -> V) (tuple : V -> option (list V)) (graph : list (nat * node)) (stuck : nat -> Prop).
  Hypothesis Stuck : forall e, In e graph -> stuck (fst e) \/ (exists x, In x (produced e) /\ stuck x) -> exists x, In x (input_list (snd e)) /\ stuck x.
  Definition waiting (e : nat * node) (a : nat * list bool) : Prop := fst a = fst e /\ forall j x, nth_error (input_list (snd e)) j = Some x -> stuck x -> nth_error (snd a) j = Some false.
  Definition inv_s (s : state (V := V)) : Prop := Forall2 waiting graph (inputs_available s) /\ forall x, stuck x -> computed s x <> Some true.
  Lemma waiting_mark name s : ~ stuck name -> Forall2 waiting graph (inputs_available s) -> Forall2 waiting graph (inputs_available (mark_as_computed (V := V) graph name s)).
  Proof.
    intros Ns. cbn [mark_as_computed inputs_available]. generalize (inputs_available s). clear Stuck. induction graph as [|e l IH]; intros m F; inversion F as [|? a ? m' [F1 F2] F3]; subst; cbn [combine map]; [constructor|]. constructor; [|now apply IH]. split; [reflexivity|]. cbn [fst snd]. intros j x Hj Sx.
    pose proof (position_spec name (input_list (snd e))) as P. destruct (position name (input_list (snd e))) as [p|] eqn:E; [|now apply (F2 j x)]. rewrite set_true_other; [now apply (F2 j x)|]. intros ->. assert (x = name) by congruence. subst x. contradiction.
  Qed.
  Lemma inv_mark name s : ~ stuck name -> inv_s s -> inv_s (mark_as_computed graph name s).
  Proof. intros N [A B]. split; [now apply waiting_mark|]. intros x Sx. cbn [mark_as_computed computed]. destruct (Nat.eqb_spec x name) as [->|]; [contradiction|now apply B]. Qed.
  Lemma inv_store x v s : ~ stuck x -> inv_s s -> inv_s (store graph x v s).
  Proof. intros N I. unfold store. apply inv_mark; [exact N|exact I]. Qed.
  Lemma stuck_not_found s k : inv_s s -> find_computable_node s = Some k -> exists e, In e graph /\ fst e = k /\ ~ stuck k /\ ~ exists x, In x (input_list (snd e)) /\ stuck x.
  Proof.
    intros [F _] E. unfold find_computable_node in E. destruct (find _ _) as [[k' bs]|] eqn:Q; [|discriminate]. cbn [option_map fst] in E. injection E as ->. apply find_some in Q as [I T]. cbn [fst snd] in T. apply andb_true_iff in T as [T _]. rewrite forallb_forall in T.
    assert (X : exists e, In e graph /\ waiting e (k, bs)). { revert F I. clear Stuck. generalize (inputs_available s). induction graph as [|e l IH]; intros a F I; inversion F as [|? b ? m' W F3]; subst; [contradiction|]. destruct I as [->|I]; [exists e; split; [now left|exact W]|]. destruct (IH _ F3 I) as (e' & A & B). exists e'. split; [now right|exact B]. }
    destruct X as (e & Ie & W1 & W2). cbn [fst snd] in *. assert (Ns : ~ exists x, In x (input_list (snd e)) /\ stuck x) by (intros (x & Ix & Sx); apply In_nth_error in Ix as (j & Hj); specialize (W2 j x Hj Sx); apply nth_error_In in W2; specialize (T false W2); discriminate).
    exists e. split; [exact Ie|]. split; [auto|]. split; [|exact Ns]. intros Sk. apply Ns. apply (Stuck e Ie). left. now rewrite <- W1.
  Qed.
  Hypothesis Keys : NoDup (map fst graph).
  Lemma inv_compute k s s' : inv_s s -> find_computable_node s = Some k -> compute run tuple graph k s = inr s' -> inv_s s'.
  Proof.
    intros I Fk. destruct (stuck_not_found s k I Fk) as (e & Ie & Ek & Nk & Ni). unfold compute. destruct (get k graph) as [n|] eqn:G; [|discriminate]. apply get_in in G.
    assert (e = (k, n)). { destruct e as [k0 n0]. cbn in Ek. subst k0. pose proof (get_nodup k graph n0 Keys Ie) as Q1. pose proof (get_nodup k graph n Keys G) as Q2. congruence. } subst e. cbn [snd] in Ni.
    assert (P : forall x, In x (produced (k, n)) -> ~ stuck x) by (intros x Ix Sx; apply Ni; apply (Stuck (k, n) G); right; eauto). unfold produced in P. cbn [snd fst] in P. destruct (gets (input_list n) (values s)) as [vs|]; [|discriminate].
    assert (Many : forall names outs, (forall x, In x names -> ~ stuck x) -> inv_s (fold_left (fun s p => store graph (fst p) (snd p) s) (combine names outs) s)). { intros names outs H. revert s I Fk. revert outs. induction names as [|a names IH]; intros [|u outs] s I Fk; cbn [combine fold_left]; try exact I. cbn [fst snd]. clear Fk. assert (H0 : forall l s0, (forall p, In p l -> ~ stuck (fst p)) -> inv_s s0 -> inv_s (fold_left (fun s p => store graph (fst p) (snd p) s) l s0)) by (induction l as [|p l IHl]; intros s0 Hl I0; [exact I0|]; cbn [fold_left]; apply IHl; [intros q Iq; apply Hl; now right|]; apply inv_store; [apply Hl; now left|exact I0]). apply H0; [intros [p q] Ip; apply in_combine_l in Ip; apply H; now right|]. apply inv_store; [apply H; now left|exact I]. }
    destruct (output_list n) as [[|a [|b l]]|].
    - destruct (tuple _); [|discriminate]. destruct (Nat.eqb _ _); [|discriminate]. intros [= <-]. exact I.
    - destruct (Nat.eqb a k); [|discriminate]. intros [= <-]. now apply inv_store.
    - destruct (tuple _); [|discriminate]. destruct (Nat.eqb _ _); [|discriminate]. intros [= <-]. now apply (Many (a :: b :: l)).
    - intros [= <-]. now apply inv_store.
  Qed.
  Lemma loop_stuck o fuel : stuck o -> forall s vs, inv_s s -> loop run tuple graph fuel [o] (find_computable_node s) s <> Returns vs.
  Proof.
    intros So. induction fuel as [|fuel IH]; intros s vs I; cbn [loop]; destruct (find_computable_node s) as [k|] eqn:E; try discriminate. destruct (compute run tuple graph k s) as [|s'] eqn:C; [discriminate|]. pose proof (inv_compute k s s' I E C) as I'.
    cbn [all_computed]. destruct (computed s' o) as [[|]|] eqn:Q; [exfalso; exact (proj2 I' o So Q)|change (find_computable_node s') with (find_computable_node (clear_unused_values graph s')); now apply IH|discriminate].
  Qed.
  Lemma stuck_forward o input_names args fuel vs : stuck o -> (forall x, In x input_names -> ~ stuck x) -> forward run tuple graph fuel input_names [o] args <> Returns vs.
  Proof.
    intros So N. unfold forward. destruct (Nat.eqb _ _); [|discriminate]. apply (loop_stuck o fuel So).
    assert (H : forall names s, (forall x, In x names -> ~ stuck x) -> inv_s s -> inv_s (fold_left (fun s n => mark_as_computed graph n s) names s)) by (induction names as [|n names IH]; intros s Nn I; [exact I|]; cbn [fold_left]; apply IH; [intros x Ix; apply Nn; now right|apply inv_mark; [apply Nn; now left|exact I]]).
    apply H; [exact N|]. split.
    - cbn [initial inputs_available]. clear. induction graph as [|e l IH]; constructor; [|exact IH]. split; [reflexivity|]. cbn [snd]. intros j x Hj _. assert (L : j < length (input_list (snd e))) by (apply nth_error_Some; congruence). clear Hj. revert j L. induction (length (input_list (snd e))) as [|q IHm]; intros j Hj; [lia|]. destruct j as [|j]; cbn [repeat nth_error]; [reflexivity|]. apply IHm. lia.
    - intros x _. cbn [initial computed]. destruct (existsb _ graph); discriminate.
  Qed.
End Stuck.

(** C86: a valid ONNX model with one output is imported, and the imported model returns the value ONNX gives to that output. *)
Lemma k_C86_import {V Op : Type} (sem : Op -> list V -> list V) (is_dropout supported : Op -> bool) (call : Op -> list V -> V) (tuple : V -> option (list V)) (default : V) (m : onnx_model (V := V) (Op := Op)) (args : list V) (o : nat) (v : V) :
  graph_input m <> [] -> length args = length (graph_input m) -> graph_output m = [o] -> named_once m ->
  (forall n, In n (nodes m) -> faithful sem is_dropout supported call tuple n) ->
  (forall n, In n (nodes m) -> NoDup (node_input n)) ->
  (forall n n' x, In n (nodes m) -> In n' (nodes m) -> In x (node_input n') -> ~ In x (dropped is_dropout n)) ->
  (In o (map fst (initializer m)) \/ exists n, In n (nodes m) /\ nth_error (node_output n) 0 = Some o) ->
  onnx_value sem m args o = Some v ->
  exists g, to_crypten is_dropout supported call m = Some g /\ forall fuel, length g <= fuel -> imported default tuple g m fuel args = Returns [v].
Proof. intros A B C D E F G H I. exact (import_ok sem is_dropout supported call tuple default m args o v A B C D E F G H I). Qed.
(** C86: a model whose output waits for a name that nothing gives, such as the empty name of an omitted optional input, is imported but never returns. *)
Lemma k_C86_missing_refuted {V Op : Type} (is_dropout supported : Op -> bool) (call : Op -> list V -> V) (tuple : V -> option (list V)) (default : V) (m : onnx_model (V := V) (Op := Op)) (missing : nat -> Prop) g o args fuel vs :
  to_crypten is_dropout supported call m = Some g -> graph_output m = [o] -> missing o ->
  (forall x, missing x -> ~ In x (graph_input m) /\ ~ In x (map fst (initializer m))) ->
  (forall n, In n (nodes m) -> (exists x, In x (node_output n) /\ missing x) -> exists x, In x (node_input n) /\ missing x) ->
  imported default tuple g m fuel args <> Returns vs.
Proof.
  intros Hg Ho Mo Hn Hs. unfold imported. rewrite Ho. apply (stuck_forward _ tuple (map fst g) missing); [|exact (built_keys _ _ _ _ _ Hg)|exact Mo|intros x Ix Mx; exact (proj1 (Hn x Mx) Ix)].
  intros e Ie. apply (graph_entries _ _ _ _ _ Hg) in Ie as [(p & Ip & ->)|(n & In_n & ->)]; cbn [fst snd input_list produced output_list].
  - intros X. exfalso. assert (Mp : missing (fst p)) by (destruct X as [X|(x & [<-|[]] & X)]; exact X). apply (proj2 (Hn _ Mp)). apply in_map_iff. eauto.
  - intros X. apply (Hs n In_n). destruct (built_graph _ _ _ _ _ Hg) as [_ Ne]. specialize (Ne n In_n). destruct X as [X|(x & Ix & X)].
    + destruct (node_output n) as [|a l]; [congruence|]. exists a. split; [now left|exact X].
    + exists x. split; [now apply (kept is_dropout)|exact X].
Qed.
(** C86: a model whose output uses one value twice, as x * x does, is imported but never returns. *)
Lemma k_C86_twice_refuted {V Op : Type} (is_dropout supported : Op -> bool) (call : Op -> list V -> V) (tuple : V -> option (list V)) (default : V) (m : onnx_model (V := V) (Op := Op)) n g o args fuel vs :
  to_crypten is_dropout supported call m = Some g -> graph_output m = [o] -> named_once m -> In n (nodes m) -> nth_error (node_output n) 0 = Some o -> ~ NoDup (node_input n) ->
  imported default tuple g m fuel args <> Returns vs.
Proof.
  intros Hg Ho Hn In_n Eo Nd. unfold imported. rewrite Ho. unfold named_once in Hn. apply NoDup_app_iff in Hn as (_ & Hn & D0). apply NoDup_app_iff in Hn as (_ & N2 & D1).
  assert (Oo : In o (flat_map node_output (nodes m))) by (apply in_flat_map; exists n; split; [exact In_n|eapply nth_error_In; exact Eo]).
  apply k_graph_duplicate; [|intros I; apply (D0 o I); apply in_or_app; now right].
  intros e Ie. apply (graph_entries _ _ _ _ _ Hg) in Ie as [(p & Ip & ->)|(n' & In' & ->)]; cbn [fst snd input_list produced output_list]; intros X.
  - exfalso. apply (D1 o); [|exact Oo]. apply in_map_iff. exists p. split; [|exact Ip]. destruct X as [X|[X|[]]]; exact X.
  - assert (X' : In o (node_output n')) by (destruct X as [X|X]; [destruct (built_graph _ _ _ _ _ Hg) as [_ Ne]; specialize (Ne n' In'); destruct (node_output n') as [|a l]; [congruence|left; exact X]|now apply (kept is_dropout)]).
    assert (n' = n). { apply In_nth_error in In' as (i & Hi). apply In_nth_error in In_n as (j & Hj). assert (In o (node_output n)) by (eapply nth_error_In; exact Eo). clear - N2 Hi Hj X' H. revert i j Hi Hj N2. induction (nodes m) as [|a l IH]; intros i j Hi Hj N; [destruct i; discriminate|]. cbn [flat_map] in N. apply NoDup_app_iff in N as (_ & N & D). destruct i as [|i], j as [|j]; cbn [nth_error] in Hi, Hj.
      - congruence.
      - exfalso. injection Hi as ->. apply (D o X'). apply in_flat_map. exists n. split; [eapply nth_error_In; exact Hj|exact H].
      - exfalso. injection Hj as ->. apply (D o H). apply in_flat_map. exists n'. split; [eapply nth_error_In; exact Hi|exact X'].
      - exact (IH i j Hi Hj N). }
    subst n'. split; [|exact Nd]. destruct (node_output n); [discriminate|]. now injection Eo.
Qed.
(** C86: in a model that lists its initializers among the inputs, as older exporters do, the data alone is refused although ONNX gives the output a value. *)
Lemma k_C86_default_refuted : exists (m : onnx_model (V := nat) (Op := unit)) (sem : unit -> list nat -> list nat) call g, to_crypten (fun _ => false) (fun _ => true) call m = Some g /\ onnx_value sem m [3] 2 = Some 7 /\ (forall vs, sem tt vs = [call tt vs]) /\
  forall tuple default fuel, imported default tuple g m fuel [3] = Raises AssertionError.
Proof.
  exists (mkModel [0; 1] [2] [(1, 4)] [mkOnnx tt [0; 1] [2]]), (fun _ vs => [list_sum vs]), (fun _ vs => list_sum vs). eexists. split; [vm_compute; reflexivity|]. split; [reflexivity|]. split; [reflexivity|]. intros tuple default fuel. reflexivity.
Qed.
(** C86: a model that returns its input unchanged is imported but raises ValueError. *)
Lemma k_C86_identity_refuted {V Op : Type} (is_dropout supported : Op -> bool) (call : Op -> list V -> V) (sem : Op -> list V -> list V) tuple default (x : V) fuel :
  let m := mkModel (V := V) (Op := Op) [0] [0] [] [] in onnx_value sem m [x] 0 = Some x /\ to_crypten is_dropout supported call m = Some [] /\ imported default tuple [] m fuel [x] = Raises ValueError.
Proof. cbn zeta. split; [reflexivity|]. split; [reflexivity|]. unfold imported, forward. cbn. destruct fuel; reflexivity. Qed.

(** Backpropagation: specification and proofs of C48 and C49. *)
Require Import List Bool Arith Lia PeanoNat.
From Verif Require Import Autograd Autograd_proofs.
Import ListNotations.

Lemma existsb_ext' {A} (f g : A -> bool) l : (forall a, f a = g a) -> existsb f l = existsb g l.
Proof. intros H. induction l as [|a l IH]; [reflexivity|]. cbn [existsb]. now rewrite H, IH. Qed.

Section Claims.
  Context {G : Type} (plus : G -> G -> G).

  (** ** Specification on programs *)
  (** which tensors of a program require gradients *)
  Definition flags (p : list (instr G)) : list bool :=
    fold_left (fun fl i => fl ++ [match i with Input r _ => r | Apply args _ _ _ => existsb (fun a => nth a fl false) args end]) p [].
  Definition requires (p : list (instr G)) (i : nat) : bool := nth i (flags p) false.
  (** a leaf: an input, or a tensor that does not require gradients *)
  Definition leaf (p : list (instr G)) (i : nat) : Prop := match nth_error p i with Some (Apply _ _ _ _) => requires p i = false | _ => True end.
  (** the arguments gradients are sent to *)
  Definition targets (args nd : list nat) : list nat := filter (fun a => if in_dec Nat.eq_dec a nd then false else true) args.
  (** the ends of all paths that start at tensor [i] with gradient [g], each with the composition of the local derivatives along the path *)
  Fixpoint paths (p : list (instr G)) (fuel i : nat) (g : G) : list (nat * G) :=
    match fuel with
    | O => []
    | S f => if requires p i then (i, g) :: match nth_error p i with
        | Some (Apply args nd local _) => flat_map (fun e => paths p f (fst e) (snd e)) (combine (targets args nd) (local g))
        | _ => [] end else []
    end.
  (** the sum over all paths to [x]; [None]: no path *)
  Definition path_sum (p : list (instr G)) (t : nat) (seed : G) (x : nat) : option G :=
    fold_right (fun e acc => if Nat.eqb (fst e) x then match acc with Some s => Some (plus (snd e) s) | None => Some (snd e) end else acc) None (paths p (S t) t seed).
  (** Programs: arguments come before; local derivatives are additive and give a gradient for every target; at least one argument is a target; arguments that are not are leaves. *)
  Definition program (p : list (instr G)) : Prop := forall i args nd local one, nth_error p i = Some (Apply args nd local one) ->
    (forall a, In a args -> a < i) /\ targets args nd <> [] /\ (forall g, length (targets args nd) <= length (local g)) /\ (forall a b, local (plus a b) = add_lists plus (local a) (local b)) /\
    (forall a, In a args -> In a nd -> leaf p a).

  (** ** The heap a program makes *)
  Lemma run_app (p q : list (instr G)) : run (p ++ q) = fold_left (@perform G) q (run p).
  Proof. unfold run. apply fold_left_app. Qed.
  Lemma run_count (p : list (instr G)) : snd (run p) = length p.
  Proof. induction p as [|i p IH] using rev_ind; [reflexivity|]. rewrite run_app. cbn [fold_left perform snd]. rewrite IH, app_length. cbn. lia. Qed.
  Lemma heap_snoc (p : list (instr G)) i k : heap_of (p ++ [i]) k = if Nat.eqb k (length p) then record (heap_of p) i else heap_of p k.
  Proof. unfold heap_of. rewrite run_app. cbn [fold_left perform fst]. unfold upd. now rewrite run_count. Qed.
  Lemma heap_beyond (p : list (instr G)) k : length p <= k -> heap_of p k = plain false None.
  Proof.
    revert k. induction p as [|i p IH] using rev_ind; intros k Hk; [reflexivity|]. rewrite app_length in Hk. cbn in Hk. rewrite heap_snoc. destruct (Nat.eqb_spec k (length p)); [lia|]. apply IH. lia.
  Qed.
  Lemma flags_snoc p i : flags (p ++ [i]) = flags p ++ [match i with Input r _ => r | Apply args _ _ _ => existsb (fun a => nth a (flags p) false) args end].
  Proof. unfold flags. rewrite fold_left_app. reflexivity. Qed.
  Lemma flags_length p : length (flags p) = length p.
  Proof. induction p as [|i p IH] using rev_ind; [reflexivity|]. rewrite flags_snoc, !app_length, IH. reflexivity. Qed.
  Lemma requires_heap p k : requires_grad (heap_of p k) = requires p k.
  Proof.
    unfold requires. revert k. induction p as [|i p IH] using rev_ind; intros k; [now destruct k|]. rewrite heap_snoc, flags_snoc. destruct (Nat.eqb_spec k (length p)) as [->|N].
    - rewrite app_nth2, flags_length, Nat.sub_diag by (rewrite flags_length; lia). cbn [nth]. destruct i as [r one|args nd f one]; [reflexivity|]. cbn [record]. rewrite (existsb_ext' (fun a => requires_grad (heap_of p a)) (fun a => nth a (flags p) false)) by (intros; apply IH).
      destruct (existsb _ args); reflexivity.
    - rewrite IH. destruct (Nat.lt_ge_cases k (length p)); [rewrite app_nth1 by (rewrite flags_length; lia); reflexivity|]. rewrite !nth_overflow; [reflexivity|rewrite app_length, flags_length; cbn; lia|rewrite flags_length; lia].
  Qed.

  Lemma nth_snoc {A} (p : list A) i k : nth_error (p ++ [i]) k = if Nat.eqb k (length p) then Some i else nth_error p k.
  Proof.
    destruct (Nat.eqb_spec k (length p)) as [->|N]; [rewrite nth_error_app2, Nat.sub_diag by lia; reflexivity|]. destruct (Nat.lt_ge_cases k (length p)); [now rewrite nth_error_app1 by lia|].
    rewrite nth_error_app2 by lia. destruct (k - length p) as [|d] eqn:E; [lia|]. rewrite (proj2 (nth_error_None p k)) by lia. destruct d; reflexivity.
  Qed.
  (** the node of instruction [k] *)
  Lemma heap_node (p : list (instr G)) k : heap_of p k = match nth_error p k with
    | Some (Input r one) => plain r one
    | Some (Apply args nd f one) => if requires p k then mkNode true None true 0 0 args nd f one else plain false one
    | None => plain false None end.
  Proof.
    revert k. induction p as [|i p IH] using rev_ind; intros k; [now destruct k|]. rewrite heap_snoc, nth_snoc. destruct (Nat.eqb_spec k (length p)) as [->|N].
    - destruct i as [r one|args nd f one]; [reflexivity|]. cbn [record]. unfold requires. rewrite flags_snoc, app_nth2, flags_length, Nat.sub_diag by (rewrite flags_length; lia). cbn [nth].
      rewrite (existsb_ext' (fun a => requires_grad (heap_of p a)) (fun a => nth a (flags p) false)) by (intros; apply requires_heap). reflexivity.
    - rewrite IH. destruct (nth_error p k) as [[r one|args nd f one]|] eqn:E; try reflexivity. assert (k < length p) by (apply nth_error_Some; congruence).
      unfold requires. rewrite flags_snoc, app_nth1 by (rewrite flags_length; lia). reflexivity.
  Qed.
  Lemma leaf_heap p k : leaf p k <-> children (heap_of p k) = [].
  Proof.
    unfold leaf. rewrite heap_node. destruct (nth_error p k) as [[r one|args nd f one]|] eqn:E; try (split; reflexivity). destruct (requires p k) eqn:R; [|split; reflexivity].
    cbn [children]. split; [discriminate|]. intros ->. exfalso. revert R. unfold requires. clear -E. revert k E. induction p as [|i p IH] using rev_ind; intros k E; [now destruct k|]. rewrite nth_snoc in E. rewrite flags_snoc. destruct (Nat.eqb_spec k (length p)) as [Ek|N].
    - subst k. injection E as ->. rewrite app_nth2, flags_length, Nat.sub_diag by (rewrite flags_length; lia). cbn. discriminate.
    - assert (k < length p) by (apply nth_error_Some; congruence). rewrite app_nth1 by (rewrite flags_length; lia). now apply IH.
  Qed.
  Lemma targets_diff args nd (r : bool) g gf e rc f one : differentiable (mkNode (G := G) r g gf e rc args nd f one) = targets args nd.
  Proof. unfold differentiable, targets. cbn [children non_diff]. apply filter_ext. intros a. destruct (in_dec Nat.eq_dec a nd) as [H|H]; [apply in_runs in H|apply not_in_runs in H]; now rewrite H. Qed.
  Lemma program_tape p : program p -> tape plus (heap_of p).
  Proof.
    intros P i. pose proof (leaf_heap p i) as Lf. rewrite (heap_node p i) in *. destruct (nth_error p i) as [[r one|args nd f one]|] eqn:E; try (split; [intros c []|cbn; congruence]). destruct (P i args nd f one E) as (A & B & C & D & F).
    destruct (requires p i) eqn:R; [|split; [intros c []|cbn; congruence]]. rewrite targets_diff. cbn [children requires_grad grad_fn local non_diff]. split; [exact A|]. intros _. split; [reflexivity|]. split; [reflexivity|]. split; [exact B|]. split; [exact C|]. split; [exact D|].
    intros c Hc Ha. apply leaf_heap. now apply F.
  Qed.
  Lemma program_idle (p : list (instr G)) : idle (heap_of p).
  Proof. intros i. rewrite heap_node. destruct (nth_error p i) as [[r one|args nd f one]|]; [intros _; auto| |intros _; auto]. destruct (requires p i); intros _; auto. Qed.
  Lemma paths_flow p f : forall i g, paths p f i g = flow (heap_of p) f i g.
  Proof.
    induction f as [|f IH]; intros i g; [reflexivity|]. cbn [paths flow]. rewrite requires_heap. destruct (requires p i) eqn:R; [|reflexivity]. f_equal. unfold edges. rewrite heap_node. rewrite R.
    destruct (nth_error p i) as [[r one|args nd l one]|]; [reflexivity| |reflexivity]. rewrite targets_diff. cbn [local]. rewrite !flat_map_concat_map. f_equal. apply map_ext. intros e. apply IH.
  Qed.
  Lemma path_sum_reach p t seed x : path_sum p t seed x = reach plus (heap_of p) x t seed.
  Proof.
    unfold path_sum, reach, arrivals. rewrite paths_flow. generalize (flow (heap_of p) (S t) t seed) as l. intros l. induction l as [|e l IH]; [reflexivity|]. cbn [fold_right filter]. rewrite IH. destruct (Nat.eqb (fst e) x); [|reflexivity].
    unfold sum_all, osum. cbn [map fold_right]. destruct (fold_right (oplus plus) None _); reflexivity.
  Qed.

  Hypothesis plus_comm : forall a b, plus a b = plus b a.
  Hypothesis plus_assoc : forall a b c, plus a (plus b c) = plus (plus a b) c.
  Lemma k_C48_paths p t seed : program p -> requires p t = true -> exists h runs, backward plus (S t) t (Some seed) true (heap_of p, []) = Some (h, runs) /\
    (forall x, leaf p x -> grad (h x) = path_sum p t seed x) /\ NoDup runs /\ (forall y, In y runs <-> ~ leaf p y /\ exists g, In (y, g) (paths p (S t) t seed)) /\ (forall y, ~ leaf p y -> grad (h y) = None).
  Proof using plus_comm plus_assoc.
    intros P R. destruct (pass_ok plus plus_comm plus_assoc (heap_of p) (program_tape p P) (program_idle p) t seed) as (h & runs & E & V & N & I & C & F); [now rewrite requires_heap|]. exists h, runs. split; [exact E|]. split; [|split; [exact N|split]].
    - intros x Lx. apply leaf_heap in Lx. rewrite (V x Lx). cbn [grad with_fields]. rewrite path_sum_reach. rewrite heap_node. destruct (nth_error p x) as [[r one|args nd f one]|]; try reflexivity. destruct (requires p x); reflexivity.
    - intros y. rewrite I. rewrite leaf_heap. rewrite paths_flow. reflexivity.
    - intros y Ny. rewrite leaf_heap in Ny. destruct (in_dec Nat.eq_dec y runs) as [H|H]; [apply (C y H)|rewrite (F y Ny H)]. apply (program_idle p y Ny).
  Qed.

  (** ** Several backward calls *)
  Fixpoint calls (h : heap G) (l : list (nat * G)) : option (heap G) :=
    match l with
    | [] => Some h
    | (t, seed) :: l => match backward plus (S t) t (Some seed) true (h, []) with Some (h, _) => calls h l | None => None end
    end.
  Definition separate (p : list (instr G)) (a b : nat * G) : Prop := forall y g g', In (y, g) (paths p (S (fst a)) (fst a) (snd a)) -> In (y, g') (paths p (S (fst b)) (fst b) (snd b)) -> leaf p y.
  Definition add_option (a b : option G) : option G := match a, b with None, _ => b | _, None => a | Some x, Some y => Some (plus x y) end.
  Record after (p : list (instr G)) (used : nat -> Prop) (got : nat -> option G) (h : heap G) : Prop := {
    af_leaf : forall x, leaf p x -> h x = with_fields (heap_of p x) (got x) (expected (h x)) (received (h x));
    af_used : forall y, ~ leaf p y -> used y -> children (h y) = [];
    af_rest : forall y, ~ leaf p y -> ~ used y -> h y = heap_of p y }.
  Lemma leaf_dec p y : leaf p y \/ ~ leaf p y.
  Proof. unfold leaf. destruct (nth_error p y) as [[|]|]; auto. destruct (requires p y); [right|left]; congruence. Qed.
  Lemma after_step p used got h t seed : program p -> (forall y, used y \/ ~ used y) -> after p used got h -> requires p t = true -> (forall y g, In (y, g) (paths p (S t) t seed) -> used y -> leaf p y) ->
    exists h' runs, backward plus (S t) t (Some seed) true (h, []) = Some (h', runs) /\
    after p (fun y => used y \/ exists g, In (y, g) (paths p (S t) t seed)) (fun x => add_option (got x) (path_sum p t seed x)) h'.
  Proof using plus_comm plus_assoc.
    intros P Du [AL AU AR] R Sep. pose proof (program_tape p P) as T0.
    assert (Ch : forall y, children (h y) = children (heap_of p y) \/ children (h y) = []).
    { intros y. destruct (leaf_dec p y) as [L|L]; [left; rewrite (AL y L); reflexivity|]. destruct (Du y) as [U|U]; [right; apply (AU y L U)|left; now rewrite AR]. }
    assert (Lf : forall y, leaf p y -> children (h y) = []) by (intros y L; rewrite (AL y L); now apply leaf_heap).
    assert (Sm : forall y, children (h y) <> [] -> ~ leaf p y /\ ~ used y /\ h y = heap_of p y).
    { intros y Ny. destruct (leaf_dec p y) as [L|L]; [apply Lf in L; contradiction|]. destruct (Du y) as [U|U]; [rewrite (AU y L U) in Ny; contradiction|]. auto. }
    assert (T : tape plus h).
    { intros i. destruct (T0 i) as [A B]. split.
      - intros c Hc. destruct (Ch i) as [E|E]; rewrite E in Hc; [now apply A|destruct Hc].
      - intros Ni. destruct (Sm i Ni) as (_ & _ & E). rewrite E in *. destruct (B Ni) as (B1 & B2 & B3 & B4 & B5 & B6). repeat (split; [assumption|]). intros c Hc Hi. apply Lf. apply leaf_heap. now apply B6. }
    assert (I : idle h). { intros i Ni. destruct (Sm i Ni) as (_ & _ & E). rewrite E. apply (program_idle p). rewrite <- E. exact Ni. }
    assert (Rq : forall y, ~ (~ leaf p y /\ used y) -> requires_grad (h y) = requires_grad (heap_of p y)).
    { intros y H. destruct (leaf_dec p y) as [L|L]; [rewrite (AL y L); reflexivity|]. rewrite AR; tauto. }
    assert (Fl : forall f i g, (forall y v, In (y, v) (flow (heap_of p) f i g) -> used y -> leaf p y) -> (requires_grad (heap_of p i) = false -> ~ (~ leaf p i /\ used i)) -> flow h f i g = flow (heap_of p) f i g).
    { induction f as [|f IH]; intros i g H H2; [reflexivity|]. cbn [flow] in *. destruct (requires_grad (heap_of p i)) eqn:Ri.
      - assert (Hi : ~ (~ leaf p i /\ used i)) by (intros [Q1 Q2]; apply Q1; apply (H i g); [now left|exact Q2]). rewrite (Rq i Hi), Ri. f_equal. destruct (leaf_dec p i) as [L|L].
        + unfold edges, differentiable. rewrite (Lf i L). apply leaf_heap in L. rewrite L. reflexivity.
        + assert (E : h i = heap_of p i) by (apply AR; tauto). unfold edges. rewrite E. rewrite !flat_map_concat_map. f_equal. apply map_ext_in. intros e He. apply IH.
          * intros y v Hy. apply (H y v). right. apply in_flat_map. exists e. split; [exact He|exact Hy].
          * intros Re [Q1 Q2]. apply Q1. apply leaf_heap. destruct (children (heap_of p (fst e))) eqn:Ec; [reflexivity|]. assert (Q : children (heap_of p (fst e)) <> []) by (rewrite Ec; discriminate). apply (proj2 (T0 (fst e))) in Q. destruct Q as [Q _]. congruence.
      - now rewrite (Rq i (H2 eq_refl)), Ri. }
    assert (Sp : forall y v, In (y, v) (flow (heap_of p) (S t) t seed) -> used y -> leaf p y) by (intros y v H; apply (Sep y v); now rewrite paths_flow).
    assert (Rt : requires_grad (heap_of p t) = true) by (now rewrite requires_heap). assert (Ft : flow h (S t) t seed = flow (heap_of p) (S t) t seed) by (apply Fl; [exact Sp|congruence]).
    assert (Ht : ~ (~ leaf p t /\ used t)) by (intros [Q1 Q2]; apply Q1; apply (Sp t seed); [cbn [flow]; rewrite Rt; now left|exact Q2]).
    destruct (pass_ok plus plus_comm plus_assoc h T I t seed) as (h' & runs & E & V & _ & Ir & C & F); [now rewrite (Rq t Ht)|]. exists h', runs. split; [exact E|]. constructor.
    - intros x Lx. rewrite (V x (Lf x Lx)). rewrite (AL x Lx) at 1. unfold with_fields. cbn [requires_grad grad_fn children non_diff local one grad expected received]. f_equal. rewrite path_sum_reach. unfold reach, arrivals. rewrite Ft. rewrite (AL x Lx) at 1. reflexivity.
    - intros y Ny U. destruct (in_dec Nat.eq_dec y runs) as [H|H]; [now apply C|]. destruct U as [U|[g Hg]].
      + pose proof (AU y Ny U) as U4. rewrite (V y U4). exact U4.
      + destruct (children (h y)) eqn:Ec; [rewrite (V y Ec); exact Ec|]. exfalso. apply H. apply Ir. split; [rewrite Ec; discriminate|]. exists g. rewrite Ft, <- paths_flow. exact Hg.
    - intros y Ny U. assert (Eh : h y = heap_of p y) by (apply AR; tauto). rewrite <- Eh. apply F.
      + rewrite Eh. now rewrite <- leaf_heap.
      + intros H. apply Ir in H as [_ [g Hg]]. apply U. right. exists g. rewrite paths_flow, <- Ft. exact Hg.
  Qed.
  Lemma in_paths_dec p f i s y : (exists g, In (y, g) (paths p f i s)) \/ ~ exists g : G, In (y, g) (paths p f i s).
  Proof.
    destruct (in_dec Nat.eq_dec y (map fst (paths p f i s))) as [H|H].
    - left. apply in_map_iff in H as ((z & g) & <- & H). now exists g.
    - right. intros [g Hg]. apply H. apply in_map_iff. now exists (y, g).
  Qed.
  Lemma add_option_assoc a b c : add_option a (add_option b c) = add_option (add_option a b) c.
  Proof using plus_assoc. destruct a, b, c; cbn; try reflexivity. now rewrite plus_assoc. Qed.
  Lemma calls_ok p : program p -> forall l used got h, (forall y, used y \/ ~ used y) -> after p used got h -> Forall (fun c => requires p (fst c) = true) l -> ForallOrdPairs (separate p) l ->
    Forall (fun c => forall y g, In (y, g) (paths p (S (fst c)) (fst c) (snd c)) -> used y -> leaf p y) l ->
    exists h', calls h l = Some h' /\ forall x, leaf p x -> grad (h' x) = add_option (got x) (fold_right add_option None (map (fun c => path_sum p (fst c) (snd c) x) l)).
  Proof using plus_comm plus_assoc.
    intros P. induction l as [|[t seed] l IH]; intros used got h Du A F S U.
    - exists h. split; [reflexivity|]. intros x Lx. rewrite (af_leaf _ _ _ _ A x Lx). cbn. now destruct (got x).
    - inversion F; subst. inversion S; subst. inversion U; subst. cbn [fst snd] in *. destruct (after_step p used got h t seed P Du A H1 H5) as (h' & runs & E & A'). cbn [calls]. rewrite E.
      refine (_ (fun Q U' => IH _ _ h' Q A' H2 H4 U')). intros K. destruct K as (h2 & E2 & V).
      + intros y. destruct (Du y); [now left; left|]. destruct (in_paths_dec p (Datatypes.S t) t seed y); [left; now right|right; tauto].
      + rewrite Forall_forall in *. intros c Hc y g Hy [Uy|[g' Hg']]; [now apply (H6 c Hc y g)|]. exact (H3 c Hc y g' g Hg' Hy).
      + exists h2. split; [exact E2|]. intros x Lx. rewrite (V x Lx). cbn [map fold_right fst snd]. now rewrite add_option_assoc.
  Qed.
  Lemma k_C49_accumulates p l : program p -> Forall (fun c => requires p (fst c) = true) l -> ForallOrdPairs (separate p) l ->
    exists h, calls (heap_of p) l = Some h /\ forall x, leaf p x -> grad (h x) = fold_right add_option None (map (fun c => path_sum p (fst c) (snd c) x) l).
  Proof using plus_comm plus_assoc.
    intros P F S. destruct (calls_ok p P l (fun _ => False) (fun _ => None) (heap_of p)) as (h & E & V); auto.
    - constructor; [|intros y _ []|reflexivity]. intros x Lx. rewrite heap_node. destruct (nth_error p x) as [[r one|args nd f one]|]; try reflexivity. destruct (requires p x); reflexivity.
    - apply Forall_forall. intros c _ y g _ [].
    - exists h. split; [exact E|]. exact V.
  Qed.
  Lemma k_C49_second p t seed seed' : program p -> requires p t = true -> ~ leaf p t -> exists h h' , calls (heap_of p) [(t, seed)] = Some h /\ calls (heap_of p) [(t, seed); (t, seed')] = Some h' /\ forall y, y <> t -> h' y = h y.
  Proof using plus_comm plus_assoc.
    intros P R L. destruct (pass_ok plus plus_comm plus_assoc (heap_of p) (program_tape p P) (program_idle p) t seed) as (h & runs & E & V & N & I & C & F); [now rewrite requires_heap|]. cbn [calls]. rewrite E.
    assert (Ht : In t runs). { apply I. split; [now rewrite <- leaf_heap|]. exists seed. cbn [flow]. rewrite requires_heap, R. now left. }
    destruct (C t Ht) as (_ & _ & _ & Ec). assert (exists h' r', backward plus (S t) t (Some seed') true (h, []) = Some (h', r') /\ forall y, y <> t -> h' y = h y) as (h' & r' & E' & K).
    { cbn [backward]. destruct (requires_grad (h t)); [|exists h, []; split; [reflexivity|auto]].
      assert (Ei : forall y, identify (S t) t h y = upd h t (expect_more (h t)) y) by (intros y; cbn [identify]; cbn [children expect_more]; rewrite Ec; cbn [fold_left]; now destruct (Nat.eqb _ 1)).
      assert (Cr : children (receive plus (identify (S t) t h t) seed') = []) by (rewrite Ei; unfold upd; rewrite Nat.eqb_refl; exact Ec). rewrite Cr. cbn [length Nat.eqb orb]. eexists _, _. split; [reflexivity|].
      intros y Ny. unfold upd at 1. destruct (Nat.eqb_spec y t); [contradiction|]. rewrite Ei. unfold upd. destruct (Nat.eqb_spec y t); [contradiction|reflexivity]. }
    exists h, h'. split; [reflexivity|]. split; [now rewrite E'|exact K].
  Qed.
End Claims.

(** ** Concrete programs over Z *)
Require Import ZArith.
Open Scope Z_scope.
Definition times (k : Z) : Z -> list Z := fun g => [g * k].
Definition times2 (k l : Z) : Z -> list Z := fun g => [g * k; g * l].
Lemma times_add k a b : times k (a + b) = add_lists Z.add (times k a) (times k b).
Proof. unfold times. cbn. f_equal. ring. Qed.
Lemma times2_add k l a b : times2 k l (a + b) = add_lists Z.add (times2 k l a) (times2 k l b).
Proof. unfold times2. cbn. f_equal; [|f_equal]; ring. Qed.
(** x0; x1 = 2 x0; x2 = 3 x1; x3 = 5 x1 *)
Definition shared : list (instr Z) := [Input true None; Apply [0%nat] [] (times 2) None; Apply [1%nat] [] (times 3) None; Apply [1%nat] [] (times 5) None].
(** x0; x1 = 2 x0; x2 = 3 x1; x3 = 5 x1 + 7 x2; x4 = 11 x3 + 13 x3 *)
Definition diamond : list (instr Z) := [Input true None; Apply [0%nat] [] (times 2) None; Apply [1%nat] [] (times 3) None; Apply [1%nat; 2%nat] [] (times2 5 7) None; Apply [3%nat; 3%nat] [] (times2 11 13) None].
(** x0; x1 = 2 x0; x2 = 3 x1; x3 = loss (x1, target x2) *)
Definition target_shared : list (instr Z) := [Input true None; Apply [0%nat] [] (times 2) None; Apply [1%nat] [] (times 3) None; Apply [1%nat; 2%nat] [2%nat] (times 5) None].
(** two losses from one input: x1 = 2 x0, x2 = 3 x1; x3 = 5 x0; x4 = 7 x3 *)
Definition two_losses : list (instr Z) := [Input true None; Apply [0%nat] [] (times 2) None; Apply [1%nat] [] (times 3) None; Apply [0%nat] [] (times 5) None; Apply [3%nat] [] (times 7) None].

Ltac prog_step E := cbn in E; first [discriminate E | injection E as <- <- <- <-;
    split; [cbn; intros; lia|split; [cbn; discriminate|split; [intros; cbn; lia|split; [intros; first [apply times_add | apply times2_add]|cbn; intros; contradiction]]]]].
Ltac prog := intros i args nd local one E; do 5 (destruct i as [|i]; [prog_step E|]); destruct i; discriminate E.
Lemma shared_program : program Z.add shared. Proof. prog. Qed.
Lemma diamond_program : program Z.add diamond. Proof. prog. Qed.
Lemma two_losses_program : program Z.add two_losses. Proof. prog. Qed.

(** x0; x1 = 2 x0; x2 = 3 x1; detach_ of x2 if [d]; x3 = 5 x1 + 7 x2 *)
Definition detached (d : bool) : heap Z :=
  let h := heap_of [Input true None; Apply [0%nat] [] (times 2) None; if d then Apply [1%nat] [] (times 3) None else Input false None] in
  let h := if d then detach 2 h else h in upd h 3 (record h (Apply [1%nat; 2%nat] [] (times2 5 7) None)).

(** the gradient of tensor [x] and the gradient functions run *)
Definition observe (r : option (heap Z * list nat)) (x : nat) : option (option Z * list nat) := match r with Some (h, runs) => Some (grad (h x), runs) | None => None end.
Definition observe_calls (r : option (heap Z)) (x : nat) : option (option Z) := match r with Some h => Some (grad (h x)) | None => None end.
Lemma observe_calls_some r x v : observe_calls r x = Some v -> exists h, r = Some h /\ grad (h x) = v.
Proof. destruct r as [h|]; cbn; [|discriminate]. intros [= E]. now exists h. Qed.
Lemma k_C49_shared : exists (p : list (instr Z)) t t' h, program Z.add p /\ requires p t = true /\ requires p t' = true /\ leaf p 0%nat /\ calls Z.add (heap_of p) [(t, 1%Z); (t', 1%Z)] = Some h /\
  grad (h 0%nat) <> add_option Z.add (path_sum Z.add p t 1%Z 0%nat) (path_sum Z.add p t' 1%Z 0%nat).
Proof.
  exists shared, 2%nat, 3%nat. assert (O : observe_calls (calls Z.add (heap_of shared) [(2%nat, 1); (3%nat, 1)]) 0 = Some (Some 6)) by (vm_compute; reflexivity). apply observe_calls_some in O as (h & E & V).
  exists h. split; [exact shared_program|]. split; [reflexivity|]. split; [reflexivity|]. split; [exact I|]. split; [exact E|]. rewrite V. vm_compute. discriminate.
Qed.

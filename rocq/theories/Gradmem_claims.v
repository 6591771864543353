(** Gradients in memory: specification and proofs of C113. *)
Require Import ZArith List Bool Arith Lia PeanoNat Permutation.
From Verif Require Import Autograd Autograd_proofs Autograd_claims Gradmem Gradmem_proofs.
Import ListNotations.
Local Open Scope nat_scope.

Section Claims.
  Context {V : Type} (vplus : V -> V -> V) (zero : V).

  (** ** Specification *)
  (** the same program with gradients as values, without memory *)
  Definition by_value (i : step V) : instr (list V) :=
    match i with Leaf r one => Input r one | Call args nd back one => Apply args nd (contents zero back) one end.
  Definition values (p : list (step V)) : list (instr (list V)) := map by_value p.
  Definition one_of (i : step V) : option (list V) := match i with Leaf _ one => one | Call _ _ _ one => one end.
  (** A program in which tensor [i] has [sz i] entries: arguments come before; the gradients for the children of a tensor have their sizes, and those that are views of one gradient do not overlap. *)
  Definition tidy (sz : nat -> nat) (p : list (step V)) : Prop :=
    (forall i s v, nth_error p i = Some s -> one_of s = Some v -> length v = sz i) /\
    (forall i args nd back one, nth_error p i = Some (Call args nd back one) -> (forall a, In a args -> a < i) /\ fits zero sz i (targets args nd) back).
  (** the gradient a call starts with *)
  Definition start (p : list (step V)) (m : memory V) (c : nat * option ref) : list V :=
    match snd c with Some r => read m r | None => match nth_error p (fst c) with Some s => match one_of s with Some v => v | None => [] end | None => [] end end.
  (** the tensors the caller passes *)
  Definition passed (l : list (nat * option ref)) : list nat := flat_map (fun c => match snd c with Some r => r | None => [] end) l.
  (** Calls: each passed gradient has the size of the tensor, and the passed gradients are different tensors that share no memory; [backward()] only on tensors with one entry. *)
  Definition callable (sz : nat -> nat) (p : list (step V)) (n : nat) (l : list (nat * option ref)) : Prop :=
    NoDup (passed l) /\ (forall a, In a (passed l) -> a < n) /\
    (forall t g, In (t, g) l -> match g with Some r => length r = sz t | None => exists s v, nth_error p t = Some s /\ one_of s = Some v end).
  Definition gradient (s : state V) (x : nat) : option (list V) := option_map (read (fst (fst s))) (t_grad (snd s x)).

  (** ** The two graphs *)
  Lemma t_run_snoc (p : list (step V)) i : t_run (p ++ [i]) = (tput (fst (t_run p)) (snd (t_run p)) (t_record (fst (t_run p)) i), S (snd (t_run p))).
  Proof. unfold t_run. now rewrite fold_left_app. Qed.
  Lemma t_run_count (p : list (step V)) : snd (t_run p) = length p.
  Proof. induction p as [|i p IH] using rev_ind; [reflexivity|]. rewrite t_run_snoc, app_length. cbn [snd length]. lia. Qed.
  Lemma like_graph p : forall k, like zero (tensors_of p k) (heap_of (values p) k).
  Proof.
    unfold values. induction p as [|i p IH] using rev_ind; intros k; [repeat split|]. rewrite map_app. cbn [map]. rewrite heap_snoc, map_length. unfold tensors_of. rewrite t_run_snoc. cbn [fst]. unfold tput. rewrite t_run_count.
    destruct (Nat.eqb_spec k (length p)) as [->|N]; [|apply IH]. destruct i as [r one|args nd back one]; [repeat split|]. cbn [by_value record t_record].
    rewrite (existsb_ext' (fun a => requires_grad (heap_of (map by_value p) a)) (fun a => t_requires (fst (t_run p) a))) by (intros a; apply (proj1 (IH a))). destruct (existsb _ args); repeat split.
  Qed.
  Lemma tensor_node p k : tensors_of p k = match nth_error p k with
    | Some (Leaf r one) => t_plain r one
    | Some (Call args nd back one) => if requires (values p) k then mkT true None true 0 0 args nd back one else t_plain false one
    | None => t_plain false None end.
  Proof.
    assert (Q : forall k, t_requires (tensors_of p k) = requires (values p) k) by (intros j; rewrite <- requires_heap; symmetry; apply (proj1 (like_graph p j))).
    assert (M : forall q i j, tensors_of (q ++ [i]) j = if Nat.eqb j (length q) then t_record (tensors_of q) i else tensors_of q j) by (intros q i j; unfold tensors_of; rewrite t_run_snoc; cbn [fst]; unfold tput; now rewrite t_run_count).
    rewrite <- Q. clear Q. revert k. induction p as [|i p IH] using rev_ind; intros k; [now destruct k|]. rewrite M, nth_snoc. destruct (Nat.eqb_spec k (length p)) as [->|N]; [|apply IH].
    destruct i as [r one|args nd back one]; [reflexivity|]. cbn [t_record]. destruct (existsb _ args); reflexivity.
  Qed.
  Lemma sound_graph sz p : tidy sz p -> forall k, sound zero sz k (tensors_of p k).
  Proof.
    intros [T1 T2] k. rewrite tensor_node. destruct (nth_error p k) as [[r one|args nd back one]|] eqn:E.
    - split; [intros c []|]. split; [cbn; congruence|]. intros v Hv. now apply (T1 k _ v E).
    - destruct (T2 k args nd back one E) as [A F]. destruct (requires (values p) k).
      + split; [exact A|]. split; [|intros v Hv; now apply (T1 k _ v E)]. intros _. cbn [t_back]. replace (t_differentiable _) with (targets args nd); [exact F|]. rewrite <- (targets_diff (G := V) args nd true None true 0 0 (fun _ => []) None). reflexivity.
      + split; [intros c []|]. split; [cbn; congruence|]. intros v Hv. now apply (T1 k _ v E).
    - split; [intros c []|]. split; [cbn; congruence|]. cbn. discriminate.
  Qed.
  Lemma no_grad (p : list (step V)) k : t_grad (tensors_of p k) = None.
  Proof. rewrite tensor_node. destruct (nth_error p k) as [[r one|args nd back one]|]; [reflexivity| |reflexivity]. destruct (requires (values p) k); reflexivity. Qed.
  Lemma no_grad_value (p : list (instr (list V))) k : grad (heap_of p k) = None.
  Proof. rewrite heap_node. destruct (nth_error p k) as [[r one|args nd f one]|]; [reflexivity| |reflexivity]. destruct (requires p k); reflexivity. Qed.

  (** ** Calls *)
  Lemma identify_one (G : Type) f : forall (h : heap G) i j, one (identify f i h j) = one (h j).
  Proof.
    induction f as [|f IH]; intros h i j; [reflexivity|]. cbn [identify]. assert (E : forall j, one (upd h i (expect_more (h i)) j) = one (h j)) by (intros l; unfold upd; destruct (Nat.eqb_spec l i) as [->|]; reflexivity).
    destruct (Nat.eqb _ 1); [|apply E]. rewrite <- E. generalize (upd h i (expect_more (h i))) as h'. generalize (children (expect_more (h i))) as l. induction l as [|c l IHl]; intros h'; [reflexivity|]. cbn [fold_left]. now rewrite IHl, IH.
  Qed.
  Lemma t_identify_one f : forall (h : nat -> tensor V) i j, t_one (t_identify f i h j) = t_one (h j).
  Proof.
    induction f as [|f IH]; intros h i j; [reflexivity|]. cbn [t_identify]. assert (E : forall j, t_one (tput h i (t_expect (h i)) j) = t_one (h j)) by (intros l; unfold tput; destruct (Nat.eqb_spec l i) as [->|]; reflexivity).
    destruct (Nat.eqb _ 1); [|apply E]. rewrite <- E. generalize (tput h i (t_expect (h i))) as h'. generalize (t_children (t_expect (h i))) as l. induction l as [|c l IHl]; intros h'; [reflexivity|]. cbn [fold_left]. now rewrite IHl, IH.
  Qed.
  (** [backward()] is [backward] with a new tensor *)
  Lemma implicit f i m n (h : nat -> tensor V) v : t_requires (h i) = true -> t_one (h i) = Some v ->
    t_backward vplus (S f) i None true (m, n, h) = t_backward vplus (S f) i (Some (fresh n v)) true (write m (fresh n v) v, n + length v, h).
  Proof. intros R O. cbn [t_backward]. rewrite R, t_identify_one, O. reflexivity. Qed.
  Lemma upd_one (G : Type) (h : heap G) i c j : one c = one (h i) -> one (upd h i c j) = one (h j).
  Proof. intros E. unfold upd. destruct (Nat.eqb_spec j i) as [->|]; auto. Qed.
  Lemma backward_one (G : Type) (plus : G -> G -> G) f : forall i g top h runs h' runs', backward plus f i g top (h, runs) = Some (h', runs') -> forall j, one (h' j) = one (h j).
  Proof.
    induction f as [|f IH]; intros i g top h runs h' runs' E j; [discriminate|]. cbn [backward] in E. destruct (requires_grad (h i)); [|now injection E as <- <-].
    assert (Q : forall j, one ((if top then identify (S i) i h else h) j) = one (h j)) by (intros l; destruct top; [apply identify_one|reflexivity]). rewrite <- Q. revert E. generalize (if top then identify (S i) i h else h) as k. clear Q h. intros k E.
    destruct (match g with Some g0 => Some g0 | None => one (k i) end) as [a|]; [|discriminate].
    assert (Q : forall j, one (upd k i (receive plus (k i) a) j) = one (k j)) by (intros l; now apply upd_one). destruct (_ || _); [injection E as <- <-; apply Q|]. destruct (negb _); [discriminate|]. destruct (Nat.leb _ _); [|discriminate].
    destruct (fold_left _ _ _) as [[k2 runs2]|] eqn:Ef; [|discriminate]. injection E as <- <-. rewrite upd_one by reflexivity. rewrite <- Q. clear Q. revert Ef. generalize (upd k i (receive plus (k i) a)) as k1. generalize (i :: runs) as l1. generalize (combine (differentiable (receive plus (k i) a)) (local (receive plus (k i) a) match grad (receive plus (k i) a) with Some a0 => a0 | None => a end)) as l. clear -IH.
    induction l as [|e l IHl]; intros l1 k1 Ef; [now injection Ef as <- <-|]. cbn [fold_left] in Ef. destruct (backward plus f (fst e) (Some (snd e)) false (k1, l1)) as [[k3 l3]|] eqn:E1.
    - rewrite (IHl l3 k3 Ef). now apply (IH _ _ _ _ _ _ _ E1).
    - exfalso. clear -Ef. revert Ef. induction l as [|x l IHl]; [discriminate|]. exact IHl.
  Qed.

  Definition pending (m : memory V) (l : list (nat * option ref)) : list (ref * list V) := flat_map (fun c => match snd c with Some r => [(r, read m r)] | None => [] end) l.
  Lemma held_pending m l : held (pending m l) = passed l.
  Proof. unfold held, pending, passed. induction l as [|[t [r|]] l IH]; [reflexivity| |exact IH]. cbn. now rewrite IH. Qed.
  Lemma calls_agree sz p m0 : tidy sz p -> forall l K s k k', inv zero sz [] (pending m0 l ++ K) s k -> (forall j, one (k j) = one (heap_of (values p) j)) -> (forall t g, In (t, g) l -> match g with Some r => length r = sz t | None => exists s v, nth_error p t = Some s /\ one_of s = Some v end) ->
    calls (vadd vplus) k (map (fun c => (fst c, start p m0 c)) l) = Some k' -> exists s', t_calls vplus s l = Some s' /\ inv zero sz [] K s' k'.
  Proof.
    intros T. induction l as [|[t g] l IH]; intros K s k k' I O Hl E.
    - cbn [map calls] in E. injection E as <-. now exists s.
    - cbn [map calls fst] in E. destruct (backward (vadd vplus) (S t) t (Some (start p m0 (t, g))) true (k, [])) as [[k1 runs1]|] eqn:E1; [|discriminate]. cbn [t_calls].
      assert (St : exists s1, t_backward vplus (S t) t g true s = Some s1 /\ inv zero sz [] (pending m0 l ++ K) s1 k1).
      { destruct g as [r|].
        - refine (agrees vplus zero sz (S t) t r _ true [] (pending m0 l ++ K) s k [] k1 runs1 I _ (fun d C => match C with end) E1). now apply (Hl t (Some r)); left.
        - destruct (Hl t None) as (st & v & Hs & Hv); [now left|]. unfold start in E1. cbn [fst snd] in E1. rewrite Hs, Hv in E1. destruct s as [[m n] h].
          destruct (i_like _ _ _ _ _ _ I t) as (l1 & _ & _ & _ & _ & _ & _ & l8). cbn [fst snd] in l1, l8.
          assert (Ov : t_one (h t) = Some v).
          { rewrite <- l8, O, heap_node. unfold values. rewrite nth_error_map, Hs. destruct st as [r one|args nd back one]; cbn [option_map by_value one_of] in *; [exact Hv|]. destruct (requires _ t); exact Hv. }
          destruct (t_requires (h t)) eqn:R.
          + rewrite (implicit t t m n h v R Ov). refine (agrees vplus zero sz (S t) t (fresh n v) v true [] (pending m0 l ++ K) _ k [] k1 runs1 _ _ (fun d C => match C with end) E1).
            * apply inv_new. exact I.
            * unfold fresh. rewrite seq_length. now apply (proj1 T t st v).
          + cbn [t_backward]. rewrite R. cbn [backward] in E1. rewrite l1 in E1. injection E1 as <- <-. eexists. split; [reflexivity|exact I]. }
      destruct St as (s1 & F1 & I1). rewrite F1. apply (IH K s1 k1 k' I1); [|intros; apply Hl; now right|exact E]. intros j. rewrite <- O. now apply (backward_one _ (vadd vplus) _ _ _ _ _ _ _ _ E1).
  Qed.

  (** C113: Running in memory, with references, in-place additions and views, gives every tensor the gradient the value-level run gives, and writes no cell that was in use but the passed gradients. *)
  Lemma k_C113_memory sz p m n l h : tidy sz p -> callable sz p n l -> calls (vadd vplus) (heap_of (values p)) (map (fun c => (fst c, start p m c)) l) = Some h ->
    exists s, t_calls vplus (m, n, tensors_of p) l = Some s /\ (forall x, gradient s x = grad (h x)) /\ (forall a, a < n -> ~ In a (passed l) -> fst (fst s) a = m a).
  Proof.
    intros T (N & B & S) E.
    assert (I : forall K, NoDup (passed l ++ held K) -> (forall a, In a (held K) -> a < n) -> (forall e, In e K -> read m (fst e) = snd e) -> inv zero sz [] (pending m l ++ K) (m, n, tensors_of p) (heap_of (values p))).
    { intros K NK BK VK. assert (Hh : held (pending m l ++ K) = passed l ++ held K) by (unfold held at 1; rewrite flat_map_app; f_equal; apply held_pending). constructor; cbn [fst snd].
      - apply like_graph.
      - now apply sound_graph.
      - intros i _. now rewrite no_grad, no_grad_value.
      - intros i r _. now rewrite no_grad.
      - intros i j r q a _ _ _. now rewrite no_grad.
      - now rewrite Hh.
      - intros a Ha. rewrite Hh in Ha. apply in_app_or in Ha as [Ha|Ha]; auto.
      - intros e He. apply in_app_or in He as [He|He]; [|now apply VK]. unfold pending in He. apply in_flat_map in He as ([t [r|]] & _ & He); [|contradiction]. destruct He as [<-|[]]. reflexivity. }
    destruct (calls_agree sz p m T l [] _ _ h (I [] ltac:(now rewrite app_nil_r) ltac:(intros a []) ltac:(intros e [])) ltac:(reflexivity) S E) as (s & F & J). exists s. split; [exact F|]. split.
    - intros x. symmetry. apply (i_grad _ _ _ _ _ _ J). auto.
    - intros a Ha Hn. assert (I' : inv zero sz [] (pending m l ++ [([a], [m a])]) (m, n, tensors_of p) (heap_of (values p))).
      { apply I; cbn [held flat_map fst app].
        - apply nodup_app; [exact N|constructor; [intros []|constructor]|]. intros x Hx [<-|[]]. contradiction.
        - intros b [<-|[]]. exact Ha.
        - intros e [<-|[]]. reflexivity. }
      destruct (calls_agree sz p m T l [([a], [m a])] _ _ h I' ltac:(reflexivity) S E) as (s' & F' & J').
      rewrite F in F'. injection F' as <-. pose proof (i_val _ _ _ _ _ _ J' ([a], [m a]) (or_introl eq_refl)) as Q. cbn [fst snd read map] in Q. now injection Q.
  Qed.

  Hypothesis comm : forall a b, vplus a b = vplus b a.
  Hypothesis assoc : forall a b c, vplus a (vplus b c) = vplus (vplus a b) c.
  Lemma vadd_comm a : forall b, vadd vplus a b = vadd vplus b a.
  Proof using comm. induction a as [|x a IH]; intros [|y b]; cbn; try reflexivity. now rewrite comm, IH. Qed.
  Lemma vadd_assoc a : forall b c, vadd vplus a (vadd vplus b c) = vadd vplus (vadd vplus a b) c.
  Proof using assoc. induction a as [|x a IH]; intros [|y b] [|z c]; cbn; try reflexivity. now rewrite assoc, IH. Qed.

  (** C113: One backward call: every input holds the sum over all paths. *)
  Lemma k_C113_gradient sz p m n t g : tidy sz p -> program (vadd vplus) (values p) -> requires (values p) t = true -> callable sz p n [(t, g)] ->
    exists s, t_backward vplus (S t) t g true (m, n, tensors_of p) = Some s /\ (forall x, leaf (values p) x -> gradient s x = path_sum (vadd vplus) (values p) t (start p m (t, g)) x) /\
      (forall a, a < n -> ~ In a (passed [(t, g)]) -> fst (fst s) a = m a).
  Proof using comm assoc.
    intros T P R C. destruct (k_C48_paths (vadd vplus) vadd_comm vadd_assoc (values p) t (start p m (t, g)) P R) as (h & runs & E & L & _).
    destruct (k_C113_memory sz p m n [(t, g)] h T C) as (s & F & G & O); [cbn [map calls fst]; now rewrite E|]. exists s. cbn [t_calls] in F. destruct (t_backward vplus (S t) t g true (m, n, tensors_of p)) as [s'|]; [|discriminate]. injection F as ->.
    split; [reflexivity|]. split; [|exact O]. intros x Lx. now rewrite G, L.
  Qed.
  (** C113: Backward calls on losses without a common intermediate tensor add up, in memory too. *)
  Lemma k_C113_accumulates sz p m n l : tidy sz p -> program (vadd vplus) (values p) -> callable sz p n l -> Forall (fun c => requires (values p) (fst c) = true) l ->
    ForallOrdPairs (separate (values p)) (map (fun c => (fst c, start p m c)) l) ->
    exists s, t_calls vplus (m, n, tensors_of p) l = Some s /\
      (forall x, leaf (values p) x -> gradient s x = fold_right (add_option (vadd vplus)) None (map (fun c => path_sum (vadd vplus) (values p) (fst c) (start p m c) x) l)) /\
      (forall a, a < n -> ~ In a (passed l) -> fst (fst s) a = m a).
  Proof using comm assoc.
    intros T P C R S. destruct (k_C49_accumulates (vadd vplus) vadd_comm vadd_assoc (values p) (map (fun c => (fst c, start p m c)) l) P) as (h & E & L); [|exact S|].
    { clear -R. induction R as [|c l H R IH]; [constructor|]. cbn [map]. constructor; [exact H|exact IH]. }
    destruct (k_C113_memory sz p m n l h T C E) as (s & F & G & O). exists s. split; [exact F|]. split; [|exact O]. intros x Lx. rewrite G, L by exact Lx. now rewrite map_map.
  Qed.
End Claims.

(** ** The functions of the library *)
Section Functions.
  Context {V : Type} (vplus : V -> V -> V) (zero : V).
  Definition additive (back : list V -> list (piece V)) : Prop := forall a b, contents zero back (vadd vplus a b) = add_lists (vadd vplus) (contents zero back a) (contents zero back b).
  (** [t] and [transpose] of an [r] by [c] matrix (the gradient is [c] by [r], the view is [r] by [c]) *)
  Definition transposed (r c : nat) : list nat := flat_map (fun i => map (fun j => j * r + i) (seq 0 c)) (seq 0 r).
  (** [split] along the first dimension: pieces of these sizes *)
  Fixpoint sections (from : nat) (ns : list nat) : list (list nat) := match ns with [] => [] | n :: ns => seq from n :: sections (from + n) ns end.

  Hypothesis right_zero : forall a, vplus a zero = a.
  Hypothesis comm : forall a b, vplus a b = vplus b a.
  Lemma nth_vadd a : forall b k, nth k (vadd vplus a b) zero = vplus (nth k a zero) (nth k b zero).
  Proof using right_zero comm.
    induction a as [|x a IH]; intros b k; [cbn [vadd]; destruct k; cbn [nth]; now rewrite comm, right_zero|]. destruct b as [|y b]; [cbn [vadd]; destruct k; cbn [nth]; now rewrite right_zero|]. destruct k as [|k]; [reflexivity|]. cbn. apply IH.
  Qed.
  Lemma vadd_map (l : list nat) (f g : nat -> V) : vadd vplus (map f l) (map g l) = map (fun k => vplus (f k) (g k)) l.
  Proof. induction l as [|k l IH]; [reflexivity|]. cbn. now rewrite IH. Qed.
  Lemma views_map (l : list (list nat)) : views (map (@View V) l) = concat l.
  Proof. induction l as [|x l IH]; [reflexivity|]. cbn. unfold views in IH. now rewrite IH. Qed.
  (** C113: Functions that return disjoint views fit. *)
  Lemma k_C113_views sz i dc l : NoDup (concat l) -> (forall k, In k (concat l) -> k < sz i) -> (forall c v, In (c, v) (combine dc l) -> length v = sz c) -> fits zero sz i dc (fun _ => map (@View V) l) /\ additive (fun _ => map (@View V) l).
  Proof using right_zero comm.
    intros N B L. split.
    - intros g Hg. rewrite views_map. split; [exact N|]. split; [exact B|]. clear N B. revert dc L. induction l as [|x l IH]; intros [|d dc] L c p C; try contradiction. cbn [map combine] in C. destruct C as [C|C].
      + injection C as <- <-. cbn [content]. rewrite map_length. apply L. now left.
      + apply (IH dc); [|exact C]. intros c' v Hc. apply L. now right.
    - intros a b. unfold contents. clear N B L. induction l as [|x l IH]; [reflexivity|]. cbn [map add_lists content]. rewrite IH. f_equal. rewrite vadd_map. apply map_ext. intros k. apply nth_vadd.
  Qed.
  (** C113: Addition, which clones its gradient, fits. *)
  Lemma k_C113_clones sz i c d : sz c = sz i -> sz d = sz i -> fits zero sz i [c; d] (fun g => [@New V g; New g]) /\ additive (fun g => [New g; New g]).
  Proof using Type.
    clear right_zero comm. intros Hc Hd. split; [|intros a b; reflexivity]. intros g Hg. split; [constructor|]. split; [intros k []|]. intros x p [C|[C|[]]]; injection C as <- <-; cbn [content]; congruence.
  Qed.
  Lemma in_transposed r c k : In k (transposed r c) <-> k < r * c.
  Proof.
    unfold transposed. rewrite in_flat_map. split.
    - intros (i & Hi & Hk). apply in_map_iff in Hk as (j & <- & Hj). apply in_seq in Hi, Hj. nia.
    - intros H. destruct r as [|r]; [lia|]. exists (k mod S r). split; [apply in_seq; pose proof (Nat.mod_upper_bound k (S r)); lia|]. apply in_map_iff. exists (k / S r). split; [rewrite (Nat.div_mod k (S r)) at 3 by lia; lia|].
      apply in_seq. split; [lia|]. cbn [plus]. apply Nat.div_lt_upper_bound; lia.
  Qed.
  Lemma flat_length {A B} (f : A -> list B) n l : (forall a, length (f a) = n) -> length (flat_map f l) = length l * n.
  Proof. intros H. induction l as [|a l IH]; [reflexivity|]. cbn. rewrite app_length, H, IH. reflexivity. Qed.
  Lemma transposed_length r c : length (transposed r c) = r * c.
  Proof. unfold transposed. rewrite (flat_length _ c), seq_length; [reflexivity|]. intros a. now rewrite map_length, seq_length. Qed.
  Lemma transposed_nodup r c : NoDup (transposed r c).
  Proof.
    apply NoDup_incl_NoDup with (l := seq 0 (r * c)); [apply seq_NoDup|rewrite transposed_length, seq_length; lia|]. intros k Hk. apply in_seq in Hk. apply in_transposed. lia.
  Qed.
  Lemma transposed_nth r c i j : i < r -> j < c -> nth (i * c + j) (transposed r c) 0 = j * r + i.
  Proof.
    unfold transposed. intros Hi Hj. assert (Q : forall s n, i < n -> nth (i * c + j) (flat_map (fun i => map (fun j => j * r + i) (seq 0 c)) (seq s n)) 0 = j * r + (s + i)).
    { clear Hi. revert i. induction i as [|i IH]; intros s [|n] Hn; try lia; cbn [seq flat_map].
      - rewrite app_nth1 by (rewrite map_length, seq_length; lia). cbn [Nat.mul plus]. rewrite (nth_indep _ 0 ((fun j => j * r + s) 0)) by (rewrite map_length, seq_length; lia). rewrite (map_nth (fun j => j * r + s)), seq_nth by lia. lia.
      - rewrite app_nth2; rewrite map_length, seq_length; [|lia]. replace (S i * c + j - c) with (i * c + j) by lia. rewrite IH by lia. lia. }
    rewrite Q by exact Hi. reflexivity.
  Qed.
  (** C113: t and transpose fit. *)
  Lemma k_C113_transpose sz i c rows cols : sz i = rows * cols -> sz c = rows * cols -> fits zero sz i [c] (fun _ => [@View V (transposed rows cols)]) /\ additive (fun _ => [View (transposed rows cols)]) /\
    (forall g a b, a < rows -> b < cols -> nth (a * cols + b) (content zero g (View (transposed rows cols))) zero = nth (b * rows + a) g zero).
  Proof using right_zero comm.
    intros Hi Hc. destruct (k_C113_views sz i [c] [transposed rows cols]) as [F A].
    - cbn [concat]. rewrite app_nil_r. apply transposed_nodup.
    - cbn [concat]. rewrite app_nil_r. intros k Hk. apply in_transposed in Hk. lia.
    - intros x v [C|[]]. injection C as <- <-. rewrite transposed_length. lia.
    - split; [exact F|]. split; [exact A|]. intros g a b Ha Hb. cbn [content]. rewrite (nth_indep _ zero ((fun k => nth k g zero) 0)) by (rewrite map_length, transposed_length; nia). rewrite (map_nth (fun k => nth k g zero)). now rewrite transposed_nth.
  Qed.
  Lemma sections_concat ns : forall from, concat (sections from ns) = seq from (list_sum ns).
  Proof. induction ns as [|n ns IH]; intros from; [reflexivity|]. cbn [sections concat]. rewrite IH. cbn [list_sum fold_right]. fold (list_sum ns). now rewrite seq_app. Qed.
  (** C113: cat fits: its backward function splits the gradient. *)
  Lemma k_C113_split sz i dc : sz i = list_sum (map sz dc) -> fits zero sz i dc (fun _ => map (@View V) (sections 0 (map sz dc))) /\ additive (fun _ => map (@View V) (sections 0 (map sz dc))).
  Proof using right_zero comm.
    intros Hi. apply k_C113_views; rewrite ?sections_concat.
    - apply seq_NoDup.
    - intros k Hk. apply in_seq in Hk. lia.
    - generalize 0 as from. clear Hi. induction dc as [|d dc IH]; intros from c v C; [contradiction|]. cbn [map sections combine] in C. destruct C as [C|C]; [injection C as <- <-; apply seq_length|now apply (IH _ _ _ C)].
  Qed.
End Functions.

(** ** Gradients that share memory *)
Section Shared.
  Context {V : Type} (vplus : V -> V -> V) (zero : V).
  Lemma leaf_call f t m n (h : nat -> tensor V) r : t_requires (h t) = true -> t_children (h t) = [] -> t_backward vplus (S f) t (Some r) true (m, n, h) =
    match t_receive vplus m (h t) r with Some (m', a) => Some (m', n, tput (tput h t (t_expect (h t))) t (t_store (t_expect (h t)) a)) | None => None end.
  Proof.
    intros R C. cbn [t_backward]. rewrite R. assert (E : t_identify (S t) t h = tput h t (t_expect (h t))) by (cbn [t_identify]; destruct (Nat.eqb _ 1); [cbn [t_expect t_children]; now rewrite C|reflexivity]). rewrite E.
    assert (E' : tput h t (t_expect (h t)) t = t_expect (h t)) by (unfold tput; now rewrite Nat.eqb_refl). rewrite E'. change (t_receive vplus m (t_expect (h t)) r) with (t_receive vplus m (h t) r). destruct (t_receive vplus m (h t) r) as [[m' a]|]; [|reflexivity]. cbn [t_store t_expect t_children length]. rewrite C. reflexivity.
  Qed.
  (** C113: The same gradient tensor passed three times to an input: the input stores the tensor itself, which is then doubled twice. *)
  Lemma k_C113_reused (p : list (step V)) t one m n r : nth_error p t = Some (Leaf true one) -> NoDup r ->
    exists s, t_calls vplus (m, n, tensors_of p) [(t, Some r); (t, Some r); (t, Some r)] = Some s /\ t_grad (snd s t) = Some r /\
      gradient s t = Some (vadd vplus (vadd vplus (read m r) (read m r)) (vadd vplus (read m r) (read m r))) /\ read (fst (fst s)) r = vadd vplus (vadd vplus (read m r) (read m r)) (vadd vplus (read m r) (read m r)).
  Proof.
    intros Hp N. assert (T : tensors_of p t = t_plain true one) by (rewrite (tensor_node zero), Hp; reflexivity).
    cbn [t_calls]. rewrite leaf_call by (rewrite T; reflexivity). unfold t_receive at 1. rewrite T. cbn [t_plain t_grad].
    set (h1 := tput _ t _). assert (A1 : t_grad (h1 t) = Some r /\ t_requires (h1 t) = true /\ t_children (h1 t) = []) by (unfold h1, tput; rewrite Nat.eqb_refl; repeat split). clearbody h1.
    rewrite leaf_call by apply A1. unfold t_receive at 1. rewrite (proj1 A1), Nat.eqb_refl.
    set (h2 := tput _ t _). assert (A2 : t_grad (h2 t) = Some r /\ t_requires (h2 t) = true /\ t_children (h2 t) = []) by (unfold h2, tput; rewrite Nat.eqb_refl; cbn; repeat split; apply A1). clearbody h2.
    rewrite leaf_call by apply A2. unfold t_receive at 1. rewrite (proj1 A2), Nat.eqb_refl.
    set (h3 := tput _ t _). assert (A3 : t_grad (h3 t) = Some r) by (unfold h3, tput; rewrite Nat.eqb_refl; reflexivity). clearbody h3.
    assert (L : length (read m r) = length r) by (unfold read; now rewrite map_length).
    assert (W : forall v, length v = length r -> forall m : memory V, read (write m r v) r = v) by (intros v Hv m'; apply write_read; auto).
    eexists. split; [reflexivity|]. split; [exact A3|]. unfold gradient. cbn [fst snd]. rewrite A3. cbn [option_map].
    assert (E : read (write m r (vadd vplus (read m r) (read m r))) r = vadd vplus (read m r) (read m r)) by (apply W; rewrite vadd_length; lia). rewrite E.
    rewrite W by (rewrite !vadd_length; lia). auto.
  Qed.
End Shared.

Local Open Scope Z_scope.
(** two inputs, their sum, and the sum of that and twice the first input; [shared]: whether the additions return views instead of clones *)
Definition sums (shared : bool) : list (step Z) :=
  let add := if shared then fun _ => [View [0%nat]; View [0%nat]] else fun g => [New g; New g] in
  [Leaf true None; Leaf true None; Call [0%nat; 1%nat] [] add None; Call [0%nat] [] (fun g => [New (map (Z.mul 2) g)]) None; Call [2%nat; 3%nat] [] add None].
(** matrices: a 2x3 matrix x, its transpose t (3x2), t concatenated with a 1x2 input, t + t, that concatenated with the 1x2 input, and the sum of the two concatenations *)
Definition layers : list (step Z) :=
  [Leaf true None; Leaf true None; Call [0%nat] [] (fun _ => [View (transposed 2 3)]) None; Call [2%nat; 1%nat] [] (fun _ => map (@View Z) (sections 0 [6%nat; 2%nat])) None;
   Call [2%nat; 2%nat] [] (fun g => [New g; New g]) None; Call [4%nat; 1%nat] [] (fun _ => map (@View Z) (sections 0 [6%nat; 2%nat])) None; Call [3%nat; 5%nat] [] (fun g => [New g; New g]) None].
Definition layer_sizes (i : nat) : nat := nth i [6; 2; 6; 8; 6; 8; 8]%nat 0%nat.
Definition observe_state (r : option (state Z)) (x : nat) : option (option (list Z)) := match r with Some s => Some (gradient s x) | None => None end.
(** C113: If addition returned its gradient twice instead of two clones, inputs would get wrong gradients. *)
Lemma k_C113_clone : let start := fun a : nat => if Nat.eqb a 0 then 1 else 0 in
  observe_state (t_backward Z.add 5 4 (Some [0%nat]) true (start, 1%nat, tensors_of (sums false))) 0 = Some (Some [3]) /\ observe_state (t_backward Z.add 5 4 (Some [0%nat]) true (start, 1%nat, tensors_of (sums false))) 1 = Some (Some [1]) /\
  path_sum (vadd Z.add) (values 0 (sums true)) 4 [1] 1 = Some [1] /\ observe_state (t_backward Z.add 5 4 (Some [0%nat]) true (start, 1%nat, tensors_of (sums true))) 1 <> Some (Some [1]).
Proof. repeat split; try (vm_compute; reflexivity). vm_compute. discriminate. Qed.

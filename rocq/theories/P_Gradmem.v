(** Property theorems on gradients in memory (C113). *)
Require Import ZArith List Arith Lia.
From Verif Require Import Autograd Autograd_proofs Autograd_claims Gradmem Gradmem_proofs Gradmem_claims.
Import ListNotations.
Local Open Scope nat_scope.

(** Backpropagation with gradients in memory (references stored, [add_] in place, views returned) against backpropagation with gradients as values:
    for any graph, any sequence of backward calls with passed gradients that share no memory, every tensor ends with the same gradient, and no other cell in use is written. *)
Theorem C113_memory {V} (vplus : V -> V -> V) (zero : V) : forall sz p m n l h, tidy zero sz p -> callable sz p n l -> calls (vadd vplus) (heap_of (values zero p)) (map (fun c => (fst c, start p m c)) l) = Some h ->
  exists s, t_calls vplus (m, n, tensors_of p) l = Some s /\ (forall x, gradient s x = grad (h x)) /\ (forall a, a < n -> ~ In a (passed l) -> fst (fst s) a = m a).
Proof. exact (k_C113_memory vplus zero). Qed.
Print Assumptions C113_memory.

(** One call: the gradient of every input is the sum over all paths. *)
Theorem C113_gradient {V} (vplus : V -> V -> V) (zero : V) : (forall a b, vplus a b = vplus b a) -> (forall a b c, vplus a (vplus b c) = vplus (vplus a b) c) ->
  forall sz p m n t g, tidy zero sz p -> program (vadd vplus) (values zero p) -> requires (values zero p) t = true -> callable sz p n [(t, g)] ->
    exists s, t_backward vplus (S t) t g true (m, n, tensors_of p) = Some s /\ (forall x, leaf (values zero p) x -> gradient s x = path_sum (vadd vplus) (values zero p) t (start p m (t, g)) x) /\
      (forall a, a < n -> ~ In a (passed [(t, g)]) -> fst (fst s) a = m a).
Proof. exact (k_C113_gradient vplus zero). Qed.
Print Assumptions C113_gradient.

(** Several calls: the sums are added. *)
Theorem C113_accumulates {V} (vplus : V -> V -> V) (zero : V) : (forall a b, vplus a b = vplus b a) -> (forall a b c, vplus a (vplus b c) = vplus (vplus a b) c) ->
  forall sz p m n l, tidy zero sz p -> program (vadd vplus) (values zero p) -> callable sz p n l -> Forall (fun c => requires (values zero p) (fst c) = true) l ->
    ForallOrdPairs (separate (values zero p)) (map (fun c => (fst c, start p m c)) l) ->
    exists s, t_calls vplus (m, n, tensors_of p) l = Some s /\
      (forall x, leaf (values zero p) x -> gradient s x = fold_right (add_option (vadd vplus)) None (map (fun c => path_sum (vadd vplus) (values zero p) (fst c) (start p m c) x) l)) /\
      (forall a, a < n -> ~ In a (passed l) -> fst (fst s) a = m a).
Proof. exact (k_C113_accumulates vplus zero). Qed.
Print Assumptions C113_accumulates.

(** The functions that return views of their gradient, those that return clones, and two of the first kind in detail: transposition, and splitting (the gradient of cat). *)
Theorem C113_views {V} (vplus : V -> V -> V) (zero : V) : (forall a, vplus a zero = a) -> (forall a b, vplus a b = vplus b a) -> forall sz i dc l,
  NoDup (concat l) -> (forall k, In k (concat l) -> k < sz i) -> (forall c v, In (c, v) (combine dc l) -> length v = sz c) -> fits zero sz i dc (fun _ => map (@View V) l) /\ additive vplus zero (fun _ => map (@View V) l).
Proof. exact (k_C113_views vplus zero). Qed.
Print Assumptions C113_views.
Theorem C113_clones {V} (vplus : V -> V -> V) (zero : V) : forall sz i c d, sz c = sz i -> sz d = sz i -> fits zero sz i [c; d] (fun g => [@New V g; New g]) /\ additive vplus zero (fun g => [New g; New g]).
Proof. exact (k_C113_clones vplus zero). Qed.
Print Assumptions C113_clones.
Theorem C113_transpose {V} (vplus : V -> V -> V) (zero : V) : (forall a, vplus a zero = a) -> (forall a b, vplus a b = vplus b a) -> forall sz i c rows cols,
  sz i = rows * cols -> sz c = rows * cols -> fits zero sz i [c] (fun _ => [@View V (transposed rows cols)]) /\ additive vplus zero (fun _ => [View (transposed rows cols)]) /\
    (forall g a b, a < rows -> b < cols -> nth (a * cols + b) (content zero g (View (transposed rows cols))) zero = nth (b * rows + a) g zero).
Proof. exact (k_C113_transpose vplus zero). Qed.
Print Assumptions C113_transpose.
Theorem C113_split {V} (vplus : V -> V -> V) (zero : V) : (forall a, vplus a zero = a) -> (forall a b, vplus a b = vplus b a) -> forall sz i dc, sz i = list_sum (map sz dc) ->
  fits zero sz i dc (fun _ => map (@View V) (sections 0 (map sz dc))) /\ additive vplus zero (fun _ => map (@View V) (sections 0 (map sz dc))).
Proof. exact (k_C113_split vplus zero). Qed.
Print Assumptions C113_split.

(** The same gradient tensor passed to three calls on an input: the input's gradient is the passed tensor itself, and both end as four times the gradient, not three times. *)
Theorem C113_reused {V} (vplus : V -> V -> V) (zero : V) : forall p t one m n r, nth_error p t = Some (Leaf true one) -> NoDup r ->
  exists s, t_calls vplus (m, n, tensors_of p) [(t, Some r); (t, Some r); (t, Some r)] = Some s /\ t_grad (snd s t) = Some r /\
    gradient s t = Some (vadd vplus (vadd vplus (read m r) (read m r)) (vadd vplus (read m r) (read m r))) /\ read (fst (fst s)) r = vadd vplus (vadd vplus (read m r) (read m r)) (vadd vplus (read m r) (read m r)).
Proof. exact (k_C113_reused vplus zero). Qed.
Print Assumptions C113_reused.

(** The clones in the gradients of add and sub are needed. *)
Theorem C113_clone_refuted : let start := fun a : nat => if Nat.eqb a 0 then 1%Z else 0%Z in
  observe_state (t_backward Z.add 5 4 (Some [0]) true (start, 1, tensors_of (sums false))) 0 = Some (Some [3%Z]) /\ observe_state (t_backward Z.add 5 4 (Some [0]) true (start, 1, tensors_of (sums false))) 1 = Some (Some [1%Z]) /\
  path_sum (vadd Z.add) (values 0%Z (sums true)) 4 [1%Z] 1 = Some [1%Z] /\ observe_state (t_backward Z.add 5 4 (Some [0]) true (start, 1, tensors_of (sums true))) 1 <> Some (Some [1%Z]).
Proof. exact k_C113_clone. Qed.
Print Assumptions C113_clone_refuted.

(** Concrete cases: a graph with a transposition, two concatenations and sums, and a gradient of eight entries in the cells 2 to 9. *)
Example C113_case : tidy 0%Z layer_sizes layers /\ program (vadd Z.add) (values 0%Z layers) /\ requires (values 0%Z layers) 6 = true /\ callable layer_sizes layers 10 [(6, Some (seq 2 8))] /\ leaf (values 0%Z layers) 0 /\ leaf (values 0%Z layers) 1 /\
  observe_state (t_backward Z.add 7 6 (Some (seq 2 8)) true (Z.of_nat, 10, tensors_of layers)) 0 = Some (Some [6; 12; 18; 9; 15; 21]%Z) /\
  observe_state (t_backward Z.add 7 6 (Some (seq 2 8)) true (Z.of_nat, 10, tensors_of layers)) 1 = Some (Some [16; 18]%Z).
Proof.
  assert (Z0 : forall a, (a + 0)%Z = a) by (intros; lia). assert (Zc : forall a b, (a + b)%Z = (b + a)%Z) by (intros; lia).
  pose proof (k_C113_transpose Z.add 0%Z Z0 Zc layer_sizes 2 0 2 3 eq_refl eq_refl) as (T1 & T2 & _).
  pose proof (k_C113_split Z.add 0%Z Z0 Zc layer_sizes 3 [2; 1] eq_refl) as (S1 & S2). pose proof (k_C113_split Z.add 0%Z Z0 Zc layer_sizes 5 [4; 1] eq_refl) as (U1 & U2).
  pose proof (k_C113_clones Z.add 0%Z layer_sizes 4 2 2 eq_refl eq_refl) as (W1 & W2). pose proof (k_C113_clones Z.add 0%Z layer_sizes 6 3 5 eq_refl eq_refl) as (X1 & X2).
  split; [|split; [|split; [reflexivity|split; [|split; [exact I|split; [exact I|split; vm_compute; reflexivity]]]]]].
  - split; [intros i s v H; destruct i as [|[|[|[|[|[|[|i]]]]]]]; try (destruct i; discriminate H); injection H as <-; discriminate|].
    intros i args nd back one H. destruct i as [|[|[|[|[|[|[|i]]]]]]]; try discriminate H; try (destruct i; discriminate H); injection H as <- <- <- <-; (split; [cbn; lia|]); [exact T1|exact S1|exact W1|exact U1|exact X1].
  - intros i args nd local one H. destruct i as [|[|[|[|[|[|[|i]]]]]]]; try discriminate H; try (destruct i; discriminate H); injection H as <- <- <- <-; (split; [cbn; lia|split; [discriminate|split; [intros g; cbn; lia|split; [|intros a _ []]]]]); [exact T2|exact S2|exact W2|exact U2|exact X2].
  - split; [unfold passed; cbn [flat_map snd]; rewrite app_nil_r; apply seq_NoDup|]. split; [intros a Ha; apply in_app_or in Ha as [Ha|[]]; apply in_seq in Ha; lia|]. intros t g [E|[]]. injection E as <- <-. reflexivity.
Qed.
Example C113_twice : observe_state (t_calls Z.add (Z.of_nat, 12, tensors_of layers) [(1, Some [0; 1]); (6, Some (seq 2 8)); (1, Some [10; 11])]) 1 = Some (Some [26; 30]%Z) /\
  observe_state (t_calls Z.add (Z.of_nat, 10, tensors_of layers) [(1, Some [3; 4]); (1, Some [3; 4]); (1, Some [3; 4])]) 1 = Some (Some [12; 16]%Z).
Proof. split; vm_compute; reflexivity. Qed.

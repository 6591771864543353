(** C48, C49: CrypTensor.backward adds up the chain rule over all paths; when several calls do and do not accumulate. *)
Require Import List Bool Arith ZArith.
From Verif Require Import Autograd Autograd_proofs Autograd_claims.
Import ListNotations.

(** Gradients: any type with a commutative and associative addition.  For every program (any graph of recorded operations, with shared subexpressions and repeated arguments), the gradient of every input is the
    sum over all paths of the composed local derivatives; it is None exactly when there is no path; every gradient function runs at most once, exactly those on a path run, and intermediate tensors keep no gradient. *)
Theorem C48_paths {G} (plus : G -> G -> G) : (forall a b, plus a b = plus b a) -> (forall a b c, plus a (plus b c) = plus (plus a b) c) ->
  forall p t seed, program plus p -> requires p t = true -> exists h runs, backward plus (S t) t (Some seed) true (heap_of p, []) = Some (h, runs) /\
    (forall x, leaf p x -> grad (h x) = path_sum plus p t seed x) /\ NoDup runs /\ (forall y, In y runs <-> ~ leaf p y /\ exists g, In (y, g) (paths p (S t) t seed)) /\ (forall y, ~ leaf p y -> grad (h y) = None).
Proof. exact (k_C48_paths plus). Qed.
Print Assumptions C48_paths.

(** Backward calls on several losses that share inputs but no intermediate tensor add up. *)
Theorem C49_accumulates {G} (plus : G -> G -> G) : (forall a b, plus a b = plus b a) -> (forall a b c, plus a (plus b c) = plus (plus a b) c) ->
  forall p l, program plus p -> Forall (fun c => requires p (fst c) = true) l -> ForallOrdPairs (separate p) l ->
    exists h, calls plus (heap_of p) l = Some h /\ forall x, leaf p x -> grad (h x) = fold_right (add_option plus) None (map (fun c => path_sum plus p (fst c) (snd c) x) l).
Proof. exact (k_C49_accumulates plus). Qed.
Print Assumptions C49_accumulates.

(** A second call on the same result changes nothing but that result: no gradient reaches any input, and no error is raised. *)
Theorem C49_second_backward {G} (plus : G -> G -> G) : (forall a b, plus a b = plus b a) -> (forall a b c, plus a (plus b c) = plus (plus a b) c) ->
  forall p t seed seed', program plus p -> requires p t = true -> ~ leaf p t -> exists h h', calls plus (heap_of p) [(t, seed)] = Some h /\ calls plus (heap_of p) [(t, seed); (t, seed')] = Some h' /\ forall y, y <> t -> h' y = h y.
Proof. exact (k_C49_second plus). Qed.
Print Assumptions C49_second_backward.

(** Losses that share an intermediate tensor: the second call does not add its gradient. *)
Theorem C49_shared_refuted : exists (p : list (instr Z)) t t' h, program Z.add p /\ requires p t = true /\ requires p t' = true /\ leaf p 0%nat /\ calls Z.add (heap_of p) [(t, 1%Z); (t', 1%Z)] = Some h /\
  grad (h 0%nat) <> add_option Z.add (path_sum Z.add p t 1%Z 0%nat) (path_sum Z.add p t' 1%Z 0%nat).
Proof. exact k_C49_shared. Qed.
Print Assumptions C49_shared_refuted.

(** detach_ on a tensor made from another intermediate: the gradient of the other path is lost, though the same values with an input in place of the detached tensor give a gradient. *)
Theorem C49_detach_refuted : observe (backward Z.add 4 3 (Some 1%Z) true (detached false, [])) 0 = Some (Some 10%Z, [1; 3]%nat) /\
  observe (backward Z.add 4 3 (Some 1%Z) true (detached true, [])) 0 = Some (None, [3]%nat).
Proof. split; vm_compute; reflexivity. Qed.
Print Assumptions C49_detach_refuted.

(** A loss whose non-differentiable target is itself computed from the prediction: the gradient is lost. *)
Theorem C49_target_refuted : requires target_shared 3 = true /\ path_sum Z.add target_shared 3 1%Z 0%nat = Some 10%Z /\ observe (backward Z.add 4 3 (Some 1%Z) true (heap_of target_shared, [])) 0 = Some (None, [3]%nat).
Proof. repeat split; vm_compute; reflexivity. Qed.
Print Assumptions C49_target_refuted.

(** Concrete cases. *)
Example C48_case : program Z.add diamond /\ requires diamond 4 = true /\ leaf diamond 0 /\ path_sum Z.add diamond 4 1%Z 0%nat = Some 1248%Z /\
  observe (backward Z.add 5 4 (Some 1%Z) true (heap_of diamond, [])) 0 = Some (Some ((11 + 13) * (5 + 7 * 3) * 2)%Z, [1; 2; 3; 4]%nat).
Proof. split; [exact diamond_program|]. repeat split; vm_compute; reflexivity. Qed.
Example C49_case : program Z.add two_losses /\ Forall (fun c => requires two_losses (fst c) = true) [(2%nat, 1%Z); (4%nat, 1%Z)] /\ ForallOrdPairs (separate two_losses) [(2%nat, 1%Z); (4%nat, 1%Z)] /\
  observe_calls (calls Z.add (heap_of two_losses) [(2%nat, 1%Z); (4%nat, 1%Z)]) 0 = Some (Some 41%Z).
Proof.
  split; [exact two_losses_program|]. split; [repeat constructor|]. split; [|vm_compute; reflexivity].
  repeat constructor. intros y g g' H H'. cbn in H, H'.
  repeat match goal with H : _ \/ _ |- _ => destruct H as [H|H] | H : False |- _ => destruct H end; injection H as <- <-; try discriminate; exact I.
Qed.

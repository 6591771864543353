(** Theorems for C58. *)
Require Import QArith List Bool Arith Lia Lqa.
From Verif Require Import Dpsplit Dpsplit_claims.
Import ListNotations.
Open Scope Q_scope.

(** C58: the label party's plaintext labels are flipped exactly where the mask is set. *)
Theorem C58_public : forall p ts ms, let r := process_targets false (Some p) true (bits ts) (bits ms) in eqs (fst r) (bits (xors ts ms)) /\ eqs (snd r) (bits (xors ts ms)).
Proof. exact k_public. Qed.
Print Assumptions C58_public.
(** C58: the caller's tensor is overwritten, so each epoch flips the labels of the epoch before. *)
Theorem C58_epochs : forall p masks qs ts, eqs qs (bits ts) ->
  Forall2 eqs (fst (epochs (Some p) qs (map bits masks))) (map bits (epoch_labels ts masks)) /\ eqs (snd (epochs (Some p) qs (map bits masks))) (bits (fold_left xors masks ts)).
Proof. exact k_epochs. Qed.
Print Assumptions C58_epochs.
(** C58 refuted over several epochs: the labels used in the second epoch are not the true labels flipped by its mask. *)
Theorem C58_epochs_refuted : exists p ts masks used, nth_error (fst (epochs (Some p) (bits ts) (map bits masks))) 1 = Some used /\ ~ eqs used (bits (xors ts (nth 1 masks []))).
Proof. exists (1 # 4), [true], [[true]; [true]]. eexists. split; [reflexivity|]. intros E. inversion E as [|? ? ? ? Q _]. vm_compute in Q. discriminate Q. Qed.
Print Assumptions C58_epochs_refuted.
(** C58 refuted for encrypted labels: for every admitted probability no label comes out as its flip, or even as itself. *)
Theorem C58_encrypted_refuted : forall p t0 m0, 0 < p -> p < 1 # 2 -> ~ flip_encrypted p (bit t0) (bit m0) == bit (xorb t0 m0).
Proof. exact k_encrypted_wrong. Qed.
Print Assumptions C58_encrypted_refuted.
(** C58 refuted for encrypted labels: the value used for training determines the true label, whatever the mask, so the label is not randomised. *)
Theorem C58_encrypted_private_refuted : forall p t0 m0 t1 m1, 0 < p -> p < 1 # 2 -> flip_encrypted p (bit t0) (bit m0) == flip_encrypted p (bit t1) (bit m1) -> t0 = t1.
Proof. exact k_encrypted_leak. Qed.
Print Assumptions C58_encrypted_private_refuted.
(** C58: without noise, every least-squares solution is the gradient of the logits when the rows of the last layer's input are independent. *)
Theorem C58_layer_estimation : forall batch classes features A Z X, independent batch features A ->
  (forall Y, residual batch classes features A (last_layer_grad batch Z A) X <= residual batch classes features A (last_layer_grad batch Z A) Y) ->
  forall b c, (b < batch)%nat -> (c < classes)%nat -> X b c == Z b c.
Proof. exact k_layer. Qed.
Print Assumptions C58_layer_estimation.
(** C58 refuted for party 0 as noise source: its noise_src is taken for absent and all parties draw the noise jointly. *)
Theorem C58_noise_src_refuted : forall q, ~ q == 0 -> noise_source (Some q) (Some 0%nat) = Joint /\ forall n, noise_source (Some q) (Some (S n)) = From (S n).
Proof. intros q N. unfold noise_source. destruct (Qeq_bool q 0) eqn:E; [apply Qeq_bool_iff in E; contradiction|]. split; reflexivity. Qed.
Print Assumptions C58_noise_src_refuted.

Example C58_public_case : fst (process_targets false (Some (1 # 4)) true [1; 0; 1] [1; 1; 0]) = [flip_public 1 1; flip_public 0 1; flip_public 1 0] /\ flip_public 1 1 == 0 /\ flip_public 0 1 == 1 /\ flip_public 1 0 == 1.
Proof. repeat split; reflexivity. Qed.
(** one label, flipped in both of two epochs: the second epoch uses the true label though its mask says flip *)
Example C58_epochs_case : map (map Qred) (fst (epochs (Some (1 # 4)) [1] [[1]; [1]])) = [[0]; [1]].
Proof. reflexivity. Qed.
Example C58_encrypted_case : flip_encrypted (1 # 4) (bit true) (bit true) == - 3 # 4 /\ flip_encrypted (1 # 4) (bit false) (bit true) == 1 # 4.
Proof. split; reflexivity. Qed.
(** two samples with three features: independent rows, and the gradient itself is a solution *)
Definition A2 : matrix := fun b f => nth f (nth b [[1; 0; 2]; [0; 1; 1]] []) 0.
Definition Z2 : matrix := fun b c => nth b [1 # 2; - 1 # 3] 0.
Lemma residual_nonneg batch classes features A W X : 0 <= residual batch classes features A W X.
Proof. unfold residual. apply qsum_nonneg. intros. apply qsum_nonneg. intros. apply square_nonneg. Qed.
Example C58_layer_case : independent 2 3 A2 /\ (forall Y, residual 2 1 3 A2 (last_layer_grad 2 Z2 A2) Z2 <= residual 2 1 3 A2 (last_layer_grad 2 Z2 A2) Y).
Proof.
  split.
  - intros x H b Hb. pose proof (H 0%nat ltac:(lia)) as H0. pose proof (H 1%nat ltac:(lia)) as H1. cbn in H0, H1. destruct b as [|[|b]]; [lra|lra|lia].
  - intros Y. rewrite own_residual. apply residual_nonneg.
Qed.
(** with more samples than features the rows are dependent, and a different matrix of no residual exists *)
Example C58_layer_dependent : residual 2 1 1 (fun _ _ => 1) (last_layer_grad 2 Z2 (fun _ _ => 1)) (fun b _ => if Nat.eqb b 0 then 1 # 6 else 0) == 0 /\ ~ Z2 0%nat 0%nat == 1 # 6.
Proof. split; [reflexivity|discriminate]. Qed.

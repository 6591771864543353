(** C58: split learning with label privacy. *)
Require Import QArith List Bool Arith Lia Lqa.
From Verif Require Import Dpsplit.
Import ListNotations.
Open Scope Q_scope.

(** Spec: labels are bits; a flip is exclusive or *)
Definition bit (b : bool) : Q := if b then 1 else 0.
Definition xors (ts ms : list bool) : list bool := map (fun p => xorb (fst p) (snd p)) (combine ts ms).
Definition bits (l : list bool) : list Q := map bit l.

Lemma flip_xor t0 m0 : flip_public (bit t0) (bit m0) == bit (xorb t0 m0). Proof. destruct t0, m0; reflexivity. Qed.
Definition eqs : list Q -> list Q -> Prop := Forall2 Qeq.
Lemma eqs_refl l : eqs l l. Proof. induction l; constructor; [reflexivity|assumption]. Qed.
Lemma flips_xor ts : forall qs ms, eqs qs (bits ts) -> eqs (map (fun tm => flip_public (fst tm) (snd tm)) (combine qs (bits ms))) (bits (xors ts ms)).
Proof.
  induction ts as [|t0 ts IH]; intros qs ms E; inversion E; subst; [constructor|]. destruct ms as [|m0 ms]; [constructor|]. cbn. constructor; [|now apply IH]. rewrite <- flip_xor. unfold flip_public. now rewrite H2.
Qed.
Lemma k_public p ts ms : let r := process_targets false (Some p) true (bits ts) (bits ms) in eqs (fst r) (bits (xors ts ms)) /\ eqs (snd r) (bits (xors ts ms)).
Proof. cbn. split; apply flips_xor, eqs_refl. Qed.
(** the labels used in each epoch: those of the epoch before, flipped again *)
Fixpoint epoch_labels (ts : list bool) (masks : list (list bool)) : list (list bool) :=
  match masks with [] => [] | m :: masks => xors ts m :: epoch_labels (xors ts m) masks end.
Lemma k_epochs p masks : forall qs ts, eqs qs (bits ts) ->
  Forall2 eqs (fst (epochs (Some p) qs (map bits masks))) (map bits (epoch_labels ts masks)) /\ eqs (snd (epochs (Some p) qs (map bits masks))) (bits (fold_left xors masks ts)).
Proof.
  induction masks as [|m masks IH]; intros qs ts E; cbn [map epochs epoch_labels fold_left]; [split; [constructor|exact E]|]. cbn [process_targets]. pose proof (flips_xor ts qs m E) as F. specialize (IH _ _ F). destruct (epochs (Some p) (map (fun tm => flip_public (fst tm) (snd tm)) (combine qs (bits m))) (map bits masks)) as [rest q']. cbn [fst snd] in *. destruct IH as [A B]. split; [constructor; assumption|exact B].
Qed.

(** *** The encrypted branch *)
Lemma k_encrypted_wrong p t0 m0 : 0 < p -> p < 1 # 2 -> ~ flip_encrypted p (bit t0) (bit m0) == bit (xorb t0 m0).
Proof. intros A B. unfold flip_encrypted. destruct t0, m0; cbn [bit xorb]; lra. Qed.
Lemma k_encrypted_leak p t0 m0 t1 m1 : 0 < p -> p < 1 # 2 -> flip_encrypted p (bit t0) (bit m0) == flip_encrypted p (bit t1) (bit m1) -> t0 = t1.
Proof. intros A B. unfold flip_encrypted. destruct t0, m0, t1, m1; cbn [bit]; intros; try reflexivity; exfalso; lra. Qed.

(** *** Solving for the gradient of the logits *)
Lemma qsum_ext n f g : (forall i, (i < n)%nat -> f i == g i) -> qsum n f == qsum n g.
Proof. induction n as [|n IH]; intros H; cbn [qsum]; [reflexivity|]. rewrite IH, (H n) by (auto with arith). reflexivity. Qed.
Lemma qsum_sub n f g : qsum n (fun i => f i - g i) == qsum n f - qsum n g.
Proof. induction n as [|n IH]; cbn [qsum]; [reflexivity|]. rewrite IH. ring. Qed.
Lemma qsum_nonneg n f : (forall i, (i < n)%nat -> 0 <= f i) -> 0 <= qsum n f.
Proof. induction n as [|n IH]; intros H; cbn [qsum]; [lra|]. pose proof (H n (Nat.lt_succ_diag_r n)). pose proof (IH (fun i L => H i (Nat.lt_lt_succ_r _ _ L))). lra. Qed.
Lemma qsum_zero n f : (forall i, (i < n)%nat -> 0 <= f i) -> qsum n f <= 0 -> forall i, (i < n)%nat -> f i == 0.
Proof.
  induction n as [|n IH]; intros H Z i L; cbn [qsum] in Z; [lia|]. pose proof (H n (Nat.lt_succ_diag_r n)). pose proof (qsum_nonneg n f (fun i L => H i (Nat.lt_lt_succ_r _ _ L))). destruct (Nat.eq_dec i n) as [->|N]; [lra|]. apply IH; [intros; apply H; lia|lra|lia].
Qed.
Lemma square_nonneg q : 0 <= q * q. Proof. nra. Qed.
Lemma square_zero q : q * q == 0 -> q == 0. Proof. intros H. destruct (Qmult_integral q q H); assumption. Qed.
(** the rows of the last layer's input are linearly independent *)
Definition independent (batch features : nat) (A : matrix) : Prop := forall x : nat -> Q, (forall f, (f < features)%nat -> qsum batch (fun b => A b f * x b) == 0) -> forall b, (b < batch)%nat -> x b == 0.
Lemma own_residual batch classes features A Z : residual batch classes features A (last_layer_grad batch Z A) Z == 0.
Proof.
  unfold residual. transitivity (qsum features (fun _ => 0)).
  - apply qsum_ext. intros f _. transitivity (qsum classes (fun _ => 0)); [|clear; induction classes; cbn [qsum]; [reflexivity|rewrite IHclasses; ring]]. apply qsum_ext. intros c _. cbv zeta. assert (E : matmul batch (t A) Z f c == t (last_layer_grad batch Z A) f c) by (unfold last_layer_grad, matmul, t; apply qsum_ext; intros; ring). rewrite E. ring.
  - clear. induction features; cbn [qsum]; [reflexivity|rewrite IHfeatures; ring].
Qed.
Lemma k_layer batch classes features A Z X : independent batch features A ->
  (forall Y, residual batch classes features A (last_layer_grad batch Z A) X <= residual batch classes features A (last_layer_grad batch Z A) Y) ->
  forall b c, (b < batch)%nat -> (c < classes)%nat -> X b c == Z b c.
Proof.
  intros I M b c Hb Hc. specialize (M Z). rewrite own_residual in M.
  assert (R : forall f, (f < features)%nat -> matmul batch (t A) X f c - t (last_layer_grad batch Z A) f c == 0).
  { intros f Hf. unfold residual in M. apply square_zero. refine (qsum_zero classes (fun c => _) _ _ c Hc); [intros; apply square_nonneg|]. apply Qle_lteq. right. refine (qsum_zero features (fun f => qsum classes _) _ M f Hf). intros; apply qsum_nonneg; intros; apply square_nonneg. }
  assert (E : X b c - Z b c == 0); [|lra]. apply (I (fun b => X b c - Z b c)); [|exact Hb]. intros f Hf. rewrite <- (R f Hf). unfold matmul, last_layer_grad, t, matmul. rewrite <- qsum_sub. apply qsum_ext. intros; ring.
Qed.

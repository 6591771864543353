(** Property theorems C82, C83: encrypt, decrypt, train and eval of modules. *)
Require Import List String Bool Arith ZArith Lia.
From Verif Require Import Modstate Modstate_proofs Modstate_claims.
Import ListNotations.

Section Claims.
  Variable V : Type.
  Variable round : V -> V.
  Variables inv_std inv_std_enc : V -> V.
  Notation world := (world V). Notation acyclic := (acyclic V). Notation part_of := (part_of V). Notation content_after := (content_after V round). Notation kept_after := (kept_after V round inv_std inv_std_enc).
  (** C82: encrypt and decrypt reach every module below, and convert its parameters and buffers *)
  Theorem C82_encrypt : forall mode src m (w : world), acyclic w -> (forall k, proper V w k) -> class (mods w m) <> Fixed -> encrypted (mods w m) <> mode ->
    exists N, forall depth, N <= depth -> exists w', encrypt V round depth mode src m w = Some w' /\
      (forall k, part_of w m k -> module_after V round mode src w w' k) /\ (forall k, ~ part_of w m k -> mods w' k = mods w k) /\ (forall i, i < next w -> objects w' i = objects w i).
  Proof. exact (k_C82_encrypt V round). Qed.
  (** C82: a module already in the asked state is left alone, and so is everything below it *)
  Theorem C82_again : forall mode src m (w : world) depth, class (mods w m) <> Fixed -> encrypted (mods w m) = mode -> encrypt V round (S depth) mode src m w = Some w.
  Proof. exact (k_C82_again V round). Qed.
  (** C82: encrypting and decrypting gives every party the rounded tensors of the source *)
  Theorem C82_round_trip : forall src m (w : world), acyclic w -> (forall k, proper V w k) -> class (mods w m) <> Fixed -> encrypted (mods w m) = false ->
    exists N, forall depth, N <= depth -> exists w' w'', encrypt V round depth true src m w = Some w' /\ decrypt V round depth m w' = Some w'' /\
      forall k, part_of w m k -> encrypted (mods w' k) = true /\ encrypted (mods w'' k) = false /\ training (mods w'' k) = training (mods w k) /\
        (class (mods w k) <> Fixed -> forall name i, In (name, i) (params (mods w k)) -> forall v, held (objects w i) = Plain v ->
          exists j, In (name, j) (params (mods w'' k)) /\ held (objects w'' j) = Plain (fun _ => round (v src)) /\ requires_grad (objects w'' j) = requires_grad (objects w i)).
  Proof. exact (k_C82_round_trip V round). Qed.
  (** C83: train and eval reach every module below; they set requires_grad of all its parameters and change no contents *)
  Theorem C83_train : forall mode m (w : world), acyclic w -> ready V (fun k => children (mods w k)) m w ->
    exists N, forall depth, N <= depth -> exists w', train V inv_std inv_std_enc depth mode m w = Some w' /\
      (forall i, held (objects w' i) = held (objects w i)) /\
      (forall k, part_of w m k -> let r := mods w k in let r' := mods w' k in
        class r' = class r /\ params r' = params r /\ buffers r' = buffers r /\ children r' = children r /\ encrypted r' = encrypted r /\ training r' = mode /\
        (forall name i, In (name, i) (params r) -> requires_grad (objects w' i) = mode) /\
        (class r <> Norm -> inv_var r' = inv_var r) /\ (class r = Norm -> mode = true -> inv_var r' = None) /\
        (class r = Norm -> mode = false -> forall i, get "running_var" (buffers r) = Some i ->
          inv_var r' = match held (objects w i) with Plain v => Some (Plain (fun p => inv_std (v p))) | Encrypted v => Some (Encrypted (inv_std_enc v)) | Other => inv_var r' end)) /\
      (forall k, ~ part_of w m k -> mods w' k = mods w k) /\ (forall i, (forall k, part_of w m k -> ~ In i (map snd (params (mods w k)))) -> objects w' i = objects w i).
  Proof. exact (k_C83_train V inv_std inv_std_enc). Qed.
  (** C83: after any sequence of encrypt, decrypt, train and eval calls on a model, its state is that of the last calls *)
  Theorem C83_history : forall m (w : world) e, acyclic w -> (forall k, proper V w k) -> class (mods w m) <> Fixed -> (forall k, part_of w m k -> encrypted (mods w k) = e) -> ready V (fun k => children (mods w k)) m w ->
    exists N, forall depth, N <= depth -> forall l, exists w', run_calls V round inv_std inv_std_enc depth m l w = Some w' /\
      forall k, part_of w m k -> let r := mods w k in let r' := mods w' k in
        class r' = class r /\ encrypted r' = flag_after l e /\ training r' = training_after l (training r) /\
        (class r <> Fixed -> Forall2 (fun p p' => fst p' = fst p /\ held (objects w' (snd p')) = content_after l (held (objects w (snd p))) /\ requires_grad (objects w' (snd p')) = training_after l (requires_grad (objects w (snd p)))) (params r) (params r') /\
          Forall2 (fun p p' => fst p' = fst p /\ held (objects w' (snd p')) = content_after l (held (objects w (snd p)))) (buffers r) (buffers r')) /\
        (class r = Norm -> forall i, get "running_var" (buffers r) = Some i -> exists i', get "running_var" (buffers r') = Some i' /\ (held (objects w' i'), inv_var r') = kept_after l (held (objects w i)) (inv_var r)).
  Proof. exact (k_C83_history V round inv_std inv_std_enc). Qed.
End Claims.
Print Assumptions C82_encrypt.
Print Assumptions C82_again.
Print Assumptions C82_round_trip.
Print Assumptions C83_train.
Print Assumptions C83_history.
Open Scope Z_scope.
Open Scope string_scope.
(** C82 refuted: encrypt on an encrypted model does not encrypt a module added since *)
Theorem C82_late_child_refuted : exists (w : world Z) m k, acyclic Z w /\ (forall k, proper Z w k) /\ part_of Z w m k /\
  forall depth, (0 < depth)%nat -> exists w', encrypt Z even_part depth true 0 m w = Some w' /\ encrypted (mods w' k) = false /\ exists i v, get "weight" (params (mods w' k)) = Some i /\ held (objects w' i) = Plain v.
Proof. exact k_C82_late_child_refuted. Qed.
Print Assumptions C82_late_child_refuted.
(** C82 refuted: encrypt reveals a buffer that is already encrypted *)
Theorem C82_buffer_refuted : exists (w : world Z) m i v, get "mean" (buffers (mods w m)) = Some i /\ held (objects w i) = Encrypted v /\
  exists w', encrypt Z even_part 3 true 0 m w = Some w' /\ encrypted (mods w' m) = true /\ exists j, get "mean" (buffers (mods w' m)) = Some j /\ held (objects w' j) = Plain (fun _ => v).
Proof. exact k_C82_buffer_refuted. Qed.
Print Assumptions C82_buffer_refuted.
(** C82 refuted: a weight shared by two modules becomes two independent tensors *)
Theorem C82_tied_refuted : exists (w : world Z) m k, acyclic Z w /\ (forall k, proper Z w k) /\ part_of Z w m k /\ get "weight" (params (mods w m)) = get "weight" (params (mods w k)) /\
  exists w' i j, encrypt Z even_part 4 true 0 m w = Some w' /\ get "weight" (params (mods w' m)) = Some i /\ get "weight" (params (mods w' k)) = Some j /\ i <> j.
Proof. exact k_C82_tied_refuted. Qed.
Print Assumptions C82_tied_refuted.
(** C83 refuted: after eval and encrypt the parties normalise with their own plaintext deviations, and not with that of the source *)
Theorem C83_frozen_refuted : exists (w : world Z) m k, acyclic Z w /\ (forall k, proper Z w k) /\ part_of Z w m k /\ encrypted (mods w m) = false /\
  forall inv_std inv_std_enc, exists w', run_calls Z even_part inv_std inv_std_enc 5 m [Eval; Encrypt 0] w = Some w' /\ encrypted (mods w' k) = true /\ training (mods w' k) = false /\
    (exists i, get "running_var" (buffers (mods w' k)) = Some i /\ held (objects w' i) = Encrypted 10) /\ exists f, inv_var (mods w' k) = Some (Plain f) /\ f 0%nat = inv_std 10 /\ f 1%nat = inv_std 11.
Proof. exact k_C83_frozen_refuted. Qed.
Print Assumptions C83_frozen_refuted.
(** C83 refuted: train makes a weight trainable that had been frozen *)
Theorem C83_freeze_refuted : exists (w : world Z) m i, get "weight" (params (mods w m)) = Some i /\ requires_grad (objects w i) = false /\
  forall inv_std inv_std_enc, exists w', train Z inv_std inv_std_enc 3 true m w = Some w' /\ requires_grad (objects w' i) = true.
Proof. exact k_C83_freeze_refuted. Qed.
Print Assumptions C83_freeze_refuted.

(** Concrete cases: [normed] meets the hypotheses of C82 and C83 and is converted. *)
Example C82_case : acyclic Z normed /\ (forall k, proper Z normed k) /\ encrypted (mods normed 0) = false /\ part_of Z normed 0 1 /\
  match encrypt Z even_part 6 true 1 0 normed with
  | Some w => (encrypted (mods w 1), map (fun p => held (objects w (snd p))) (params (mods w 0)), map (fun p => held (objects w (snd p))) (buffers (mods w 1))) = (true, [Encrypted 6], [Encrypted 10])
  | None => False
  end.
Proof.
  split; [exists (fun k => match k with 0%nat => 1%nat | _ => 0%nat end); intros [|[|k]] c; cbn; [intros [<-|[]]; lia|intros []|intros []]|]. split.
  { intros [|[|k]]; unfold proper, okp, okb; cbn; repeat split; try (repeat constructor; cbn; auto; fail). }
  split; [reflexivity|]. split; [eapply below; [apply here|cbn; auto]|]. reflexivity.
Qed.
Example C83_case : ready Z (fun k => children (mods normed k)) 0 normed /\
  match run_calls Z even_part (fun v => 100 - v) (fun v => 200 - v) 6 0 [Eval; Encrypt 1; Eval; Train; Eval] normed with
  | Some w => (training (mods w 1), inv_var (mods w 1), map (fun p => requires_grad (objects w (snd p))) (params (mods w 0))) = (false, Some (Encrypted 190), [false])
  | None => False
  end.
Proof.
  split; [|vm_compute; reflexivity]. intros k R N. assert (E : k = 0%nat \/ k = 1%nat).
  { induction R as [|k c R IH H]; [auto|]. destruct k as [|[|k]]; cbn in H; [destruct H as [<-|[]]; auto|destruct H|destruct H]. }
  destruct E as [->| ->]; [discriminate|]. exists 1%nat. split; [reflexivity|discriminate].
Qed.

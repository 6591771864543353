(** C41: base oblivious transfer. *)
Require Import ZArith List Lia.
From Verif Require Import Ot Ot_proofs Ot_order.
Import ListNotations.
Open Scope Z_scope.

(** a hash function whose hexadecimal digest has 64 characters *)
Definition digest64 (H : Z -> list Z) : Prop := forall x, length (H x) = 64%nat.
(** of each pair the one chosen *)
Fixpoint picked (m0s m1s : list (list Z)) (choices : list bool) : list (list Z) :=
  match m0s, m1s, choices with m0 :: m0s, m1 :: m1s, c :: choices => (if c : bool then m1 else m0) :: picked m0s m1s choices | _, _, _ => [] end.
Definition at_most_64 (m : list Z) : Prop := (length m <= 64)%nat.

Theorem C41_receives_chosen : forall H alphas betas m0s m1s choices, digest64 H -> Forall (fun a => 0 <= a < prime) alphas -> Forall (fun b => 0 <= b < prime) betas ->
  length alphas = length choices -> length betas = length choices -> length m0s = length choices -> length m1s = length choices ->
  Forall at_most_64 m0s -> Forall at_most_64 m1s -> transfer H alphas betas m0s m1s choices = Some (picked m0s m1s choices).
Proof.
  intros H alphas betas m0s m1s choices HH Fa Fb. apply transfer_ok; [exact HH| |].
  - eapply Forall_impl; [|exact Fa]. intros a Ha. apply Ha.
  - eapply Forall_impl; [|exact Fb]. intros a Ha. apply Ha.
Qed.
(** A message of more than 64 characters makes the sender raise: nothing is received.  So do lists of different lengths. *)
Theorem C41_too_long : forall H alphas betas m0s m1s choices, digest64 H ->
  length alphas = length choices -> length betas = length choices -> length m0s = length choices -> length m1s = length choices ->
  ~ (Forall at_most_64 m0s /\ Forall at_most_64 m1s) -> transfer H alphas betas m0s m1s choices = None.
Proof. intros H alphas betas m0s m1s choices HH. apply transfer_none. exact HH. Qed.
Theorem C41_inconsistent : forall H alphas betas m0s m1s choices, length m0s <> length m1s -> transfer H alphas betas m0s m1s choices = None.
Proof. intros H alphas betas m0s m1s choices D. unfold transfer. apply Nat.eqb_neq in D. now rewrite D. Qed.
(** The pad on the other message is the hash of a different number than the receiver's key, except when g^(alpha^2) = 1. *)
Theorem C41_other_pad : forall alpha beta (c : bool), 0 <= alpha -> 0 <= beta -> let cm := choice_mask beta c (mask1 alpha) in
  (if c then key0 alpha cm else key1 alpha cm) = own_key beta (mask1 alpha) <-> generator ^ (alpha * alpha) mod prime = 1.
Proof. intros alpha beta c Ha Hb. exact (other_key alpha beta c Ha Hb). Qed.
(** That can happen only for multiples of 3432591758899352: for all other draws the two pads are hashes of different numbers. *)
Theorem C41_pads_differ : forall alpha beta (c : bool), 0 <= alpha -> 0 <= beta -> alpha mod 3432591758899352 <> 0 -> let cm := choice_mask beta c (mask1 alpha) in
  (if c then key1 alpha cm else key0 alpha cm) = own_key beta (mask1 alpha) /\ (if c then key0 alpha cm else key1 alpha cm) <> own_key beta (mask1 alpha).
Proof.
  intros alpha beta c Ha Hb Hm cm. split; [destruct c; [now apply key1_chosen|now apply key0_plain]|].
  intros E. apply (other_key alpha beta c Ha Hb) in E. apply degenerate_multiple in E; [|assumption]. apply Hm. apply Znumtheory.Zdivide_mod. exact E.
Qed.
(** [randint(0, prime - 1)] can return [0] and [prime - 1]; with either the receiver can decrypt both messages of the pair. *)
Theorem C41_both_messages_refuted : exists alphas, alphas = [0; prime - 1] /\ Forall (fun alpha => 0 <= alpha <= prime - 1 /\
  forall H beta c m0 m1, digest64 H -> 0 <= beta -> at_most_64 m0 -> at_most_64 m1 ->
    exists enc, encrypt H alpha (choice_mask beta c (mask1 alpha)) m0 m1 = Some enc /\ decrypt H beta false (mask1 alpha) enc = m0 /\ decrypt H beta true (mask1 alpha) enc = m1) alphas.
Proof.
  eexists. split; [reflexivity|].
  assert (G : forall alpha, 0 <= alpha -> generator ^ (alpha * alpha) mod prime = 1 -> forall H beta c m0 m1, digest64 H -> 0 <= beta -> at_most_64 m0 -> at_most_64 m1 ->
    exists enc, encrypt H alpha (choice_mask beta c (mask1 alpha)) m0 m1 = Some enc /\ decrypt H beta false (mask1 alpha) enc = m0 /\ decrypt H beta true (mask1 alpha) enc = m1).
  { intros alpha Ha E H beta c m0 m1 HH Hb S0 S1. eexists. split; [apply encrypt_some; assumption|].
    pose proof (decrypt_ok H HH alpha beta c m0 m1 Ha Hb S0 S1) as D1. pose proof (decrypt_other H HH alpha beta c m0 m1 Ha Hb S0 S1 E) as D2.
    destruct c; cbn [negb] in *; auto. }
  constructor; [|constructor; [|constructor]].
  - split; [split; vm_compute; discriminate|]. apply G; [lia|]. reflexivity.
  - split; [split; vm_compute; discriminate|]. apply G; [vm_compute; discriminate|].
    rewrite <- pow3_eq by (vm_compute; discriminate). vm_compute. reflexivity.
Qed.

Print Assumptions C41_receives_chosen.
Print Assumptions C41_too_long.
Print Assumptions C41_inconsistent.
Print Assumptions C41_other_pad.
Print Assumptions C41_pads_differ.
Print Assumptions C41_both_messages_refuted.

(** a stand-in for SHA-256: the 64 low decimal digits *)
Definition toy_digest (x : Z) : list Z := map (fun i => 48 + (x / 10 ^ Z.of_nat i) mod 10) (seq 0 64).
Example toy_digest64 : digest64 toy_digest. Proof. intros x. apply map_length. Qed.
(** Three pairs ("ab"/"xyz", ...), different choices, exponents near the ends of their range. *)
Example C41_case : transfer toy_digest [123456789123456789; prime - 2; 7] [987654321; 1; prime - 1] [[97; 98]; [99]; [100; 8364]] [[120; 121; 122]; []; [101]] [true; false; false]
  = Some [[120; 121; 122]; [99]; [100; 8364]].
Proof. vm_compute. reflexivity. Qed.
Example C41_case_other : let cm := choice_mask 5 true (mask1 7) in key0 7 cm <> own_key 5 (mask1 7).
Proof. vm_compute. discriminate. Qed.

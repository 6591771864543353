(** Proofs about the base oblivious transfer. *)
Require Import ZArith List Lia Zpow_facts.
From Verif Require Import Ot.
Import ListNotations.
Open Scope Z_scope.

Lemma pow3_eq b e : 0 <= e -> pow3 b e prime = b ^ e mod prime.
Proof. intros He. unfold pow3. apply Zpow_mod_correct. discriminate. Qed.
Lemma prime_pos : 0 < prime. Proof. reflexivity. Qed.
Lemma fermat : generator ^ (prime - 1) mod prime = 1.
Proof. rewrite <- pow3_eq by (vm_compute; discriminate). vm_compute. reflexivity. Qed.
Lemma pow_mod_base a e : 0 <= e -> (a mod prime) ^ e mod prime = a ^ e mod prime.
Proof. intros He. symmetry. apply Zpower_mod. exact prime_pos. Qed.
Lemma inverse_ok : (generator * inverse_generator) mod prime = 1.
Proof. vm_compute. reflexivity. Qed.
(** powers of the inverse undo powers of the generator *)
Lemma inverse_pow e : 0 <= e -> (generator ^ e * inverse_generator ^ e) mod prime = 1.
Proof.
  intros He. rewrite <- Z.pow_mul_l. rewrite <- pow_mod_base, inverse_ok by assumption. rewrite Z.pow_1_l by assumption. reflexivity.
Qed.
Lemma period P g e : 1 < P -> g ^ (P - 1) mod P = 1 -> 0 <= e -> g ^ e mod P = g ^ (e mod (P - 1)) mod P.
Proof.
  intros HP F He. rewrite (Z.div_mod e (P - 1)) at 1 by lia. pose proof (Z.mod_pos_bound e (P - 1) ltac:(lia)).
  assert (0 <= e / (P - 1)) by (apply Z.div_pos; lia). assert (0 <= (P - 1) * (e / (P - 1))) by (apply Z.mul_nonneg_nonneg; lia).
  rewrite Z.pow_add_r by lia. rewrite Z.pow_mul_r by lia. rewrite Z.mul_mod by lia. rewrite Zpower_mod by lia. rewrite F. rewrite Z.pow_1_l by lia.
  rewrite <- Z.mul_mod by lia. now rewrite Z.mul_1_l.
Qed.
Lemma generator_period e : 0 <= e -> generator ^ e mod prime = generator ^ (e mod (prime - 1)) mod prime.
Proof. intros He. apply period; [reflexivity|exact fermat|exact He]. Qed.

Lemma key0_plain alpha beta : 0 <= alpha -> 0 <= beta -> key0 alpha (choice_mask beta false (mask1 alpha)) = own_key beta (mask1 alpha).
Proof.
  intros Ha Hb. unfold key0, own_key, choice_mask, mask1. cbv zeta. rewrite !pow3_eq by assumption. rewrite !pow_mod_base by assumption.
  rewrite <- !Z.pow_mul_r by assumption. now rewrite (Z.mul_comm alpha).
Qed.
Lemma key0_chosen alpha beta : 0 <= alpha -> 0 <= beta ->
  key0 alpha (choice_mask beta true (mask1 alpha)) = (generator ^ (alpha * beta) * generator ^ (alpha * alpha)) mod prime.
Proof.
  intros Ha Hb. unfold key0, choice_mask, mask1. cbv zeta. rewrite !pow3_eq by assumption. rewrite <- Z.mul_mod by discriminate. rewrite pow_mod_base by assumption.
  rewrite Z.pow_mul_l, <- !Z.pow_mul_r by assumption. now rewrite (Z.mul_comm beta).
Qed.
Lemma own_key_eq alpha beta : 0 <= alpha -> 0 <= beta -> own_key beta (mask1 alpha) = generator ^ (alpha * beta) mod prime.
Proof. intros Ha Hb. unfold own_key, mask1. rewrite !pow3_eq by assumption. rewrite pow_mod_base by assumption. now rewrite <- Z.pow_mul_r by assumption. Qed.
(** the divider is the inverse of g^(alpha^2) *)
Lemma divider_ok alpha : 0 <= alpha -> (generator ^ (alpha * alpha) * divider alpha) mod prime = 1.
Proof.
  intros Ha. unfold divider. pose proof (Z.mod_pos_bound (alpha * alpha) (prime - 1) eq_refl) as B. rewrite pow3_eq by lia.
  rewrite Z.mul_mod, generator_period, <- Z.mul_mod_idemp_r by (discriminate || (apply Z.mul_nonneg_nonneg; assumption)).
  rewrite !Z.mod_mod by discriminate. rewrite <- Z.mul_mod by discriminate. apply inverse_pow. lia.
Qed.
Lemma key1_chosen alpha beta : 0 <= alpha -> 0 <= beta -> key1 alpha (choice_mask beta true (mask1 alpha)) = own_key beta (mask1 alpha).
Proof.
  intros Ha Hb. unfold key1. rewrite key0_chosen, own_key_eq by assumption. rewrite Z.mul_mod_idemp_l by discriminate.
  rewrite <- Z.mul_assoc. rewrite <- Z.mul_mod_idemp_r by discriminate. rewrite divider_ok by assumption. now rewrite Z.mul_1_r.
Qed.

Lemma string_xor_twice k m : (length m <= length k)%nat -> string_xor k (string_xor k m) = m.
Proof.
  revert m. induction k as [|a k IH]; intros [|b m] L; cbn [length string_xor] in *; try reflexivity; try lia.
  rewrite IH by lia. rewrite <- Z.lxor_assoc, Z.lxor_nilpotent, Z.lxor_0_l. reflexivity.
Qed.

Section Ot.
  Variable H : Z -> list Z.
  Hypothesis H64 : forall x, length (H x) = 64%nat.
  Definition short (m : list Z) : Prop := (length m <= 64)%nat.
  Fixpoint chosen (m0s m1s : list (list Z)) (choices : list bool) : list (list Z) :=
    match m0s, m1s, choices with m0 :: m0s, m1 :: m1s, c :: choices => (if c : bool then m1 else m0) :: chosen m0s m1s choices | _, _, _ => [] end.

  Lemma encrypt_some alpha cm m0 m1 : short m0 -> short m1 -> encrypt H alpha cm m0 m1 = Some (string_xor (H (key0 alpha cm)) m0, string_xor (H (key1 alpha cm)) m1).
  Proof.
    intros A B. unfold encrypt, short in *. cbv zeta. rewrite !H64. destruct (Nat.ltb_spec 64 (length m0)); [lia|]. destruct (Nat.ltb_spec 64 (length m1)); [lia|]. reflexivity.
  Qed.
  Lemma encrypt_none alpha cm m0 m1 : ~ (short m0 /\ short m1) -> encrypt H alpha cm m0 m1 = None.
  Proof.
    intros A. unfold encrypt, short in *. cbv zeta. rewrite !H64. destruct (Nat.ltb_spec 64 (length m0)); [reflexivity|]. destruct (Nat.ltb_spec 64 (length m1)); [reflexivity|]. tauto.
  Qed.
  Lemma decrypt_ok alpha beta c m0 m1 : 0 <= alpha -> 0 <= beta -> short m0 -> short m1 ->
    decrypt H beta c (mask1 alpha) (string_xor (H (key0 alpha (choice_mask beta c (mask1 alpha)))) m0, string_xor (H (key1 alpha (choice_mask beta c (mask1 alpha)))) m1) = if c then m1 else m0.
  Proof.
    intros Ha Hb A B. unfold decrypt, short in *. destruct c; cbn [fst snd].
    - rewrite key1_chosen by assumption. apply string_xor_twice. now rewrite H64.
    - rewrite key0_plain by assumption. apply string_xor_twice. now rewrite H64.
  Qed.
  Lemma transfer_ok alphas betas m0s m1s choices : Forall (fun a => 0 <= a) alphas -> Forall (fun b => 0 <= b) betas ->
    length alphas = length choices -> length betas = length choices -> length m0s = length choices -> length m1s = length choices ->
    Forall short m0s -> Forall short m1s -> transfer H alphas betas m0s m1s choices = Some (chosen m0s m1s choices).
  Proof.
    intros Fa Fb La Lb L0 L1 F0 F1. unfold transfer. rewrite L0, L1, Nat.eqb_refl. cbn [negb]. cbv zeta.
    revert betas m0s m1s choices Fb La Lb L0 L1 F0 F1. induction Fa as [|a alphas Ha Fa IH]; intros betas m0s m1s choices Fb La Lb L0 L1 F0 F1.
    - destruct choices; [|discriminate]. destruct betas, m0s, m1s; try discriminate. reflexivity.
    - destruct choices as [|c choices]; [discriminate|]. destruct betas as [|b betas]; [discriminate|]. destruct m0s as [|m0 m0s]; [discriminate|]. destruct m1s as [|m1 m1s]; [discriminate|].
      inversion Fb as [|? ? Hb Fb']; subst. inversion F0 as [|? ? S0 F0']; subst. inversion F1 as [|? ? S1 F1']; subst.
      cbn [map receiver_masks sender_encrypts]. rewrite encrypt_some by assumption.
      injection La as La. injection Lb as Lb. injection L0 as L0. injection L1 as L1.
      specialize (IH betas m0s m1s choices Fb' La Lb L0 L1 F0' F1'). destruct (sender_encrypts _ _ _ _ _) as [es|]; [|discriminate]. cbn [option_map] in *.
      cbn [receiver_decrypts chosen]. rewrite decrypt_ok by assumption. injection IH as ->. reflexivity.
  Qed.
  Lemma transfer_none alphas betas m0s m1s choices : length alphas = length choices -> length betas = length choices -> length m0s = length choices -> length m1s = length choices ->
    ~ (Forall short m0s /\ Forall short m1s) -> transfer H alphas betas m0s m1s choices = None.
  Proof.
    intros La Lb L0 L1 F. unfold transfer. rewrite L0, L1, Nat.eqb_refl. cbn [negb]. cbv zeta.
    assert (E : sender_encrypts H alphas (receiver_masks betas choices (map mask1 alphas)) m0s m1s = None); [|now rewrite E].
    revert betas m0s m1s choices La Lb L0 L1 F. induction alphas as [|a alphas IH]; intros betas m0s m1s choices La Lb L0 L1 F.
    - destruct choices; [|discriminate]. destruct m0s, m1s; try discriminate. exfalso. apply F. split; constructor.
    - destruct choices as [|c choices]; [discriminate|]. destruct betas as [|b betas]; [discriminate|]. destruct m0s as [|m0 m0s]; [discriminate|]. destruct m1s as [|m1 m1s]; [discriminate|].
      cbn [map receiver_masks sender_encrypts].
      injection La as La. injection Lb as Lb. injection L0 as L0. injection L1 as L1.
      assert (D : (short m0 /\ short m1) \/ ~ (short m0 /\ short m1)) by (unfold short; lia). destruct D as [[S0 S1]|N].
      + rewrite encrypt_some by assumption. rewrite IH; [reflexivity|assumption..|]. intros [X Y]. apply F. split; now constructor.
      + now rewrite encrypt_none.
  Qed.
  (** The pad of the message that was not chosen has the receiver's own key exactly when g^(alpha^2) = 1. *)
  Lemma other_key alpha beta c : 0 <= alpha -> 0 <= beta ->
    (if c : bool then key0 alpha (choice_mask beta c (mask1 alpha)) else key1 alpha (choice_mask beta c (mask1 alpha))) = own_key beta (mask1 alpha) <->
    generator ^ (alpha * alpha) mod prime = 1.
  Proof.
    intros Ha Hb. assert (Hab : 0 <= alpha * beta) by (now apply Z.mul_nonneg_nonneg).
    assert (Cancel : forall x y, (generator ^ (alpha * beta) * x) mod prime = (generator ^ (alpha * beta) * y) mod prime -> x mod prime = y mod prime).
    { intros x y E. apply (f_equal (fun t => (inverse_generator ^ (alpha * beta) * t) mod prime)) in E.
      rewrite !Z.mul_mod_idemp_r, !Z.mul_assoc in E by discriminate. rewrite (Z.mul_comm (inverse_generator ^ _)) in E.
      rewrite <- (Z.mul_mod_idemp_l _ x), <- (Z.mul_mod_idemp_l _ y), inverse_pow, !Z.mul_1_l in E by (assumption || discriminate). exact E. }
    destruct c.
    - rewrite key0_chosen, own_key_eq by assumption. split.
      + intros E. rewrite <- (Z.mul_1_r (generator ^ (alpha * beta))) in E at 2. apply Cancel in E. exact E.
      + intros E. rewrite <- Z.mul_mod_idemp_r, E, Z.mul_1_r by discriminate. reflexivity.
    - unfold key1. rewrite key0_plain, own_key_eq by assumption. rewrite Z.mul_mod_idemp_l by discriminate. pose proof (divider_ok alpha Ha) as D. split.
      + intros E. rewrite <- (Z.mul_1_r (generator ^ (alpha * beta))) in E at 2. apply Cancel in E. rewrite <- Z.mul_mod_idemp_r, E, Z.mul_mod_idemp_r, Z.mul_1_r in D by discriminate. exact D.
      + intros E. rewrite <- Z.mul_mod_idemp_l, E, Z.mul_1_l in D by discriminate. rewrite <- Z.mul_mod_idemp_r, D, Z.mul_1_r by discriminate. reflexivity.
  Qed.
  (** What the receiver obtains by decrypting the message it did not choose. *)
  Lemma decrypt_other alpha beta c m0 m1 : 0 <= alpha -> 0 <= beta -> short m0 -> short m1 -> generator ^ (alpha * alpha) mod prime = 1 ->
    decrypt H beta (negb c) (mask1 alpha) (string_xor (H (key0 alpha (choice_mask beta c (mask1 alpha)))) m0, string_xor (H (key1 alpha (choice_mask beta c (mask1 alpha)))) m1) = if c then m0 else m1.
  Proof.
    intros Ha Hb S0 S1 E. pose proof (proj2 (other_key alpha beta c Ha Hb) E) as K. unfold decrypt. destruct c; cbn [negb fst snd].
    - rewrite K. apply string_xor_twice. unfold short in *. now rewrite H64.
    - rewrite K. apply string_xor_twice. unfold short in *. now rewrite H64.
  Qed.
End Ot.

(** Claims about encrypt, decrypt, train and eval of modules *)
Require Import List String Bool Arith ZArith Lia.
From Verif Require Import Modstate Modstate_proofs.
Import ListNotations.

Section Claims.
  Variable V : Type.
  Variable round : V -> V.
  Variables inv_std inv_std_enc : V -> V.
  Notation world := (world V). Notation content := (content V).

  (** modules are not their own descendants *)
  Definition acyclic (w : world) : Prop := exists rank : nat -> nat, forall k c, In c (children (mods w k)) -> rank c < rank k.
  (** [k] is [m] or below it *)
  Definition part_of (w : world) (m k : nat) : Prop := reach (fun k => children (mods w k)) m k.

  Lemma module_same mode src (w w' : world) k : ext V w w' -> proper V w k -> mods w' k = mods w k -> encrypted (mods w k) = mode -> module_after V round mode src w w' k.
  Proof.
    intros X (A & B & C) Q E. unfold module_after. rewrite Q. do 4 (split; [reflexivity|]). split; [assumption|]. split; [auto|].
    intros F. destruct (C F) as [C1 C2]. rewrite E in C1, C2. split; [apply entries_same|apply entries_same_b]; assumption.
  Qed.

  (** C82: encrypt and decrypt reach every module below, and convert its parameters and buffers *)
  Lemma k_C82_encrypt mode src m (w : world) : acyclic w -> (forall k, proper V w k) -> class (mods w m) <> Fixed -> encrypted (mods w m) <> mode ->
    exists N, forall depth, N <= depth -> exists w', encrypt V round depth mode src m w = Some w' /\
      (forall k, part_of w m k -> module_after V round mode src w w' k) /\ (forall k, ~ part_of w m k -> mods w' k = mods w k) /\ (forall i, i < next w -> objects w' i = objects w i).
  Proof.
    intros [rank Hr] P F E. exists (rank m + 2). intros depth L.
    destruct (encrypt_spec V round _ rank Hr mode src depth m L w P (fun k => eq_refl)) as (w' & E1 & [S U] & _ & _ & A). specialize (A E F).
    exists w'. split; [assumption|]. split; [|split].
    - intros k R. pose proof (A k R) as Q. destruct S as (X & _ & S). destruct (S k) as [Z|Z]; [|assumption]. apply module_same; auto. congruence.
    - intros k R. apply U. exact R.
    - apply S.
  Qed.
  (** C82: a module already in the asked state is left alone, and so is everything below it *)
  Lemma k_C82_again mode src m (w : world) depth : class (mods w m) <> Fixed -> encrypted (mods w m) = mode -> encrypt V round (S depth) mode src m w = Some w.
  Proof. intros F E. apply encrypt_noop; assumption. Qed.

  Lemma reach_same (ch ch' : nat -> list nat) m k : (forall j, ch' j = ch j) -> reach ch m k -> reach ch' m k.
  Proof. intros H R. induction R as [|k c R IH I]; [apply here|]. eapply below; [exact IH|]. rewrite H. exact I. Qed.

  (** C82: encrypting and decrypting gives every party the rounded tensors of the source *)
  Lemma k_C82_round_trip src m (w : world) : acyclic w -> (forall k, proper V w k) -> class (mods w m) <> Fixed -> encrypted (mods w m) = false ->
    exists N, forall depth, N <= depth -> exists w' w'', encrypt V round depth true src m w = Some w' /\ decrypt V round depth m w' = Some w'' /\
      forall k, part_of w m k -> encrypted (mods w' k) = true /\ encrypted (mods w'' k) = false /\ training (mods w'' k) = training (mods w k) /\
        (class (mods w k) <> Fixed -> forall name i, In (name, i) (params (mods w k)) -> forall v, held (objects w i) = Plain v ->
          exists j, In (name, j) (params (mods w'' k)) /\ held (objects w'' j) = Plain (fun _ => round (v src)) /\ requires_grad (objects w'' j) = requires_grad (objects w i)).
  Proof.
    intros [rank Hr] P F E. exists (rank m + 2). intros depth L.
    destruct (encrypt_spec V round _ rank Hr true src depth m L w P (fun k => eq_refl)) as (w' & E1 & [S U] & Fl & _ & A). specialize (A ltac:(congruence) F).
    assert (Sh : shaped V (fun k => children (mods w k)) w') by (intros k; apply (step_children _ _ _ _ _ _ k S)).
    assert (F' : class (mods w' m) <> Fixed) by (destruct (proj2 (proj2 S) m) as [Z|(Z & _)]; congruence).
    destruct (encrypt_spec V round _ rank Hr false 0 depth m L w' (proj1 (proj2 S)) Sh) as (w'' & E2 & [S2 U2] & Fl2 & _ & A2). specialize (A2 ltac:(congruence) F').
    exists w', w''. split; [exact E1|]. split; [exact E2|]. intros k R. split; [apply A; exact R|]. split; [apply A2; exact R|].
    assert (M1 : module_after V round true src w w' k).
    { destruct S as (X & _ & S). destruct (S k) as [Z|Z]; [|exact Z]. apply module_same; auto. rewrite <- Z. apply A. exact R. }
    assert (M2 : module_after V round false 0 w' w'' k).
    { destruct S2 as (X & _ & S2). destruct (S2 k) as [Z|Z]; [|exact Z]. apply module_same; auto; [apply S|]. rewrite <- Z. apply A2. exact R. }
    destruct M1 as (B1 & _ & B2 & _ & _ & _ & B3), M2 as (C1 & _ & C2 & _ & _ & _ & C3). split; [congruence|]. intros Fk name i Hi v Hv.
    destruct (B3 Fk) as [B4 _]. destruct C3 as [C4 _]; [congruence|].
    assert (G : forall a b, Forall2 (entry_after V round true true src w w') a b -> forall c, Forall2 (entry_after V round true false 0 w' w'') b c -> In (name, i) a -> exists j, In (name, j) c /\ held (objects w'' j) = Plain (fun _ => round (v src)) /\ requires_grad (objects w'' j) = requires_grad (objects w i)).
    { induction 1 as [|p p' a b (P1 & P2 & P3) G IH]; intros c H I; [destruct I|]. inversion H as [|? p'' ? c' (Q1 & Q2 & Q3) Hc]; subst. destruct I as [->|I].
      - cbn [fst snd] in *. rewrite Hv in P2. cbn in P2. rewrite P2 in Q2. cbn in Q2. exists (snd p''). split; [left; destruct p''; cbn in *; congruence|]. split; [exact Q2|]. rewrite Q3, P3 by auto. reflexivity.
      - destruct (IH c' Hc I) as (j & J1 & J2). exists j. split; [right; exact J1|exact J2]. }
    eapply G; eauto.
  Qed.

  (** C83: train and eval reach every module below; they set requires_grad of all its parameters and change no contents *)
  Lemma k_C83_train mode m (w : world) : acyclic w -> ready V (fun k => children (mods w k)) m w ->
    exists N, forall depth, N <= depth -> exists w', train V inv_std inv_std_enc depth mode m w = Some w' /\
      (forall i, held (objects w' i) = held (objects w i)) /\
      (forall k, part_of w m k -> let r := mods w k in let r' := mods w' k in
        class r' = class r /\ params r' = params r /\ buffers r' = buffers r /\ children r' = children r /\ encrypted r' = encrypted r /\ training r' = mode /\
        (forall name i, In (name, i) (params r) -> requires_grad (objects w' i) = mode) /\
        (class r <> Norm -> inv_var r' = inv_var r) /\ (class r = Norm -> mode = true -> inv_var r' = None) /\
        (class r = Norm -> mode = false -> forall i, get "running_var" (buffers r) = Some i ->
          inv_var r' = match held (objects w i) with Plain v => Some (Plain (fun p => inv_std (v p))) | Encrypted v => Some (Encrypted (inv_std_enc v)) | Other => inv_var r' end)) /\
      (forall k, ~ part_of w m k -> mods w' k = mods w k) /\ (forall i, (forall k, part_of w m k -> ~ In i (map snd (params (mods w k)))) -> objects w' i = objects w i).
  Proof.
    intros [rank Hr] Rd. exists (S (rank m)). intros depth L.
    destruct (train_spec V inv_std inv_std_enc _ rank Hr mode depth m L w (fun k => eq_refl) Rd) as (w' & E & T & Fi & U1 & U2).
    exists w'. split; [assumption|]. split; [apply T|]. split; [|split].
    - intros k R. destruct T as (_ & T1 & T2 & T3). destruct (T3 k) as (C1 & C2 & C3 & C4 & C5 & C6 & C7). destruct (Fi k R) as (F1 & F2 & F3). do 5 (split; [assumption|]). split; [assumption|]. split; [|split; [|split]].
      + intros name i Hi. apply F2. rewrite C2. apply (in_map snd) in Hi. exact Hi.
      + intros N. destruct C7 as [|[]]; [assumption|contradiction].
      + intros N ->. rewrite C1 in F3. specialize (F3 N). cbn in F3. congruence.
      + intros N -> i Hi. rewrite C1 in F3. specialize (F3 N). unfold frozen in F3. rewrite C3, Hi in F3. cbn in F3. rewrite T1 in F3. destruct (held (objects w i)); [congruence|congruence|reflexivity].
    - exact U1.
    - intros i Hi. apply U2. intros (k & K1 & K2). exact (Hi k K1 K2).
  Qed.

  (** any sequence of calls *)
  Definition flag_after (l : list call) (e : bool) : bool := fold_left (fun e c => match c with Encrypt _ => true | Decrypt => false | _ => e end) l e.
  Definition training_after (l : list call) (t : bool) : bool := fold_left (fun t c => match c with Train => true | Eval => false | _ => t end) l t.
  Definition content_after (l : list call) (x : content) : content :=
    fold_left (fun x c => match c with Encrypt src => tensor_after V round true src x | Decrypt => tensor_after V round false 0 x | _ => x end) l x.
  Definition inverse (x : content) : content := match x with Plain v => Plain (fun p => inv_std (v p)) | Encrypted v => Encrypted (inv_std_enc v) | Other => Other end.
  (** the running variance and what is kept of it *)
  Definition kept_after (l : list call) (x : content) (v : option content) : content * option content :=
    fold_left (fun s c => match c with Encrypt src => (tensor_after V round true src (fst s), snd s) | Decrypt => (tensor_after V round false 0 (fst s), snd s) | Train => (fst s, None) | Eval => (fst s, Some (inverse (fst s))) end) l (x, v).

  Section History.
    Variable ch : nat -> list nat.
    Variable rank : nat -> nat.
    Hypothesis Hrank : forall k c, In c (ch k) -> rank c < rank k.
    Variable m : nat.
    Definition inv (e : bool) (w : world) : Prop :=
      (forall k, proper V w k) /\ shaped V ch w /\ class (mods w m) <> Fixed /\ (forall k, reach ch m k -> encrypted (mods w k) = e) /\ ready V ch m w.
    Definition related (l : list call) (w w' : world) : Prop := forall k, reach ch m k ->
      let r := mods w k in let r' := mods w' k in
      class r' = class r /\ encrypted r' = flag_after l (encrypted r) /\ training r' = training_after l (training r) /\
      (class r <> Fixed -> Forall2 (fun p p' => fst p' = fst p /\ held (objects w' (snd p')) = content_after l (held (objects w (snd p))) /\ requires_grad (objects w' (snd p')) = training_after l (requires_grad (objects w (snd p)))) (params r) (params r') /\
        Forall2 (fun p p' => fst p' = fst p /\ held (objects w' (snd p')) = content_after l (held (objects w (snd p)))) (buffers r) (buffers r')) /\
      (class r = Norm -> forall i, get "running_var" (buffers r) = Some i -> exists i', get "running_var" (buffers r') = Some i' /\ (held (objects w' i'), inv_var r') = kept_after l (held (objects w i)) (inv_var r)).
    Lemma Forall2_compose {A B C} (P : A -> B -> Prop) (Q : B -> C -> Prop) (R : A -> C -> Prop) : (forall a b c, P a b -> Q b c -> R a c) -> forall x y, Forall2 P x y -> forall z, Forall2 Q y z -> Forall2 R x z.
    Proof. intros H x y F. induction F; intros z G; inversion G; subst; constructor; eauto. Qed.
    Lemma Forall2_weaken {A B} (P Q : A -> B -> Prop) : (forall a b, P a b -> Q a b) -> forall x y, Forall2 P x y -> Forall2 Q x y.
    Proof. intros H x y F. induction F; constructor; auto. Qed.
    Lemma Forall2_same {A} (P : A -> A -> Prop) l : (forall a, In a l -> P a a) -> Forall2 P l l.
    Proof. induction l; intros H; constructor; [apply H; left; reflexivity|apply IHl; intros; apply H; right; assumption]. Qed.

    Lemma get_names (a b : list (string * nat)) (R : nat -> nat -> Prop) name i : Forall2 (fun p p' => fst p' = fst p /\ R (snd p) (snd p')) a b -> get name a = Some i -> exists j, get name b = Some j /\ R i j.
    Proof.
      induction 1 as [|[n x] [n' y] a b [P1 P2] F IH]; [discriminate|]. cbn in P1, P2 |- *. subst n'. destruct (String.eqb n name); [intros [= <-]; eauto|auto].
    Qed.

    Lemma related_nil w : related [] w w.
    Proof.
      intros k R. cbn. do 3 (split; [reflexivity|]). split; [intros _; split; apply Forall2_same; auto|]. intros _ i Hi. exists i. auto.
    Qed.
    Lemma related_cons c l w w1 w' : related [c] w w1 -> related l w1 w' -> related (c :: l) w w'.
    Proof.
      intros H G k R. destruct (H k R) as (A1 & A2 & A3 & A4 & A5), (G k R) as (B1 & B2 & B3 & B4 & B5). cbv zeta in *.
      split; [congruence|]. split; [rewrite B2, A2; reflexivity|]. split; [rewrite B3, A3; reflexivity|]. split.
      - intros F. destruct (A4 F) as [A6 A7]. destruct B4 as [B6 B7]; [congruence|]. split.
        + refine (Forall2_compose _ _ _ _ _ _ A6 _ B6). intros a b d (P1 & P2 & P3) (Q1 & Q2 & Q3). split; [congruence|]. split; [rewrite Q2, P2; reflexivity|rewrite Q3, P3; reflexivity].
        + refine (Forall2_compose _ _ _ _ _ _ A7 _ B7). intros a b d (P1 & P2) (Q1 & Q2). split; [congruence|]. rewrite Q2, P2. reflexivity.
      - intros N i Hi. destruct (A5 N i Hi) as (j & J1 & J2). destruct (B5 ltac:(congruence) j J1) as (i' & I1 & I2). exists i'. split; [assumption|]. rewrite I2.
        unfold kept_after in *. cbn [fold_left] in J2 |- *. rewrite <- J2. reflexivity.
    Qed.

    Lemma encrypt_call mode src depth e w : rank m + 2 <= depth -> inv e w -> exists w', encrypt V round depth mode src m w = Some w' /\ inv mode w' /\ forall k, reach ch m k -> module_after V round mode src w w' k.
    Proof.
      intros L (P & Sh & F & U & Rd). destruct (encrypt_spec V round _ rank Hrank mode src depth m L w P Sh) as (w' & E1 & [S Un] & Fl & No & A).
      assert (Al : all_flags V ch mode m w').
      { destruct (Bool.bool_dec e mode) as [->|N]; [|apply A; [rewrite (U m (here _ _)); assumption|assumption]].
        rewrite No; [exact U|apply U; apply here|assumption]. }
      assert (M : forall k, reach ch m k -> module_after V round mode src w w' k).
      { intros k R. pose proof (Al k R) as Q. destruct S as (X & _ & S). destruct (S k) as [Z|Z]; [|assumption]. apply module_same; auto. congruence. }
      exists w'. split; [assumption|]. split; [|assumption]. split; [apply S|]. split; [eapply step_shaped; eauto|]. split; [destruct (M m (here _ _)) as (Z & _); congruence|]. split; [exact Al|].
      intros k R N. destruct (M k R) as (Z1 & _ & _ & _ & _ & _ & Z2). rewrite Z1 in N. destruct (Rd k R N) as (i & I1 & I2). destruct Z2 as [_ Z2]; [congruence|].
      destruct (get_names (buffers (mods w k)) (buffers (mods w' k)) (fun i j => held (objects w' j) = tensor_after V round mode src (held (objects w i))) "running_var" i) as (j & J1 & J2).
      { eapply Forall2_weaken; [|exact Z2]. intros p p' (Q1 & Q2 & _). auto. } { exact I1. }
      exists j. split; [assumption|]. rewrite J2. destruct mode, (held (objects w i)); cbn; congruence.
    Qed.
    Lemma module_related (c : call) mode src w w' : (c = Encrypt src /\ mode = true \/ c = Decrypt /\ mode = false /\ src = 0) -> (forall k, reach ch m k -> module_after V round mode src w w' k) -> related [c] w w'.
    Proof.
      intros Hc M k R. destruct (M k R) as (A1 & A2 & A3 & A4 & A5 & A6 & A7). cbv zeta.
      assert (Ct : forall x, content_after [c] x = tensor_after V round mode src x) by (intros x; destruct Hc as [[-> ->]|[-> [-> ->]]]; reflexivity).
      split; [assumption|]. split; [rewrite A5; destruct Hc as [[-> ->]|[-> [-> _]]]; reflexivity|]. split; [rewrite A3; destruct Hc as [[-> _]|[-> _]]; reflexivity|]. split.
      - intros F. destruct (A7 F) as [G1 G2]. split.
        + eapply Forall2_weaken; [|exact G1]. intros p p' (Q1 & Q2 & Q3). split; [assumption|]. rewrite Ct. split; [assumption|]. rewrite Q3 by auto. destruct Hc as [[-> _]|[-> _]]; reflexivity.
        + eapply Forall2_weaken; [|exact G2]. intros p p' (Q1 & Q2 & Q3). split; [assumption|]. rewrite Ct. assumption.
      - intros N i Hi. destruct (A7 ltac:(congruence)) as [_ G2].
        destruct (get_names (buffers (mods w k)) (buffers (mods w' k)) (fun i j => held (objects w' j) = tensor_after V round mode src (held (objects w i))) "running_var" i) as (j & J1 & J2).
        { eapply Forall2_weaken; [|exact G2]. intros p p' (Q1 & Q2 & _). auto. } { exact Hi. }
        exists j. split; [assumption|]. rewrite J2, A4. destruct Hc as [[-> ->]|[-> [-> ->]]]; reflexivity.
    Qed.
    Lemma train_call mode depth e w : rank m < depth -> inv e w -> exists w', train V inv_std inv_std_enc depth mode m w = Some w' /\ inv e w' /\ related [if mode then Train else Eval] w w'.
    Proof.
      intros L (P & Sh & F & U & Rd). destruct (train_spec V inv_std inv_std_enc _ rank Hrank mode depth m L w Sh Rd) as (w' & E & T & Fi & U1 & U2).
      exists w'. split; [assumption|]. destruct T as (T0 & T1 & T2 & T3). split.
      - split; [|split; [|split; [|split]]].
        + intros k. destruct (P k) as (A & B & C). destruct (T3 k) as (C1 & C2 & C3 & C4 & C5 & C6 & C7). unfold proper. rewrite C1, C2, C3, C5, T0. split; [assumption|]. split; [assumption|].
          intros Fk. destruct (C Fk) as [D1 D2]. split; (eapply Forall_impl; [|eassumption]); intros p; unfold okp, okb; rewrite T0, T1; auto.
        + eapply tstep_shaped; [|exact Sh]. split; [exact T0|]. split; [exact T1|]. split; [exact T2|exact T3].
        + destruct (T3 m) as (C1 & _). congruence.
        + intros k R. destruct (T3 k) as (_ & _ & _ & _ & C5 & _). rewrite C5. auto.
        + eapply ready_tstep; [|exact Rd]. split; [exact T0|]. split; [exact T1|]. split; [exact T2|exact T3].
      - intros k R. destruct (T3 k) as (C1 & C2 & C3 & C4 & C5 & C6 & C7), (Fi k R) as (F1 & F2 & F3). cbv zeta.
        assert (Ct : forall x, content_after [if mode then Train else Eval] x = x) by (intros; destruct mode; reflexivity).
        assert (Tr : forall x, training_after [if mode then Train else Eval] x = mode) by (intros; destruct mode; reflexivity).
        split; [assumption|]. split; [rewrite C5; destruct mode; reflexivity|]. split; [rewrite Tr; assumption|]. split.
        + intros _. rewrite C2, C3. split; apply Forall2_same; intros p Hp; rewrite Ct, T1.
          * split; [reflexivity|]. split; [reflexivity|]. rewrite Tr. apply F2. rewrite C2. apply in_map. exact Hp.
          * auto.
        + intros N i Hi. exists i. rewrite C3. split; [assumption|]. rewrite T1. unfold kept_after. cbn [fold_left].
          rewrite C1 in F3. specialize (F3 N). unfold frozen in F3. destruct mode; [injection F3 as <-; reflexivity|]. rewrite C3, Hi in F3. cbn in F3. rewrite T1 in F3.
          cbn. destruct (held (objects w i)); cbn; try (injection F3 as <-; reflexivity). discriminate.
    Qed.

    Lemma call_spec c depth e w : rank m + 2 <= depth -> inv e w -> exists w', run_call V round inv_std inv_std_enc depth m c w = Some w' /\ inv (flag_after [c] e) w' /\ related [c] w w'.
    Proof.
      intros L I. destruct c as [src| | |]; cbn [run_call flag_after fold_left].
      - destruct (encrypt_call true src depth e w L I) as (w' & E & I' & M). exists w'. split; [assumption|]. split; [assumption|]. eapply module_related; [|exact M]. auto.
      - destruct (encrypt_call false 0 depth e w L I) as (w' & E & I' & M). exists w'. split; [assumption|]. split; [assumption|]. eapply module_related; [|exact M]. auto.
      - destruct (train_call true depth e w ltac:(lia) I) as (w' & E & I' & M). eauto.
      - destruct (train_call false depth e w ltac:(lia) I) as (w' & E & I' & M). eauto.
    Qed.
    Lemma calls_spec depth : rank m + 2 <= depth -> forall l e w, inv e w -> exists w', run_calls V round inv_std inv_std_enc depth m l w = Some w' /\ related l w w'.
    Proof.
      intros L. induction l as [|c l IH]; intros e w I; unfold run_calls in *; cbn [foldo].
      - exists w. split; [reflexivity|]. apply related_nil.
      - destruct (call_spec c depth e w L I) as (w1 & E1 & I1 & R1). rewrite E1. cbn [bindo]. destruct (IH _ w1 I1) as (w' & E2 & R2). exists w'. split; [assumption|]. eapply related_cons; eauto.
    Qed.
  End History.

  (** C83: after any sequence of encrypt, decrypt, train and eval calls on a model, its state is that of the last calls *)
  Lemma k_C83_history m (w : world) e : acyclic w -> (forall k, proper V w k) -> class (mods w m) <> Fixed -> (forall k, part_of w m k -> encrypted (mods w k) = e) -> ready V (fun k => children (mods w k)) m w ->
    exists N, forall depth, N <= depth -> forall l, exists w', run_calls V round inv_std inv_std_enc depth m l w = Some w' /\
      forall k, part_of w m k -> let r := mods w k in let r' := mods w' k in
        class r' = class r /\ encrypted r' = flag_after l e /\ training r' = training_after l (training r) /\
        (class r <> Fixed -> Forall2 (fun p p' => fst p' = fst p /\ held (objects w' (snd p')) = content_after l (held (objects w (snd p))) /\ requires_grad (objects w' (snd p')) = training_after l (requires_grad (objects w (snd p)))) (params r) (params r') /\
          Forall2 (fun p p' => fst p' = fst p /\ held (objects w' (snd p')) = content_after l (held (objects w (snd p)))) (buffers r) (buffers r')) /\
        (class r = Norm -> forall i, get "running_var" (buffers r) = Some i -> exists i', get "running_var" (buffers r') = Some i' /\ (held (objects w' i'), inv_var r') = kept_after l (held (objects w i)) (inv_var r)).
  Proof.
    intros [rank Hr] P F U Rd. exists (rank m + 2). intros depth L l.
    destruct (calls_spec _ rank Hr m depth L l e w) as (w' & E & R).
    { split; [assumption|]. split; [intros k; reflexivity|]. auto. }
    exists w'. split; [assumption|]. intros k Rk. destruct (R k Rk) as (A1 & A2 & A3 & A4 & A5). cbv zeta in *. rewrite (U k Rk) in A2. auto.
  Qed.
End Claims.

(** concrete models: two modules, 1 below 0; the values are integers, the encoder rounds to even ones *)
Local Open Scope Z_scope.
Definition even_part (v : Z) : Z := 2 * (v / 2).
Definition two_modules (o : nat -> object Z) (n : nat) (a b : mrec Z) : world Z := mkW o n (fun k => match k with 0%nat => a | 1%nat => b | _ => mkM Ordinary [] [] [] false true None end).
(** party p holds the value v + p *)
Definition local (v : Z) : content Z := Plain (fun p => v + Z.of_nat p).
Definition objects_of (l : list (object Z)) : nat -> object Z := fun i => nth i l (mkObject Other false).
Local Open Scope string_scope.
(** an encrypted model to which an unencrypted child has been added *)
Definition late_child : world Z := two_modules (objects_of [mkObject (Encrypted 4) true; mkObject (local 7) true]) 2 (mkM Ordinary [("weight", 0%nat)] [] [1%nat] true true None) (mkM Ordinary [("weight", 1%nat)] [] [] false true None).
(** C82 refuted: encrypt on an encrypted model does not encrypt a module added since *)
Lemma k_C82_late_child_refuted : exists (w : world Z) m k, acyclic Z w /\ (forall k, proper Z w k) /\ part_of Z w m k /\
  forall depth, (0 < depth)%nat -> exists w', encrypt Z even_part depth true 0 m w = Some w' /\ encrypted (mods w' k) = false /\ exists i v, get "weight" (params (mods w' k)) = Some i /\ held (objects w' i) = Plain v.
Proof.
  exists late_child, 0%nat, 1%nat. split; [exists (fun k => match k with 0%nat => 1%nat | _ => 0%nat end); intros [|[|k]] c; cbn; [intros [<-|[]]; lia|intros []|intros []]|]. split.
  { intros [|[|k]]; unfold proper, okp, okb; cbn; repeat split; repeat constructor; cbn; auto. }
  split; [eapply below; [apply here|cbn; auto]|]. intros [|depth] H; [lia|]. exists late_child. split; [reflexivity|]. split; [reflexivity|]. cbn. do 2 eexists. split; reflexivity.
Qed.
(** an unencrypted module with an encrypted buffer set by [set_buffer] *)
Definition encrypted_buffer : world Z := two_modules (objects_of [mkObject (local 5) true; mkObject (Encrypted 8) false]) 2 (mkM Ordinary [("weight", 0%nat)] [("mean", 1%nat)] [] false true None) (mkM Ordinary [] [] [] false true None).
(** C82 refuted: encrypt reveals a buffer that is already encrypted *)
Lemma k_C82_buffer_refuted : exists (w : world Z) m i v, get "mean" (buffers (mods w m)) = Some i /\ held (objects w i) = Encrypted v /\
  exists w', encrypt Z even_part 3 true 0 m w = Some w' /\ encrypted (mods w' m) = true /\ exists j, get "mean" (buffers (mods w' m)) = Some j /\ held (objects w' j) = Plain (fun _ => v).
Proof. exists encrypted_buffer, 0%nat, 1%nat, 8. split; [reflexivity|]. split; [reflexivity|]. eexists. split; [cbn; reflexivity|]. cbn. split; [reflexivity|]. eexists. split; reflexivity. Qed.
(** two modules with one weight *)
Definition tied : world Z := two_modules (objects_of [mkObject (local 6) true]) 1 (mkM Ordinary [("weight", 0%nat)] [] [1%nat] false true None) (mkM Ordinary [("weight", 0%nat)] [] [] false true None).
(** C82 refuted: a weight shared by two modules becomes two independent tensors *)
Lemma k_C82_tied_refuted : exists (w : world Z) m k, acyclic Z w /\ (forall k, proper Z w k) /\ part_of Z w m k /\ get "weight" (params (mods w m)) = get "weight" (params (mods w k)) /\
  exists w' i j, encrypt Z even_part 4 true 0 m w = Some w' /\ get "weight" (params (mods w' m)) = Some i /\ get "weight" (params (mods w' k)) = Some j /\ i <> j.
Proof.
  exists tied, 0%nat, 1%nat. split; [exists (fun k => match k with 0%nat => 1%nat | _ => 0%nat end); intros [|[|k]] c; cbn; [intros [<-|[]]; lia|intros []|intros []]|]. split.
  { intros [|[|k]]; unfold proper, okp, okb; cbn; repeat split; repeat constructor; cbn; auto. }
  split; [eapply below; [apply here|cbn; auto]|]. split; [reflexivity|]. do 3 eexists. split; [cbn; reflexivity|]. cbn. split; [reflexivity|]. split; [reflexivity|]. discriminate.
Qed.
(** a model with a batch normalisation whose statistics differ between the parties *)
Definition normed : world Z := two_modules (objects_of [mkObject (local 6) true; mkObject (local 10) false]) 2 (mkM Ordinary [("weight", 0%nat)] [] [1%nat] false true None) (mkM Norm [] [("running_var", 1%nat)] [] false true None).
(** C83 refuted: after eval and encrypt the parties normalise with their own plaintext deviations, and not with that of the source *)
Lemma k_C83_frozen_refuted : exists (w : world Z) m k, acyclic Z w /\ (forall k, proper Z w k) /\ part_of Z w m k /\ encrypted (mods w m) = false /\
  forall inv_std inv_std_enc, exists w', run_calls Z even_part inv_std inv_std_enc 5 m [Eval; Encrypt 0] w = Some w' /\ encrypted (mods w' k) = true /\ training (mods w' k) = false /\
    (exists i, get "running_var" (buffers (mods w' k)) = Some i /\ held (objects w' i) = Encrypted 10) /\ exists f, inv_var (mods w' k) = Some (Plain f) /\ f 0%nat = inv_std 10 /\ f 1%nat = inv_std 11.
Proof.
  exists normed, 0%nat, 1%nat. split; [exists (fun k => match k with 0%nat => 1%nat | _ => 0%nat end); intros [|[|k]] c; cbn; [intros [<-|[]]; lia|intros []|intros []]|]. split.
  { intros [|[|k]]; unfold proper, okp, okb; cbn; repeat split; try (repeat constructor; cbn; auto; fail). }
  split; [eapply below; [apply here|cbn; auto]|]. split; [reflexivity|]. intros f g. eexists. split; [cbn; reflexivity|]. cbn. split; [reflexivity|]. split; [reflexivity|].
  split; [eexists; split; reflexivity|]. eexists. split; [reflexivity|]. split; reflexivity.
Qed.
(** a frozen weight *)
Definition frozen_weight : world Z := two_modules (objects_of [mkObject (local 6) false]) 1 (mkM Ordinary [("weight", 0%nat)] [] [] false false None) (mkM Ordinary [] [] [] false true None).
(** C83 refuted: train makes a weight trainable that had been frozen *)
Lemma k_C83_freeze_refuted : exists (w : world Z) m i, get "weight" (params (mods w m)) = Some i /\ requires_grad (objects w i) = false /\
  forall inv_std inv_std_enc, exists w', train Z inv_std inv_std_enc 3 true m w = Some w' /\ requires_grad (objects w' i) = true.
Proof. exists frozen_weight, 0%nat, 0%nat. split; [reflexivity|]. split; [reflexivity|]. intros f g. eexists. split; [cbn; reflexivity|]. reflexivity. Qed.

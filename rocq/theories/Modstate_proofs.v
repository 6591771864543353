(** Proofs about Modstate.v *)
Require Import List String Bool Arith Lia.
From Verif Require Import Modstate.
Import ListNotations.

Section Proofs.
  Variable V : Type.
  Variable round : V -> V.
  Variables inv_std inv_std_enc : V -> V.
  Notation world := (world V). Notation content := (content V). Notation object := (object V).

  (** what encryption from party [src] (or decryption) makes of the contents of a tensor *)
  Definition tensor_after (mode : bool) (src : nat) (c : content) : content :=
    match mode, c with true, Plain v => Encrypted (round (v src)) | false, Encrypted v => Plain (fun _ => v) | _, _ => c end.
  Definition matches (b : bool) (c : content) : Prop := match c with Plain _ => b = false | Encrypted _ => b = true | Other => False end.
  Definition okp (b : bool) (w : world) (p : string * nat) : Prop := snd p < next w /\ matches b (held (objects w (snd p))).
  Definition okb (b : bool) (w : world) (p : string * nat) : Prop :=
    snd p < next w /\ (held (objects w (snd p)) = Other \/ matches b (held (objects w (snd p)))).
  Definition proper (w : world) (k : nat) : Prop :=
    let r := mods w k in
    Forall (fun p => snd p < next w) (params r) /\ Forall (fun p => snd p < next w) (buffers r) /\
    (class r <> Fixed -> Forall (okp (encrypted r) w) (params r) /\ Forall (okb (encrypted r) w) (buffers r)).
  (** an entry of a dictionary of parameters ([same]) or buffers: same name, contents converted; requires_grad kept, at least where it is False *)
  Definition entry_after (same : bool) (mode : bool) (src : nat) (w w' : world) (p p' : string * nat) : Prop :=
    fst p' = fst p /\ held (objects w' (snd p')) = tensor_after mode src (held (objects w (snd p))) /\
    (same = true \/ requires_grad (objects w (snd p)) = false -> requires_grad (objects w' (snd p')) = requires_grad (objects w (snd p))).
  Definition module_after (mode : bool) (src : nat) (w w' : world) (k : nat) : Prop :=
    let r := mods w k in let r' := mods w' k in
    class r' = class r /\ children r' = children r /\ training r' = training r /\ inv_var r' = inv_var r /\ encrypted r' = mode /\
    (class r = Fixed -> params r' = params r /\ buffers r' = buffers r) /\
    (class r <> Fixed -> Forall2 (entry_after true mode src w w') (params r) (params r') /\ Forall2 (entry_after false mode src w w') (buffers r) (buffers r')).
  Definition ext (w w' : world) : Prop := next w <= next w' /\ forall i, i < next w -> objects w' i = objects w i.

  Lemma ext_refl w : ext w w. Proof. split; auto. Qed.
  Lemma ext_trans a b c : ext a b -> ext b c -> ext a c.
  Proof. intros [H1 H2] [H3 H4]. split; [lia|]. intros i Hi. rewrite H4 by lia. auto. Qed.
  Lemma create_ext o (w : world) : ext w (snd (create _ o w)).
  Proof. split; cbn; [lia|]. intros i Hi. destruct (Nat.eqb_spec i (next w)); [lia|reflexivity]. Qed.

  Lemma okp_ext b w w' p : ext w w' -> okp b w p -> okp b w' p.
  Proof. intros [H1 H2] [A B]. split; [lia|]. rewrite H2; auto. Qed.
  Lemma okb_ext b w w' p : ext w w' -> okb b w p -> okb b w' p.
  Proof. intros [H1 H2] (A & B). split; [lia|]. rewrite H2; auto. Qed.

  Lemma convert_params_spec mode src : forall l w, Forall (okp (negb mode) w) l ->
    exists l' w', convert_params V round mode src l w = Some (l', w') /\ ext w w' /\ mods w' = mods w /\ Forall2 (entry_after true mode src w w') l l' /\ Forall (okp mode w') l'.
  Proof.
    induction l as [|[name i] l IH]; intros w H.
    - exists [], w. cbn. repeat split; auto using Forall.
    - inversion H as [|? ? [H1 H2] H3]; subst. cbn [snd] in H1, H2. cbn [convert_params].
      assert (exists o, convert_param V round mode src (objects w i) = Some o /\ held o = tensor_after mode src (held (objects w i)) /\ requires_grad o = requires_grad (objects w i) /\ matches mode (held o)) as (o & E & Eh & Er & Em).
      { unfold convert_param. destruct mode, (held (objects w i)) eqn:Q; cbn in H2 |- *; try discriminate; try contradiction; eexists; split; reflexivity || (repeat split; reflexivity). }
      rewrite E. cbn [bindo]. pose proof (create_ext o w) as X. destruct (create V o w) as [j w1] eqn:C. cbn [snd] in X. unfold create in C. injection C as <- <-.
      destruct (IH (mkW (fun k => if Nat.eqb k (next w) then o else objects w k) (S (next w)) (mods w))) as (l' & w' & E1 & E2 & E3 & E4 & E5).
      { eapply Forall_impl; [|exact H3]. intros p. apply okp_ext. exact X. }
      rewrite E1. cbn [bindo fst snd]. exists ((name, next w) :: l'), w'. split; [reflexivity|]. split; [eapply ext_trans; eauto|]. split; [rewrite E3; reflexivity|].
      assert (O : objects w' (next w) = o). { destruct E2 as [_ E2]. rewrite E2 by (cbn; lia). cbn. rewrite Nat.eqb_refl. reflexivity. }
      split; constructor; cbn [fst snd]; try assumption.
      + repeat split; cbn [fst snd]; rewrite ?O; auto.
      + rewrite Forall_forall in H3. clear - E4 H3 X.
        revert H3. induction E4 as [|p p' l l' P F IH]; intros H3; constructor.
        * destruct P as (P1 & P2 & P3). destruct (H3 p (or_introl eq_refl)) as [L _]. destruct X as [_ X]. rewrite X in P2, P3 by exact L. repeat split; assumption.
        * apply IH. intros. apply H3. right. assumption.
      + split; cbn [snd]; [destruct E2; cbn in *; lia|]. rewrite O. exact Em.
  Qed.

  Lemma convert_buffers_spec mode src : forall l w, Forall (okb (negb mode) w) l ->
    exists l' w', convert_buffers V round mode src l w = (l', w') /\ ext w w' /\ mods w' = mods w /\ Forall2 (entry_after false mode src w w') l l' /\ Forall (okb mode w') l'.
  Proof.
    induction l as [|[name i] l IH]; intros w H.
    - exists [], w. cbn. repeat split; auto using Forall.
    - inversion H as [|? ? [H1 H2] H3]; subst. cbn [snd] in H1, H2. cbn [convert_buffers].
      destruct (convert_buffer V round mode src (objects w i)) as [o|] eqn:E.
      + assert (held o = tensor_after mode src (held (objects w i)) /\ requires_grad o = false /\ matches mode (held o)) as (Eh & Er & Em).
        { unfold convert_buffer in E. destruct H2 as [H2|H2]; [rewrite H2 in E; discriminate|].
          destruct mode, (held (objects w i)) eqn:Q; cbn in H2, E |- *; try discriminate; try contradiction; injection E as <-; repeat split; reflexivity. }
        pose proof (create_ext o w) as X. destruct (create V o w) as [j w1] eqn:C. cbn [snd] in X. unfold create in C. injection C as <- <-.
        destruct (IH (mkW (fun k => if Nat.eqb k (next w) then o else objects w k) (S (next w)) (mods w))) as (l' & w' & E1 & E2 & E3 & E4 & E5).
        { eapply Forall_impl; [|exact H3]. intros p. apply okb_ext. exact X. }
        rewrite E1. exists ((name, next w) :: l'), w'. split; [reflexivity|]. split; [eapply ext_trans; eauto|]. split; [rewrite E3; reflexivity|].
        assert (O : objects w' (next w) = o). { destruct E2 as [_ E2]. rewrite E2 by (cbn; lia). cbn. rewrite Nat.eqb_refl. reflexivity. }
        split; constructor; cbn [fst snd]; try assumption.
        * repeat split; cbn [fst snd]; rewrite ?O; auto. intros [|]; congruence.
        * rewrite Forall_forall in H3. clear - E4 H3 X.
          revert H3. induction E4 as [|p p' l l' P F IH]; intros H3; constructor.
          -- destruct P as (P1 & P2 & P3). destruct (H3 p (or_introl eq_refl)) as [L _]. destruct X as [_ X]. rewrite X in P2, P3 by exact L. repeat split; assumption.
          -- apply IH. intros. apply H3. right. assumption.
        * split; cbn [snd]; [destruct E2; cbn in *; lia|]. rewrite O. auto.
      + assert (held (objects w i) = Other \/ matches mode (held (objects w i))) as Q by (unfold convert_buffer in E; destruct H2 as [H2|H2]; [auto|]; destruct mode, (held (objects w i)); cbn in *; try discriminate; auto).
        assert (tensor_after mode src (held (objects w i)) = held (objects w i)) as T by (destruct Q as [Q|Q]; [rewrite Q; destruct mode; reflexivity|]; destruct mode, (held (objects w i)); cbn in *; try discriminate; auto).
        destruct (IH w H3) as (l' & w' & E1 & E2 & E3 & E4 & E5). rewrite E1. exists ((name, i) :: l'), w'. split; [reflexivity|]. split; [assumption|]. split; [assumption|].
        assert (O : objects w' i = objects w i) by (apply E2; assumption).
        split; constructor; try assumption.
        * repeat split; cbn [fst snd]; rewrite O; auto.
        * split; cbn [snd]; [destruct E2; lia|]. rewrite O. auto.
  Qed.

  (** composition *)
  Lemma tensor_after_twice mode src c : tensor_after mode src (tensor_after mode src c) = tensor_after mode src c.
  Proof. destruct mode, c; reflexivity. Qed.
  Lemma entries_trans same mode src w1 w2 w3 : forall a b, Forall2 (entry_after same mode src w1 w2) a b -> forall c, Forall2 (entry_after same mode src w2 w3) b c -> Forall2 (entry_after same mode src w1 w3) a c.
  Proof.
    induction 1 as [|p p' a b (P1 & P2 & P3) F IH]; intros c G; inversion G as [|? p'' ? ? (Q1 & Q2 & Q3)]; subst; constructor; auto.
    repeat split; [congruence| |]. 1: rewrite Q2, P2; apply tensor_after_twice. intros Z. rewrite Q3; [apply P3; exact Z|]. destruct Z as [Z|Z]; [left; exact Z|]. right. rewrite P3; auto.
  Qed.
  Lemma entries_left same mode src w0 w1 w2 : ext w0 w1 -> forall a, Forall (fun p => snd p < next w0) a -> forall b, Forall2 (entry_after same mode src w1 w2) a b -> Forall2 (entry_after same mode src w0 w2) a b.
  Proof.
    intros [_ X] a H. induction H as [|p a L H IH]; intros b G; inversion G as [|? p'' ? ? (Q1 & Q2 & Q3)]; subst; constructor; auto.
    rewrite X in Q2, Q3 by exact L. repeat split; assumption.
  Qed.
  Lemma entries_right same mode src w0 w1 w2 : ext w1 w2 -> forall a b, Forall (fun p => snd p < next w1) b -> Forall2 (entry_after same mode src w0 w1) a b -> Forall2 (entry_after same mode src w0 w2) a b.
  Proof.
    intros [_ X] a b H G. revert H. induction G as [|p p' a b (Q1 & Q2 & Q3) G IH]; intros H; inversion H; subst; constructor; auto.
    unfold entry_after. rewrite X by assumption. repeat split; assumption.
  Qed.
  Lemma entries_same same mode src w w' : ext w w' -> forall l, Forall (okp mode w) l -> Forall2 (entry_after same mode src w w') l l.
  Proof.
    intros [_ X] l H. induction H as [|p l [L M] H IH]; constructor; auto. unfold entry_after. rewrite X by assumption. repeat split.
    destruct mode, (held (objects w (snd p))); cbn in *; try discriminate; auto.
  Qed.
  Lemma entries_same_b same mode src w w' : ext w w' -> forall l, Forall (okb mode w) l -> Forall2 (entry_after same mode src w w') l l.
  Proof.
    intros [_ X] l H. induction H as [|p l (L & M) H IH]; constructor; auto. unfold entry_after. rewrite X by assumption. repeat split.
    destruct M as [M|M]; [rewrite M; destruct mode; reflexivity|]. destruct mode, (held (objects w (snd p))); cbn in *; try discriminate; auto.
  Qed.

  Definition step (mode : bool) (src : nat) (w w' : world) : Prop :=
    ext w w' /\ (forall k, proper w' k) /\ forall k, mods w' k = mods w k \/ module_after mode src w w' k.
  Lemma step_refl mode src w : (forall k, proper w k) -> step mode src w w.
  Proof. intros H. split; [apply ext_refl|]. split; auto. Qed.
  Lemma proper_bound w k : proper w k -> Forall (fun p => snd p < next w) (params (mods w k)) /\ Forall (fun p => snd p < next w) (buffers (mods w k)).
  Proof. intros (A & B & _). auto. Qed.
  Lemma step_trans mode src a b c : (forall k, proper a k) -> step mode src a b -> step mode src b c -> step mode src a c.
  Proof.
    intros P (E1 & P1 & S1) (E2 & P2 & S2). split; [eapply ext_trans; eauto|]. split; [assumption|]. intros k.
    destruct (proper_bound a k (P k)) as [Ba Bb]. destruct (proper_bound b k (P1 k)) as [Ba1 Bb1].
    destruct (S1 k) as [Q1|Q1], (S2 k) as [Q2|Q2].
    - left. congruence.
    - right. unfold module_after in *. rewrite Q1 in Q2. destruct Q2 as (A1 & A2 & A3 & A4 & A5 & A6 & A7). do 6 (split; [assumption|]). intros F. destruct (A7 F) as [G1 G2].
      split; eapply entries_left; eauto.
    - right. unfold module_after in *. rewrite Q2. destruct Q1 as (A1 & A2 & A3 & A4 & A5 & A6 & A7). do 6 (split; [assumption|]). intros F. destruct (A7 F) as [G1 G2].
      split; eapply entries_right; eauto.
    - right. unfold module_after in *. destruct Q1 as (A1 & A2 & A3 & A4 & A5 & A6 & A7), Q2 as (B1 & B2 & B3 & B4 & B5 & B6 & B7).
      split; [congruence|]. split; [congruence|]. split; [congruence|]. split; [congruence|]. split; [assumption|]. split.
      + intros F. destruct (A6 F). destruct B6; [congruence|]. split; congruence.
      + intros F. destruct (A7 F). destruct B7; [congruence|]. split; eapply entries_trans; eauto.
  Qed.
  Lemma step_children mode src w w' k : step mode src w w' -> children (mods w' k) = children (mods w k).
  Proof. intros (_ & _ & S). destruct (S k) as [Q|(_ & Q & _)]; congruence. Qed.
  Lemma step_flag mode src w w' k : step mode src w w' -> encrypted (mods w k) = mode -> encrypted (mods w' k) = mode.
  Proof. intros (_ & _ & S) H. destruct (S k) as [Q|(_ & _ & _ & _ & Q & _)]; congruence. Qed.

  Lemma proper_ext w w' k : ext w w' -> mods w' k = mods w k -> proper w k -> proper w' k.
  Proof.
    intros E Q (A & B & C). unfold proper. rewrite Q. destruct E as [L X]. split; [|split].
    - eapply Forall_impl; [|exact A]. cbn. intros. lia.
    - eapply Forall_impl; [|exact B]. cbn. intros. lia.
    - intros F. destruct (C F) as [C1 C2]. split; (eapply Forall_impl; [|eassumption]); intros p; [apply okp_ext|apply okb_ext]; split; assumption.
  Qed.
  Lemma set_mod_same k r (w : world) : mods (set_mod V k r w) k = r. Proof. cbn. rewrite Nat.eqb_refl. reflexivity. Qed.
  Lemma set_mod_other k j r (w : world) : j <> k -> mods (set_mod V k r w) j = mods w j. Proof. intros. cbn. destruct (Nat.eqb_spec j k); [contradiction|reflexivity]. Qed.

  Lemma convert_module_spec mode src m w : (forall k, proper w k) -> class (mods w m) <> Fixed -> encrypted (mods w m) = negb mode ->
    exists w', convert_module V round mode src m w = Some w' /\ step mode src w w' /\ encrypted (mods w' m) = mode /\ forall k, k <> m -> mods w' k = mods w k.
  Proof.
    intros P F E. destruct (P m) as (A & B & C). destruct (C F) as [C1 C2]. rewrite E in C1, C2.
    destruct (convert_params_spec mode src _ _ C1) as (l1 & w1 & D1 & D2 & D3 & D4 & D5).
    assert (Forall (okb (negb mode) w1) (buffers (mods w m))) as C3 by (eapply Forall_impl; [|exact C2]; intros p; apply okb_ext; assumption).
    destruct (convert_buffers_spec mode src _ _ C3) as (l2 & w2 & F1 & F2 & F3 & F4 & F5).
    unfold convert_module. rewrite D1. cbn [bindo fst snd]. rewrite F1. eexists. split; [reflexivity|].
    set (r := mkM _ _ _ _ _ _ _). assert (X : ext w w2) by (eapply ext_trans; eauto).
    split; [|split; [rewrite set_mod_same; reflexivity|intros k Hk; rewrite set_mod_other by exact Hk; congruence]].
    split; [exact X|]. split.
    - intros k. destruct (Nat.eq_dec k m) as [->|Hk].
      + unfold proper. rewrite set_mod_same. cbn [params buffers class encrypted r]. change (next (set_mod V m r w2)) with (next w2).
        assert (Q1 : Forall (okp mode w2) l1) by (eapply Forall_impl; [|exact D5]; intros p; apply okp_ext; assumption).
        split; [eapply Forall_impl; [|exact Q1]; intros p []; assumption|]. split; [eapply Forall_impl; [|exact F5]; intros p []; assumption|].
        intros _. split; [exact Q1|exact F5].
      + apply (proper_ext w); [exact X| |apply P]. rewrite set_mod_other by exact Hk. congruence.
    - intros k. destruct (Nat.eq_dec k m) as [->|Hk]; [right|left; rewrite set_mod_other by exact Hk; congruence].
      unfold module_after. rewrite set_mod_same. cbn [class children training inv_var encrypted params buffers r]. do 5 (split; [reflexivity|]). split; [contradiction|]. intros _. split.
      + change (entry_after true mode src w (set_mod V m r w2)) with (entry_after true mode src w w2). apply (entries_right true mode src w w1 w2 F2); [|exact D4].
        eapply Forall_impl; [|exact D5]. intros p []; assumption.
      + change (entry_after false mode src w (set_mod V m r w2)) with (entry_after false mode src w w2). apply (entries_left false mode src w w1 w2 D2); assumption.
  Qed.

  (** the recursion *)
  Inductive reach (ch : nat -> list nat) (m : nat) : nat -> Prop := here : reach ch m m | below k c : reach ch m k -> In c (ch k) -> reach ch m c.
  Lemma reach_under ch m c : In c (ch m) -> forall k, reach ch c k -> reach ch m k.
  Proof. intros H k R. induction R; [eapply below; [apply here|exact H]|eapply below; eauto]. Qed.
  Lemma reach_cases ch m k : reach ch m k -> k = m \/ exists c, In c (ch m) /\ reach ch c k.
  Proof.
    induction 1 as [|k c R IH H]; [auto|]. right. destruct IH as [->|(d & D1 & D2)]; [exists c; split; [assumption|apply here]|].
    exists d. split; [assumption|]. eapply below; eauto.
  Qed.
  Lemma once_in : forall l memo c, In c (once memo l) <-> In c l /\ ~ In c memo.
  Proof.
    induction l as [|d l IH]; intros memo c; cbn; [tauto|].
    destruct (existsb (Nat.eqb d) memo) eqn:E.
    - rewrite IH. apply existsb_exists in E. destruct E as (y & Y1 & Y2). apply Nat.eqb_eq in Y2. subst y. intuition congruence.
    - cbn. rewrite IH. cbn. assert (~ In d memo) by (intro Q; assert (existsb (Nat.eqb d) memo = true) by (apply existsb_exists; exists d; split; [assumption|apply Nat.eqb_refl]); congruence).
      destruct (Nat.eq_dec d c) as [->|]; intuition congruence.
  Qed.
  Lemma kids_in (r : mrec V) c : In c (kids r) <-> In c (children r).
  Proof. unfold kids. rewrite once_in. cbn. tauto. Qed.

  Section Tree.
    Variable ch : nat -> list nat.
    Variable rank : nat -> nat.
    Hypothesis Hrank : forall k c, In c (ch k) -> rank c < rank k.
    Definition shaped (w : world) : Prop := forall k, children (mods w k) = ch k.
    Variables (mode : bool) (src : nat).
    Definition done (m : nat) (w w' : world) : Prop := step mode src w w' /\ (forall k, ~ reach ch m k -> mods w' k = mods w k).
    Lemma step_shaped w w' : step mode src w w' -> shaped w -> shaped w'.
    Proof. intros S H k. rewrite (step_children _ _ _ _ k S). apply H. Qed.

    Lemma foldo_spec (f : nat -> world -> option world) (m : nat) (Q : nat -> world -> Prop) : forall l,
      (forall c, In c l -> In c (ch m)) ->
      (forall c w, In c l -> (forall k, proper w k) -> shaped w -> exists w', f c w = Some w' /\ done c w w' /\ Q c w') ->
      (forall c w w', Q c w -> step mode src w w' -> Q c w') ->
      forall w, (forall k, proper w k) -> shaped w -> exists w', foldo V f l w = Some w' /\ step mode src w w' /\ (forall k, ~ reach ch m k -> mods w' k = mods w k) /\ (rank m >= rank m -> mods w' m = mods w m) /\ forall c, In c l -> Q c w'.
    Proof.
      assert (self : forall c, In c (ch m) -> ~ reach ch c m).
      { intros c Hc R. assert (forall a b, reach ch a b -> rank b <= rank a) as L by (intros a b X; induction X; [lia|]; pose proof (Hrank _ _ H); lia).
        specialize (L _ _ R). pose proof (Hrank _ _ Hc). lia. }
      induction l as [|c l IH]; intros Hl Hf HQ w P Sh.
      - exists w. cbn. split; [reflexivity|]. split; [apply step_refl; assumption|]. repeat split; auto. intros c [].
      - cbn. destruct (Hf c w (or_introl eq_refl) P Sh) as (w1 & E & [S D] & q). rewrite E. cbn [bindo].
        destruct (IH (fun d Hd => Hl d (or_intror Hd)) (fun d v Hd => Hf d v (or_intror Hd)) HQ w1 (proj1 (proj2 S)) (step_shaped _ _ S Sh)) as (w2 & E2 & S2 & U2 & M2 & Q2).
        exists w2. split; [assumption|]. split; [eapply step_trans; eauto|]. split; [|split].
        + intros k Hk. rewrite U2 by assumption. apply D. intro R. apply Hk. eapply reach_under; [apply Hl; left; reflexivity|assumption].
        + intros _. rewrite M2 by lia. apply D. apply self. apply Hl. left. reflexivity.
        + intros d [<-|Hd]; [eapply HQ; eauto|auto].
    Qed.

    Definition all_flags (m : nat) (w : world) : Prop := forall k, reach ch m k -> encrypted (mods w k) = mode.
    Lemma all_flags_step c w w' : all_flags c w -> step mode src w w' -> all_flags c w'.
    Proof. intros H S k R. eapply step_flag; eauto. Qed.

    Lemma apply_spec (fn : nat -> world -> option world) : forall depth m, rank m < depth ->
      (forall k w, reach ch m k -> (forall k, proper w k) -> shaped w -> exists w', fn k w = Some w' /\ done k w w' /\ encrypted (mods w' k) = mode) ->
      forall w, (forall k, proper w k) -> shaped w -> exists w', apply V depth fn m w = Some w' /\ done m w w' /\ all_flags m w'.
    Proof.
      induction depth as [|depth IH]; intros m L Hfn w P Sh; [lia|]. cbn [apply].
      destruct (foldo_spec (apply V depth fn) m all_flags (kids (mods w m))) with (w := w) as (w1 & E1 & S1 & U1 & M1 & Q1); auto.
      { intros c Hc. apply kids_in in Hc. rewrite Sh in Hc. exact Hc. }
      { intros c v Hc Pv Sv. apply kids_in in Hc. rewrite Sh in Hc. apply IH; auto; [pose proof (Hrank _ _ Hc); lia|].
        intros k u R. apply Hfn. eapply reach_under; eauto. }
      { apply all_flags_step. }
      rewrite E1. cbn [bindo]. destruct (Hfn m w1 (here _ _) (proj1 (proj2 S1)) (step_shaped _ _ S1 Sh)) as (w2 & E2 & [S2 D2] & F2).
      exists w2. split; [assumption|]. split; [split; [eapply step_trans; eauto|intros k Hk; rewrite D2, U1 by assumption; reflexivity]|].
      intros k R. apply reach_cases in R. destruct R as [->|(c & Hc & R)]; [assumption|]. eapply step_flag; [exact S2|]. apply (Q1 c); [|assumption]. apply kids_in. rewrite Sh. exact Hc.
    Qed.

    Lemma flip b : Bool.eqb mode b = false -> b = negb mode. Proof. destruct mode, b; cbn; congruence. Qed.
    Lemma encrypt_noop depth m w : encrypted (mods w m) = mode -> class (mods w m) <> Fixed -> encrypt V round (S depth) mode src m w = Some w.
    Proof. intros E F. cbn [encrypt]. rewrite E, eqb_reflx. destruct (class (mods w m)); congruence. Qed.
    Lemma reach_rank c k : reach ch c k -> rank k <= rank c.
    Proof. intros R. induction R; [lia|]. pose proof (Hrank _ _ H). lia. Qed.
    Lemma under depth m w : rank m < S depth -> (forall k, proper w k) -> shaped w -> class (mods w m) <> Fixed -> encrypted (mods w m) = mode ->
      (forall k v, rank k + 2 <= S depth -> (forall k, proper v k) -> shaped v -> exists v', encrypt V round (S depth) mode src k v = Some v' /\ done k v v' /\ encrypted (mods v' k) = mode) ->
      exists w', apply V (S depth) (encrypt V round (S depth) mode src) m w = Some w' /\ done m w w' /\ all_flags m w'.
    Proof.
      intros L P Sh F1 F2 IH. cbn [apply].
      destruct (foldo_spec (apply V depth (encrypt V round (S depth) mode src)) m all_flags (kids (mods w m))) with (w := w) as (w2 & E2 & S2 & U2 & M2 & Q2); auto.
      { intros c Hc. apply kids_in in Hc. rewrite Sh in Hc. exact Hc. }
      { intros c v Hc Pv Sv. apply kids_in in Hc. rewrite Sh in Hc. pose proof (Hrank _ _ Hc). apply apply_spec; auto; [lia|].
        intros k u R Pu Su. pose proof (reach_rank _ _ R). apply IH; auto; lia. }
      { apply all_flags_step. }
      rewrite E2. cbn [bindo]. rewrite encrypt_noop by (rewrite M2 by lia; assumption).
      exists w2. split; [reflexivity|]. split; [split; assumption|].
      intros k R. apply reach_cases in R. destruct R as [->|(c & Hc & R)]; [rewrite M2 by lia; assumption|].
      apply (Q2 c); [|assumption]. apply kids_in. rewrite Sh. exact Hc.
    Qed.
    Lemma encrypt_spec : forall depth m, rank m + 2 <= depth -> forall w, (forall k, proper w k) -> shaped w ->
      exists w', encrypt V round depth mode src m w = Some w' /\ done m w w' /\ encrypted (mods w' m) = mode /\ (encrypted (mods w m) = mode -> class (mods w m) <> Fixed -> w' = w) /\ (encrypted (mods w m) <> mode -> class (mods w m) <> Fixed -> all_flags m w').
    Proof.
      induction depth as [|depth IH]; intros m L w P Sh; [lia|]. cbn [encrypt].
      destruct (class (mods w m)) eqn:K.
      2: { eexists. split; [reflexivity|]. set (r := mkM _ _ _ _ _ _ _). split; [|split; [rewrite set_mod_same; reflexivity|split; contradiction]].
           split; [split; [split; [cbn; lia|reflexivity]|split]|].
           - intros k. destruct (Nat.eq_dec k m) as [->|Hk]; [|apply (proper_ext w); [split; [cbn; lia|reflexivity]|apply set_mod_other; assumption|apply P]].
             destruct (P m) as (A & B & C). unfold proper. rewrite set_mod_same. cbn [params buffers class r]. split; [exact A|]. split; [exact B|]. contradiction.
           - intros k. destruct (Nat.eq_dec k m) as [->|Hk]; [right|left; apply set_mod_other; assumption]. unfold module_after. rewrite set_mod_same. cbn [class children training inv_var encrypted params buffers r].
             rewrite K. do 5 (split; [reflexivity|]). split; [split; reflexivity|contradiction].
           - intros k Hk. apply set_mod_other. intros ->. apply Hk. apply here. }
      all: destruct (Bool.eqb mode (encrypted (mods w m))) eqn:B;
        [exists w; apply eqb_prop in B; split; [reflexivity|]; split; [split; [apply step_refl; assumption|reflexivity]|]; split; [congruence|]; split; [reflexivity|intros Q; exfalso; apply Q; congruence]|].
      all: assert (NF : class (mods w m) <> Fixed) by (rewrite K; discriminate).
      all: destruct (convert_module_spec mode src m w P NF (flip _ B)) as (w1 & E1 & S1 & F1 & U1); rewrite E1; cbn [bindo].
      all: destruct depth as [|depth]; [lia|].
      all: destruct (under depth m w1 ltac:(lia) (proj1 (proj2 S1)) (step_shaped _ _ S1 Sh)) as (w2 & E2 & D2 & A2);
        [destruct (proj2 (proj2 S1) m) as [Z|(Z & _)]; congruence|assumption|intros k u Hk Pu Su; destruct (IH k Hk u Pu Su) as (u' & X1 & X2 & X3 & _); exists u'; auto|].
      all: exists w2; split; [exact E2|]; split; [split; [eapply step_trans; [exact P|exact S1|apply D2]|]|].
      all: try (intros k Hk; rewrite (proj2 D2) by assumption; apply U1; intros ->; apply Hk; apply here).
      all: split; [apply A2; apply here|]; split; [intros Z; exfalso; rewrite Z in B; destruct mode; discriminate|].
      all: intros _ _; exact A2.
    Qed.

    (** training mode *)
    Definition param_of (m : nat) (w : world) (i : nat) : Prop := exists k, reach ch m k /\ In i (map snd (params (mods w k))).
    Lemma parameters_spec : forall depth m w, rank m < depth -> shaped w -> exists l, parameters V depth m w = Some l /\ forall i, In i l <-> param_of m w i.
    Proof.
      induction depth as [|depth IH]; intros m w L Sh; [lia|]. cbn [parameters]. set (go := fix go l := match l with [] => _ | _ :: _ => _ end).
      assert (G : forall l, (forall c, In c l -> In c (ch m)) -> exists b, go l = Some b /\ forall i, In i b <-> exists c, In c l /\ param_of c w i).
      { induction l as [|c l IHl]; intros Hl.
        - exists []. split; [reflexivity|]. intros i. split; [intros []|intros (c & [] & _)].
        - pose proof (Hrank _ _ (Hl c (or_introl eq_refl))). destruct (IH c w ltac:(lia) Sh) as (a & A1 & A2). destruct (IHl (fun d Hd => Hl d (or_intror Hd))) as (b & B1 & B2).
          exists (a ++ b)%list. cbn [go]. fold go. rewrite A1. cbn [bindo]. rewrite B1. split; [reflexivity|]. intros i. rewrite in_app_iff, A2, B2. split.
          + intros [Q|(d & D1 & D2)]; [exists c; split; [left; reflexivity|assumption]|exists d; split; [right; assumption|assumption]].
          + intros (d & [<-|D1] & D2); [left; assumption|right; exists d; auto]. }
      destruct (G (kids (mods w m))) as (b & B1 & B2).
      { intros c Hc. apply kids_in in Hc. rewrite Sh in Hc. exact Hc. }
      rewrite B1. cbn [bindo]. eexists. split; [reflexivity|]. intros i. rewrite in_app_iff, B2. split.
      - intros [Q|(c & C1 & (k & K1 & K2))]; [exists m; split; [apply here|assumption]|]. exists k. split; [|assumption]. apply kids_in in C1. rewrite Sh in C1. eapply reach_under; eauto.
      - intros (k & K1 & K2). apply reach_cases in K1. destruct K1 as [->|(c & C1 & C2)]; [left; assumption|]. right. exists c. split; [apply kids_in; rewrite Sh; assumption|]. exists k. auto.
    Qed.

    Notation frozen := (frozen V inv_std inv_std_enc).
    Definition tstep (w w' : world) : Prop :=
      next w' = next w /\ (forall i, held (objects w' i) = held (objects w i)) /\ (forall i, requires_grad (objects w' i) = requires_grad (objects w i) \/ requires_grad (objects w' i) = mode) /\
      forall k, let r := mods w k in let r' := mods w' k in
        class r' = class r /\ params r' = params r /\ buffers r' = buffers r /\ children r' = children r /\ encrypted r' = encrypted r /\
        (training r' = training r \/ training r' = mode) /\ (inv_var r' = inv_var r \/ (class r = Norm /\ frozen mode r w = Some (inv_var r'))).
    Lemma frozen_same (w w' : world) r r' : buffers r' = buffers r -> (forall i, held (objects w' i) = held (objects w i)) -> frozen mode r' w' = frozen mode r w.
    Proof. intros H1 H2. unfold Modstate.frozen. rewrite H1. destruct (get _ _); cbn; [rewrite H2|]; reflexivity. Qed.
    Lemma tstep_refl w : tstep w w. Proof. repeat split; auto. Qed.
    Lemma tstep_trans a b c : tstep a b -> tstep b c -> tstep a c.
    Proof.
      intros (A1 & A2 & A3 & A4) (B1 & B2 & B3 & B4). split; [congruence|]. split; [intros; rewrite B2; apply A2|]. split.
      - intros i. destruct (B3 i) as [Q|Q]; [|auto]. rewrite Q. apply A3.
      - intros k. destruct (A4 k) as (C1 & C2 & C3 & C4 & C5 & C6 & C7), (B4 k) as (D1 & D2 & D3 & D4 & D5 & D6 & D7).
        do 5 (split; [congruence|]). split.
        + destruct D6 as [Q|Q]; [rewrite Q; assumption|auto].
        + destruct D7 as [Q|[Q1 Q2]]; [rewrite Q; assumption|]. right. split; [congruence|]. rewrite <- Q2. symmetry. apply frozen_same; assumption.
    Qed.
    Lemma tstep_shaped w w' : tstep w w' -> shaped w -> shaped w'.
    Proof. intros (_ & _ & _ & S) H k. destruct (S k) as (_ & _ & _ & Q & _). rewrite Q. apply H. Qed.
    Definition finished (m : nat) (w : world) : Prop := forall k, reach ch m k ->
      training (mods w k) = mode /\ (forall i, In i (map snd (params (mods w k))) -> requires_grad (objects w i) = mode) /\ (class (mods w k) = Norm -> frozen mode (mods w k) w = Some (inv_var (mods w k))).
    Lemma finished_tstep c w w' : finished c w -> tstep w w' -> finished c w'.
    Proof.
      intros F (A1 & A2 & A3 & A4) k R. destruct (F k R) as (F1 & F2 & F3). destruct (A4 k) as (C1 & C2 & C3 & C4 & C5 & C6 & C7). split; [|split].
      - destruct C6; congruence.
      - intros i Hi. rewrite C2 in Hi. specialize (F2 i Hi). destruct (A3 i); congruence.
      - intros N. rewrite (frozen_same w w' (mods w k) (mods w' k)) by assumption. rewrite C1 in N. destruct C7 as [Q|[_ Q]]; [rewrite Q; auto|assumption].
    Qed.
    Definition untouched (m : nat) (w w' : world) : Prop := (forall k, ~ reach ch m k -> mods w' k = mods w k) /\ (forall i, ~ param_of m w i -> objects w' i = objects w i).
    Lemma param_of_tstep m w w' i : tstep w w' -> param_of m w' i <-> param_of m w i.
    Proof. intros (_ & _ & _ & S). split; intros (k & R & H); exists k; (split; [assumption|]); destruct (S k) as (_ & Q & _); [rewrite <- Q|rewrite Q]; assumption. Qed.
    (** every batch normalisation has a tensor as running_var *)
    Definition ready (m : nat) (w : world) : Prop := forall k, reach ch m k -> class (mods w k) = Norm -> exists i, get "running_var" (buffers (mods w k)) = Some i /\ held (objects w i) <> Other.
    Lemma ready_tstep m w w' : tstep w w' -> ready m w -> ready m w'.
    Proof. intros (_ & A2 & _ & S) H k R N. destruct (S k) as (Q1 & _ & Q2 & _). rewrite Q1 in N. destruct (H k R N) as (i & I1 & I2). exists i. rewrite Q2, A2. auto. Qed.
    Lemma ready_frozen m w k : ready m w -> reach ch m k -> class (mods w k) = Norm -> exists v, frozen mode (mods w k) w = Some v.
    Proof.
      intros H R N. destruct (H k R N) as (i & I1 & I2). unfold Modstate.frozen. rewrite I1. destruct mode; [eauto|]. cbn. destruct (held (objects w i)); eauto. congruence.
    Qed.

    Lemma grads_spec : forall l w, let w' := fold_left (fun w i => set_requires_grad V mode i w) l w in
      tstep w w' /\ mods w' = mods w /\ (forall i, In i l -> requires_grad (objects w' i) = mode) /\ (forall i, ~ In i l -> objects w' i = objects w i).
    Proof.
      induction l as [|i l IH]; intros w; cbn [fold_left].
      - cbn. split; [apply tstep_refl|]. repeat split; auto. intros i [].
      - destruct (IH (set_requires_grad V mode i w)) as (A & B & C & D). cbv zeta. set (w' := fold_left _ l _) in *.
        assert (T : tstep w (set_requires_grad V mode i w)).
        { split; [reflexivity|]. split; [intros j; cbn; destruct (Nat.eqb_spec j i); [subst; reflexivity|reflexivity]|]. split; [intros j; cbn; destruct (Nat.eqb_spec j i); auto|]. intros k. repeat split; auto. }
        split; [eapply tstep_trans; eauto|]. split; [rewrite B; reflexivity|]. split.
        + intros j [<-|Hj]; [|auto]. destruct A as (_ & _ & A & _). specialize (A i). cbn in A. rewrite Nat.eqb_refl in A. cbn in A. destruct A; assumption.
        + intros j Hj. rewrite D by (intros Q; apply Hj; right; assumption). cbn. destruct (Nat.eqb_spec j i); [subst; exfalso; apply Hj; left; reflexivity|reflexivity].
    Qed.

    Lemma train_spec : forall depth m, rank m < depth -> forall w, shaped w -> ready m w ->
      exists w', train V inv_std inv_std_enc depth mode m w = Some w' /\ tstep w w' /\ finished m w' /\ untouched m w w'.
    Proof.
      induction depth as [|depth IH]; intros m L w Sh Rd; [lia|]. cbn [train].
      destruct (parameters_spec (S depth) m w L Sh) as (l & L1 & L2). rewrite L1. cbn [bindo].
      destruct (grads_spec l w) as (G1 & G2 & G3 & G4). cbv zeta in G1, G2, G3, G4. set (w0 := fold_left _ l w) in *.
      set (w1 := set_training V mode m w0).
      assert (T1 : tstep w0 w1).
      { split; [reflexivity|]. split; [reflexivity|]. split; [auto|]. intros k. cbn. destruct (Nat.eqb_spec k m) as [->|]; cbn; repeat split; auto. }
      assert (T01 : tstep w w1) by (eapply tstep_trans; eauto).
      assert (M1 : forall k, k <> m -> mods w1 k = mods w k) by (intros k Hk; unfold w1, set_training; rewrite set_mod_other by exact Hk; rewrite G2; reflexivity).
      assert (Fold : forall l w, (forall c, In c l -> In c (ch m)) -> shaped w -> ready m w ->
        exists w', foldo V (train V inv_std inv_std_enc depth mode) l w = Some w' /\ tstep w w' /\ (forall c, In c l -> finished c w') /\ (mods w' m = mods w m) /\ untouched m w w').
      { clear - IH L Hrank. induction l as [|c l IHl]; intros w Hl Sh Rd.
        - exists w. cbn. split; [reflexivity|]. split; [apply tstep_refl|]. split; [intros c []|]. split; [reflexivity|]. split; auto.
        - pose proof (Hrank _ _ (Hl c (or_introl eq_refl))) as Lc. cbn [foldo].
          destruct (IH c ltac:(lia) w Sh) as (w1 & E1 & T1 & F1 & U1a & U1b).
          { intros k R. apply Rd. eapply reach_under; [apply Hl; left; reflexivity|assumption]. }
          rewrite E1. cbn [bindo]. destruct (IHl w1 (fun d Hd => Hl d (or_intror Hd)) (tstep_shaped _ _ T1 Sh) (ready_tstep _ _ _ T1 Rd)) as (w2 & E2 & T2 & F2 & M2 & U2a & U2b).
          exists w2. split; [assumption|]. split; [eapply tstep_trans; eauto|]. split; [|split].
          + intros d [<-|Hd]; [eapply finished_tstep; eauto|auto].
          + rewrite M2. apply U1a. intros R. pose proof (reach_rank _ _ R). lia.
          + split.
            * intros k Hk. rewrite U2a by assumption. apply U1a. intros R. apply Hk. eapply reach_under; [apply Hl; left; reflexivity|assumption].
            * intros i Hi. rewrite U2b by (rewrite param_of_tstep by exact T1; assumption). apply U1b. intros (k & K1 & K2). apply Hi. exists k. split; [|assumption]. eapply reach_under; [apply Hl; left; reflexivity|assumption]. }
      destruct (Fold (kids (mods w1 m)) w1) as (w2 & E2 & T2 & F2 & M2 & U2a & U2b).
      { intros c Hc. apply kids_in in Hc. rewrite (tstep_shaped _ _ T01 Sh) in Hc. exact Hc. }
      { eapply tstep_shaped; eauto. }
      { eapply ready_tstep; eauto. }
      rewrite E2. cbn [bindo]. assert (T02 : tstep w w2) by (eapply tstep_trans; eauto).
      assert (U : untouched m w w2).
      { split.
        - intros k Hk. rewrite U2a by assumption. apply M1. intros ->. apply Hk. apply here.
        - intros i Hi. rewrite U2b by (rewrite param_of_tstep by exact T01; assumption). change (objects w1 i) with (objects w0 i). apply G4. rewrite L2. assumption. }
      assert (tr : training (mods w2 m) = mode) by (rewrite M2; unfold w1, set_training; rewrite set_mod_same; reflexivity).
      assert (gr : forall i, param_of m w i -> requires_grad (objects w2 i) = mode).
      { intros i Hi. destruct T2 as (_ & _ & T2 & _). destruct (T2 i) as [Q|Q]; [|assumption]. rewrite Q. change (objects w1 i) with (objects w0 i). apply G3. apply L2. assumption. }
      assert (kid : forall k, reach ch m k -> k <> m -> exists c, In c (kids (mods w1 m)) /\ reach ch c k).
      { intros k R N. apply reach_cases in R. destruct R as [|(c & C1 & C2)]; [contradiction|]. exists c. split; [|assumption]. apply kids_in. rewrite (tstep_shaped _ _ T01 Sh). assumption. }
      destruct (class (mods w2 m)) eqn:K.
      1, 2: exists w2; split; [reflexivity|]; split; [assumption|]; split; [|assumption]; intros k R; destruct (Nat.eq_dec k m) as [->|N];
        [split; [assumption|]; split; [intros i Hi; apply gr; rewrite <- (param_of_tstep m w w2 i T02); exists m; split; [apply here|assumption]|congruence]|
         destruct (kid k R N) as (c & C1 & C2); exact (F2 c C1 k C2)].
      destruct (ready_frozen m w2 m (ready_tstep _ _ _ T02 Rd) (here _ _) K) as (v & Ev). rewrite Ev. cbn [bindo].
      set (w3 := set_inv_var V v m w2). assert (T3 : tstep w2 w3).
      { split; [reflexivity|]. split; [reflexivity|]. split; [auto|]. intros k. cbn. destruct (Nat.eqb_spec k m) as [->|]; cbn; repeat split; auto. }
      exists w3. split; [reflexivity|]. split; [eapply tstep_trans; eauto|]. split.
      - intros k R. destruct (Nat.eq_dec k m) as [->|N].
        + unfold w3, set_inv_var. rewrite set_mod_same. cbn [training params class inv_var]. split; [assumption|]. split; [|intros _; rewrite <- Ev; apply frozen_same; reflexivity].
          intros i Hi. apply gr. rewrite <- (param_of_tstep m w w2 i T02). exists m. split; [apply here|assumption].
        + destruct (kid k R N) as (c & C1 & C2). exact (finished_tstep c w2 w3 (F2 c C1) T3 k C2).
      - destruct U as [Ua Ub]. split; [|exact Ub]. intros k Hk. unfold w3, set_inv_var. rewrite set_mod_other by (intros ->; apply Hk; apply here). auto.
    Qed.
  End Tree.
End Proofs.

(** Two parties that run as threads: their initialisation never fails and never gets stuck (C114). *)
Require Import ZArith List Arith Bool Lia.
From Verif Require Import Ring64 Sharing Threadgen.
Import ListNotations.
Local Open Scope nat_scope.

Section Two.
  Context {gstate : Type} (unseeded : gstate) (seeded : Z -> gstate) (draw : gstate -> nat -> list Z * gstate) (next_seed local_seed global_seed : nat -> Z).
  Notation exec := (exec gstate unseeded seeded draw next_seed local_seed global_seed).
  Notation advance := (advance gstate unseeded seeded draw next_seed local_seed global_seed).
  (** ** Specification *)
  (** what all threads have still to do *)
  Definition remaining (p : process gstate) : nat := fold_right (fun t n => length (todo t) + n) 0 (threads gstate p).

  (** ** Invariant *)
  (** the kind of a message: from whom, or a tensor without sender *)
  Definition kind (m : message) : option nat := match m with Tagged r _ => Some r | Plain _ => None end.
  (** what is in the mailboxes when thread 0 is at its step [a] and thread 1 at its step [b] *)
  Definition box0 (a b : nat) : list (option nat) := (if (4 <? b) && (a <=? 5) then [Some 1] else []) ++ (if (6 <? a) && (a <=? 7) then [None] else []).
  Definition box1 (a b : nat) : list (option nat) := (if (4 <? a) && (b <=? 5) then [Some 0] else []) ++ (if (6 <? a) && (b <=? 6) then [None] else []).
  (** nobody is ahead of what they wait for *)
  Definition possible (a b : nat) : bool := ((a <=? 5) || (4 <? b)) && ((b <=? 5) || (4 <? a)) && ((b <=? 6) || (6 <? a)) && (a <=? 12) && (b <=? 11).
  Definition at_step (l : list action) (a : nat) (t : thread) : Prop := todo t = skipn a l /\ failed t = false.
  Definition two_at (a b : nat) (p : process gstate) : Prop :=
    possible a b = true /\ map kind (mailbox gstate p 0) = box0 a b /\ map kind (mailbox gstate p 1) = box1 a b /\ exists t u, threads gstate p = [t; u] /\ at_step (setup 2 0) a t /\ at_step (setup 2 1) b u.
  Lemma beside a b p i : two_at a b p -> 1 < i -> advance p i = p.
  Proof. intros (_ & _ & _ & t & u & E & _) Hi. unfold Threadgen.advance. rewrite E. destruct i as [|[|i]]; [lia|lia|]. now destruct i. Qed.
  (** when a thread can go on *)
  Definition goes0 (a b : nat) : bool := (a <? 12) && (negb (a =? 5) || (4 <? b)).
  Definition goes1 (a b : nat) : bool := (b <? 11) && (negb (b =? 5) || (4 <? a)) && (negb (b =? 6) || (6 <? a)).
  Definition list0 : list action := [ANew Prev; ANew Next; ANew Local_; ANew Global_; ASend 1; AWait 1; ABroadcast; AGet; ASeed Prev; ASeed Next; ASeed Local_; ASeed Global_].
  Definition list1 : list action := [ANew Prev; ANew Next; ANew Local_; ANew Global_; ASend 0; AWait 0; AGet; ASeed Prev; ASeed Next; ASeed Local_; ASeed Global_].
  Lemma possible_le a b : possible a b = true -> a <= 12 /\ b <= 11 /\ (a <= 5 \/ 4 < b) /\ (b <= 5 \/ 4 < a) /\ (b <= 6 \/ 6 < a).
  Proof. unfold possible. rewrite !andb_true_iff, !orb_true_iff, !Nat.leb_le, !Nat.ltb_lt. tauto. Qed.
  Lemma possible_from a b : a <= 12 -> b <= 11 -> (a <= 5 \/ 4 < b) -> (b <= 5 \/ 4 < a) -> (b <= 6 \/ 6 < a) -> possible a b = true.
  Proof. unfold possible. rewrite !andb_true_iff, !orb_true_iff, !Nat.leb_le, !Nat.ltb_lt. tauto. Qed.
  Ltac known b := repeat match goal with
    | |- context[?x <=? b] => first [rewrite (proj2 (Nat.leb_le x b)) by lia | rewrite (proj2 (Nat.leb_gt x b)) by lia]
    | |- context[b <=? ?x] => first [rewrite (proj2 (Nat.leb_le b x)) by lia | rewrite (proj2 (Nat.leb_gt b x)) by lia] end.
  Lemma step0 a b p : two_at a b p -> if goes0 a b then two_at (S a) b (advance p 0) else advance p 0 = p.
  Proof.
    intros (P & B0 & B1 & t & u & E & (T & F) & U). apply possible_le in P as (Pa & Pb & P1 & P2 & P3). change (setup 2 0) with list0 in T. destruct p as [ob m tb mb ts]. cbn [mailbox threads] in *. subst ts. destruct t as [td gp gg dr fl]. cbn [todo failed] in *. subst td fl. unfold Threadgen.advance. cbn [nth_error threads todo].
    destruct (Nat.eq_dec a 5) as [-> |N5].
    - assert (Q : box0 5 b = if 4 <? b then [Some 1] else []) by (unfold box0; destruct (4 <? b); reflexivity). rewrite Q in B0. change (goes0 5 b) with (4 <? b). destruct (Nat.ltb_spec 4 b) as [L|L]; cbn [skipn list0 mailbox].
      + destruct (mb 0) as [|[r z|z] [|]] eqn:M; try discriminate B0. injection B0 as ->. cbn [Nat.eqb set_nth]. split; [apply possible_from; lia|]. cbn [mailbox threads Nat.eqb]. split; [unfold box0; cbn [Nat.leb]; now rewrite andb_false_r|]. split; [exact B1|]. do 2 eexists. split; [reflexivity|]. split; [split; reflexivity|exact U].
      + destruct (mb 0) as [|x l]; [reflexivity|discriminate B0].
    - assert (G : goes0 a b = (a <? 12)) by (unfold goes0; rewrite (proj2 (Nat.eqb_neq a 5) N5); cbn; now rewrite andb_true_r). rewrite G. clear G. destruct (Nat.ltb_spec a 12) as [L|L].
      + assert (K : possible (S a) b = true) by (apply possible_from; lia). destruct a as [|[|[|[|[|[|[|[|[|[|[|[|a]]]]]]]]]]]]; try lia; cbn [skipn list0 mailbox threads]; clear N5 L.
        all: try (split; [exact K|]; split; [exact B0|]; split; [exact B1|]; do 2 eexists; split; [reflexivity|]; split; [split; reflexivity|exact U]).
        * (* send *) split; [exact K|]. unfold put_mail. cbn [mailbox Nat.eqb]. split; [exact B0|]. split; [rewrite map_app, B1; unfold box1, Nat.ltb; cbn; known b; reflexivity|]. do 2 eexists. split; [reflexivity|]. split; [split; reflexivity|exact U].
        * (* broadcast *) split; [exact K|]. cbn [mailbox threads length Nat.ltb Nat.leb]. split; [rewrite map_app, B0; unfold box0, Nat.ltb; cbn; now rewrite ?andb_false_r|]. split; [rewrite map_app, B1; unfold box1, Nat.ltb; cbn; known b; now rewrite ?app_nil_r|]. do 2 eexists. split; [reflexivity|]. split; [split; reflexivity|exact U].
        * (* get *) unfold box0, Nat.ltb in B0. cbn in B0. rewrite andb_false_r in B0. cbn in B0. destruct (mb 0) as [|[r z|z] [|]] eqn:M; try discriminate B0. split; [exact K|]. cbn [mailbox threads Nat.eqb]. split; [unfold box0; cbn; now rewrite andb_false_r|]. split; [exact B1|]. do 2 eexists. split; [reflexivity|]. split; [split; reflexivity|exact U].
      + assert (a = 12) as -> by lia. reflexivity.
  Qed.
  Lemma step1 a b p : two_at a b p -> if goes1 a b then two_at a (S b) (advance p 1) else advance p 1 = p.
  Proof.
    intros (P & B0 & B1 & t & u & E & U & (T & F)). apply possible_le in P as (Pa & Pb & P1 & P2 & P3). change (setup 2 1) with list1 in T. destruct p as [ob m tb mb ts]. cbn [mailbox threads] in *. subst ts. destruct u as [td gp gg dr fl]. cbn [todo failed] in *. subst td fl. unfold Threadgen.advance. cbn [nth_error threads todo].
    destruct (Nat.eq_dec b 5) as [-> |N5]; [|destruct (Nat.eq_dec b 6) as [-> |N6]].
    - assert (Q : box1 a 5 = (if 4 <? a then [Some 0] else []) ++ (if 6 <? a then [None] else [])) by (unfold box1; destruct (4 <? a), (6 <? a); reflexivity). rewrite Q in B1. assert (G : goes1 a 5 = (4 <? a)) by (unfold goes1; cbn; now rewrite andb_true_r). rewrite G. destruct (Nat.ltb_spec 4 a) as [L|L]; cbn [skipn list1 mailbox].
      + destruct (mb 1) as [|[r z|z] l] eqn:M; try discriminate B1. cbn [map kind app] in B1. injection B1 as -> B1. cbn [Nat.eqb set_nth]. split; [apply possible_from; lia|]. cbn [mailbox threads Nat.eqb]. split; [exact B0|]. split; [rewrite B1; unfold box1; destruct (4 <? a), (6 <? a); reflexivity|]. do 2 eexists. split; [reflexivity|]. split; [exact U|split; reflexivity].
      + rewrite (proj2 (Nat.ltb_ge 6 a)) in B1 by lia. destruct (mb 1) as [|x l]; [reflexivity|discriminate B1].
    - assert (Q : box1 a 6 = if 6 <? a then [None] else []) by (unfold box1; destruct (4 <? a), (6 <? a); reflexivity). rewrite Q in B1. assert (G : goes1 a 6 = (6 <? a)) by reflexivity. rewrite G. destruct (Nat.ltb_spec 6 a) as [L|L]; cbn [skipn list1 mailbox].
      + destruct (mb 1) as [|[r z|z] [|]] eqn:M; try discriminate B1. cbn [Nat.eqb set_nth]. split; [apply possible_from; lia|]. cbn [mailbox threads Nat.eqb]. split; [exact B0|]. split; [unfold box1; destruct (4 <? a), (6 <? a); reflexivity|]. do 2 eexists. split; [reflexivity|]. split; [exact U|split; reflexivity].
      + destruct (mb 1) as [|x l]; [reflexivity|discriminate B1].
    - assert (G : goes1 a b = (b <? 11)) by (unfold goes1; rewrite (proj2 (Nat.eqb_neq b 5) N5), (proj2 (Nat.eqb_neq b 6) N6); cbn; now rewrite !andb_true_r). rewrite G. clear G. destruct (Nat.ltb_spec b 11) as [L|L].
      + assert (K : possible a (S b) = true) by (apply possible_from; lia). destruct b as [|[|[|[|[|[|[|[|[|[|[|b]]]]]]]]]]]; try lia; cbn [skipn list1 mailbox threads]; clear N5 N6 L.
        all: try (split; [exact K|]; split; [exact B0|]; split; [exact B1|]; do 2 eexists; split; [reflexivity|]; split; [exact U|split; reflexivity]).
        split; [exact K|]. unfold put_mail. cbn [mailbox Nat.eqb]. split; [|split; [exact B1|do 2 eexists; split; [reflexivity|]; split; [exact U|split; reflexivity]]].
        rewrite map_app, B0. unfold box0. rewrite (proj2 (Nat.leb_le a 5)) by lia. rewrite (proj2 (Nat.ltb_ge 6 a)) by lia. reflexivity.
      + assert (b = 11) as -> by lia. reflexivity.
  Qed.
  Lemma starting_two : two_at 0 0 (starting gstate unseeded 2).
  Proof. split; [reflexivity|]. split; [reflexivity|]. split; [reflexivity|]. do 2 eexists. split; [reflexivity|]. split; split; reflexivity. Qed.
  Lemma two_invariant s : forall p, (exists a b, two_at a b p) -> exists a b, two_at a b (exec s p).
  Proof.
    induction s as [|i s IH]; intros p (a & b & H); [eauto|]. cbn [Threadgen.exec fold_left]. apply IH. destruct i as [|[|i]].
    - pose proof (step0 a b p H) as S0. destruct (goes0 a b); [eauto|rewrite S0; eauto].
    - pose proof (step1 a b p H) as S1. destruct (goes1 a b); [eauto|rewrite S1; eauto].
    - rewrite (beside a b p _ H) by lia. eauto.
  Qed.
  Lemma two_remaining a b p : two_at a b p -> remaining p = (12 - a) + (11 - b).
  Proof. intros (_ & _ & _ & t & u & E & (T & _) & (U & _)). unfold remaining. rewrite E. cbn [fold_right]. rewrite T, U, !skipn_length. change (length (setup 2 0)) with 12. change (length (setup 2 1)) with 11. lia. Qed.
  Lemma two_progress a b p : two_at a b p -> finished gstate p \/ exists i, i < 2 /\ remaining (advance p i) < remaining p.
  Proof.
    intros H. pose proof (proj1 H) as P. apply possible_le in P as (Pa & Pb & P1 & P2 & P3). rewrite (two_remaining _ _ _ H). pose proof (step0 a b p H) as S0. pose proof (step1 a b p H) as S1.
    destruct (goes0 a b) eqn:G0; [right; exists 0; rewrite (two_remaining _ _ _ S0); pose proof (possible_le _ _ (proj1 S0)); lia|]. destruct (goes1 a b) eqn:G1; [right; exists 1; rewrite (two_remaining _ _ _ S1); pose proof (possible_le _ _ (proj1 S1)); lia|].
    left. assert (a = 12 /\ b = 11) as [-> ->].
    { unfold goes0 in G0. unfold goes1 in G1. rewrite !andb_false_iff, ?orb_false_iff, ?negb_false_iff, !Nat.ltb_ge, !Nat.eqb_eq in *. lia. }
    destruct H as (_ & _ & _ & t & u & E & (T & _) & (U & _)). unfold finished. rewrite E. constructor; [rewrite T; reflexivity|]. constructor; [rewrite U; reflexivity|constructor].
  Qed.
  (** C114: with two threads no order of steps makes the initialisation fail, and as long as it has not ended one of the threads can go on. *)
  Lemma k_C114_two_safe s : let p := exec s (starting gstate unseeded 2) in healthy gstate p /\ (finished gstate p \/ exists i, i < 2 /\ remaining (advance p i) < remaining p).
  Proof.
    destruct (two_invariant s _ (ex_intro _ 0 (ex_intro _ 0 starting_two))) as (a & b & H). split; [|exact (two_progress a b _ H)]. destruct H as (_ & _ & _ & t & u & E & (_ & T) & (_ & U)). unfold healthy. rewrite E. constructor; [exact T|]. constructor; [exact U|constructor].
  Qed.
  (** C114: from every state that two threads reach they can end. *)
  Lemma k_C114_two_ends s : exists s', let p := exec (s ++ s') (starting gstate unseeded 2) in finished gstate p /\ healthy gstate p.
  Proof.
    assert (W : forall r s, remaining (exec s (starting gstate unseeded 2)) <= r -> exists s', finished gstate (exec (s ++ s') (starting gstate unseeded 2))).
    { induction r as [|r IH]; intros s0 Hr; destruct (proj2 (k_C114_two_safe s0)) as [D|(i & _ & Hi)]; try (exists []; rewrite app_nil_r; exact D); [lia|].
      destruct (IH (s0 ++ [i])) as (s' & D); [unfold Threadgen.exec in *; rewrite fold_left_app; cbn [fold_left]; lia|]. exists (i :: s'). rewrite <- app_assoc in D. exact D. }
    destruct (W _ s (le_n _)) as (s' & D). exists s'. split; [exact D|]. exact (proj1 (k_C114_two_safe (s ++ s'))).
  Qed.
  Lemma two_move a b p i : two_at a b p -> advance p i = p \/ remaining (advance p i) < remaining p.
  Proof.
    intros H. pose proof (possible_le _ _ (proj1 H)) as P. rewrite (two_remaining _ _ _ H). destruct i as [|[|i]].
    - pose proof (step0 a b p H) as S0. destruct (goes0 a b); [right|now left]. rewrite (two_remaining _ _ _ S0). pose proof (possible_le _ _ (proj1 S0)). lia.
    - pose proof (step1 a b p H) as S1. destruct (goes1 a b); [right|now left]. rewrite (two_remaining _ _ _ S1). pose proof (possible_le _ _ (proj1 S1)). lia.
    - left. apply (beside a b p _ H). lia.
  Qed.
  Lemma two_round l : forall p, (exists a b, two_at a b p) -> (exec l p = p /\ Forall (fun i => advance p i = p) l) \/ remaining (exec l p) < remaining p.
  Proof.
    induction l as [|i l IH]; intros p (a & b & H); [left; split; [reflexivity|constructor]|]. cbn [Threadgen.exec fold_left]. pose proof (two_invariant [i] p (ex_intro _ a (ex_intro _ b H))) as K. cbn [Threadgen.exec fold_left] in K. specialize (IH _ K). unfold Threadgen.exec in IH. destruct (two_move a b p i H) as [E|L].
    - rewrite E in *. destruct IH as [[D F]|L]; [left; split; [exact D|now constructor]|now right].
    - right. destruct IH as [[-> _]|M]; lia.
  Qed.
  (** C114: under any fair scheduler two threads end: after as many rounds as there are steps, when each round gives both threads a turn. *)
  Lemma k_C114_two_fair s rounds : Forall (fun l => In 0 l /\ In 1 l) rounds -> 23 <= length rounds -> let p := exec (s ++ concat rounds) (starting gstate unseeded 2) in finished gstate p /\ healthy gstate p.
  Proof.
    intros HF HL. split; [|exact (proj1 (k_C114_two_safe _))]. assert (S : forall t, exists a b, two_at a b (exec t (starting gstate unseeded 2))) by (intros t; exact (two_invariant t _ (ex_intro _ 0 (ex_intro _ 0 starting_two)))).
    assert (W : forall t, finished gstate (exec (t ++ concat rounds) (starting gstate unseeded 2)) \/ remaining (exec (t ++ concat rounds) (starting gstate unseeded 2)) + length rounds <= remaining (exec t (starting gstate unseeded 2))).
    { clear HL s. induction rounds as [|l rounds IH]; intros t; [right; cbn; rewrite app_nil_r; lia|]. inversion HF as [|? ? [I0 I1] HF']; subst. specialize (IH HF' (t ++ l)). cbn [concat length]. rewrite <- app_assoc in IH. destruct IH as [D|IH]; [now left|].
      assert (X : exec (t ++ l) (starting gstate unseeded 2) = exec l (exec t (starting gstate unseeded 2))) by (unfold Threadgen.exec; apply fold_left_app). destruct (two_round l _ (S t)) as [[E F]|L]; [|right; rewrite X in IH; lia].
      destruct (proj2 (k_C114_two_safe t)) as [D|(i & Hi & Hlt)].
      - left. replace (t ++ l ++ concat rounds) with (t ++ (l ++ concat rounds)) by reflexivity. unfold Threadgen.exec in D |- *. rewrite fold_left_app. generalize (l ++ concat rounds). clear -D. set (p := fold_left _ t _) in *. clearbody p. intros r.
        induction r as [|i r IHr]; [exact D|]. cbn [fold_left]. replace (advance p i) with p; [exact IHr|]. unfold Threadgen.advance. destruct (nth_error (threads gstate p) i) as [u|] eqn:N; [|reflexivity]. unfold finished in D. rewrite Forall_forall in D. now rewrite (D u (nth_error_In _ _ N)).
      - exfalso. rewrite Forall_forall in F. assert (Q : advance (exec t (starting gstate unseeded 2)) i = exec t (starting gstate unseeded 2)) by (apply F; destruct i as [|[|i]]; [exact I0|exact I1|lia]). rewrite Q in Hlt. lia. }
    destruct (W s) as [D|L]; [exact D|]. destruct (S s) as (a & b & H). rewrite (two_remaining _ _ _ H) in L. destruct (proj2 (k_C114_two_safe (s ++ concat rounds))) as [D|(i & _ & Hi)]; [exact D|lia].
  Qed.
End Two.

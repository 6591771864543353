(** Proofs of C55. *)
Require Import List Arith Bool Lia Sorting.Permutation.
From Verif Require Import Launch.
Import ListNotations.

(** the values of the processes that return one (that can be sent), in rank order *)
Definition returned {V} (ps : list (outcome V)) : list V := flat_map (fun o => match o with Returns v (Some _) => [v] | _ => [] end) ps.
Definition bytes {V} (ps : list (outcome V)) : nat := fold_right Nat.add 0 (map (fun o => match o with Returns _ (Some s) => s | _ => 0 end) ps).
Definition fails {V} (o : outcome V) : bool := match o with Fails => true | _ => false end.
Definition put_count {V} (ps : list (outcome V)) : nat := length (filter (fun o => negb (fails o)) ps).
Inductive path {V} (maxsize : option nat) (capacity : nat) (ps : list (outcome V)) : nat -> world V -> world V -> Prop :=
| PNil w : path maxsize capacity ps 0 w w
| PCons n w w' w'' : step maxsize capacity ps w w' -> path maxsize capacity ps n w' w'' -> path maxsize capacity ps (S n) w w''.

Lemma set_nth_length {A} i (a : A) l : length (set_nth i a l) = length l.
Proof. revert i. induction l as [|b l IH]; intros [|i]; cbn; auto. Qed.
Lemma set_nth_same {A} i (a b : A) l : nth_error l i = Some b -> nth_error (set_nth i a l) i = Some a.
Proof. revert i. induction l as [|c l IH]; intros [|i] H; cbn in *; try discriminate; auto. Qed.
Lemma set_nth_other {A} i j (a : A) l : i <> j -> nth_error (set_nth i a l) j = nth_error l j.
Proof. revert i j. induction l as [|c l IH]; intros [|i] [|j] H; cbn; auto; try congruence. Qed.
Lemma set_nth_get {A} i (a b : A) l j : nth_error l i = Some b -> nth_error (set_nth i a l) j = if Nat.eqb i j then Some a else nth_error l j.
Proof. intros H. destruct (Nat.eqb_spec i j) as [<-|N]; [now apply (set_nth_same i a b)|now apply set_nth_other]. Qed.

(** sums over pairs of process and phase *)
Definition total {A B} (f : A -> B -> nat) (l : list A) (m : list B) : nat := fold_right Nat.add 0 (map (fun e => f (fst e) (snd e)) (combine l m)).
Lemma total_set {A B} (f : A -> B -> nat) l : forall m i o p q, nth_error l i = Some o -> nth_error m i = Some p -> total f l (set_nth i q m) + f o p = total f l m + f o q.
Proof.
  induction l as [|a l IH]; intros [|b m] [|i] o p q Ho Hp; cbn in Ho, Hp; try discriminate.
  - injection Ho as ->. injection Hp as ->. unfold total. cbn. lia.
  - specialize (IH m i o p q Ho Hp). unfold total in *. cbn in *. lia.
Qed.
Lemma total_get {A B} (f : A -> B -> nat) l : forall m i o p, nth_error l i = Some o -> nth_error m i = Some p -> f o p <= total f l m.
Proof. induction l as [|a l IH]; intros [|b m] [|i] o p Ho Hp; cbn in Ho, Hp; try discriminate; unfold total in *; cbn in *; [injection Ho as ->; injection Hp as ->; lia|]. specialize (IH m i o p Ho Hp). lia. Qed.
Lemma total_le {A B} (f g : A -> B -> nat) l m : (forall i o p, nth_error l i = Some o -> nth_error m i = Some p -> f o p <= g o p) -> total f l m <= total g l m.
Proof.
  revert m. induction l as [|a l IH]; intros [|b m] H; unfold total in *; cbn; auto. specialize (IH m (fun i o p Ho Hp => H (S i) o p Ho Hp)). specialize (H 0 a b eq_refl eq_refl). lia.
Qed.
Lemma total_lt {A B} (f g : A -> B -> nat) l m j o p : (forall i o p, nth_error l i = Some o -> nth_error m i = Some p -> f o p <= g o p) -> nth_error l j = Some o -> nth_error m j = Some p -> f o p < g o p -> total f l m < total g l m.
Proof.
  revert m j. induction l as [|a l IH]; intros [|b m] [|j] H Ho Hp L; cbn in Ho, Hp; try discriminate.
  - injection Ho as ->. injection Hp as ->. pose proof (total_le f g l m (fun i o p Ho Hp => H (S i) o p Ho Hp)). unfold total in *. cbn. lia.
  - specialize (IH m j (fun i o p Ho Hp => H (S i) o p Ho Hp) Ho Hp L). specialize (H 0 a b eq_refl eq_refl). unfold total in *. cbn. lia.
Qed.
Lemma total_add_lt {A B} (f g h : A -> B -> nat) l m j o p : (forall i o p, nth_error l i = Some o -> nth_error m i = Some p -> f o p <= h o p) -> nth_error l j = Some o -> nth_error m j = Some p -> f o p + g o p <= h o p -> total f l m + g o p <= total h l m.
Proof.
  revert m j. induction l as [|a l IH]; intros [|b m] [|j] H Ho Hp L; cbn in Ho, Hp; try discriminate.
  - injection Ho as ->. injection Hp as ->. pose proof (total_le f h l m (fun i o p Ho Hp => H (S i) o p Ho Hp)). unfold total in *. cbn. lia.
  - specialize (IH m j (fun i o p Ho Hp => H (S i) o p Ho Hp) Ho Hp L). specialize (H 0 a b eq_refl eq_refl). unfold total in *. cbn. lia.
Qed.
Lemma total_ext {A B} (f g : A -> B -> nat) l m : (forall i o p, nth_error l i = Some o -> nth_error m i = Some p -> f o p = g o p) -> total f l m = total g l m.
Proof. intros H. apply Nat.le_antisymm; apply total_le; intros i o p Ho Hp; rewrite (H i o p Ho Hp); lia. Qed.
Lemma total_fst {A B} (f : A -> nat) (l : list A) : forall m : list B, length l = length m -> total (fun a _ => f a) l m = fold_right Nat.add 0 (map f l).
Proof. unfold total. induction l as [|a l IH]; intros [|b m] E; cbn in *; try lia. rewrite IH; lia. Qed.

Lemma NoDup_app_snoc {A} (l : list A) a : NoDup l -> ~ In a l -> NoDup (l ++ [a]).
Proof. intros N H. apply (Permutation_NoDup (l := a :: l)); [apply Permutation_cons_append|now constructor]. Qed.
Section Proofs.
  Context {V : Type} (maxsize : option nat) (capacity : nat) (ps : list (outcome V)).
  Definition written (o : outcome V) (p : phase) : nat := match o, p with Returns _ (Some s), Writing l => s - l | Returns _ (Some s), Exited _ => s | _, _ => 0 end.
  Definition did_put (o : outcome V) (p : phase) : nat := match o, p with Fails, _ => 0 | _, Running => 0 | _, _ => 1 end.
  Definition consistent (sent : list (nat * V)) (i : nat) (o : outcome V) (p : phase) : Prop :=
    match p with
    | Running => ~ In i (map fst sent)
    | Writing l => ~ In i (map fst sent) /\ exists v s, o = Returns v (Some s) /\ l <= s
    | Exited c => match o with Fails => c = 1 /\ ~ In i (map fst sent) | Returns v None => c = 0 /\ ~ In i (map fst sent) | Returns v (Some _) => c = 0 /\ In (i, v) sent end
    end.
  Record inv (w : world V) : Prop := {
    i_len : length (phases w) = length ps;
    i_cons : forall i o p, nth_error ps i = Some o -> nth_error (phases w) i = Some p -> consistent (sent w) i o p;
    i_sent : forall i v, In (i, v) (sent w) -> exists s, nth_error ps i = Some (Returns v (Some s));
    i_nodup : NoDup (map fst (sent w));
    i_used : used w = total written ps (phases w);
    i_cap : used w <= capacity;
    i_puts : puts w = total did_put ps (phases w);
    i_max : match maxsize with None => True | Some m => puts w <= m end;
    i_lock : forall j, lock w = Some j -> exists l, nth_error (phases w) j = Some (Writing l) }.

  Lemma nth_both {A B} (l : list A) (m : list B) i a : length m = length l -> nth_error l i = Some a -> exists b, nth_error m i = Some b.
  Proof. intros E H. destruct (nth_error m i) eqn:F; [eauto|]. apply nth_error_None in F. assert (nth_error l i <> None) as L by congruence. apply nth_error_Some in L. lia. Qed.
  Lemma nth_repeat {A} (a : A) n i b : nth_error (repeat a n) i = Some b -> b = a.
  Proof. revert i. induction n as [|n IH]; intros [|i] H; cbn in H; try discriminate; [now injection H|eauto]. Qed.
  Lemma total_zero {A B} (f : A -> B -> nat) l m : (forall i o p, nth_error l i = Some o -> nth_error m i = Some p -> f o p = 0) -> total f l m = 0.
  Proof. intros H. rewrite (total_ext f (fun _ _ => 0) l m H). unfold total. induction (combine l m); cbn; auto. Qed.
  Lemma inv_start : inv (start ps).
  Proof.
    constructor; cbn; try tauto; try lia; try discriminate.
    - apply repeat_length.
    - intros i o p _ H. apply nth_repeat in H. subst. exact (fun F => F).
    - constructor.
    - rewrite total_zero; [reflexivity|]. intros i o p _ H. apply nth_repeat in H. subst. destruct o as [|v [|]]; reflexivity.
    - rewrite total_zero; [reflexivity|]. intros i o p _ H. apply nth_repeat in H. subst. destruct o as [|v [|]]; reflexivity.
    - destruct maxsize; [lia|exact I].
  Qed.
  Lemma others_consistent w i q extra : inv w -> (forall o p, nth_error ps i = Some o -> nth_error (phases w) i = Some p -> consistent (sent w ++ extra) i o q) ->
    (forall e, In e extra -> fst e = i) -> forall b, nth_error (phases w) i = Some b -> forall j o p, nth_error ps j = Some o -> nth_error (set_nth i q (phases w)) j = Some p -> consistent (sent w ++ extra) j o p.
  Proof.
    intros I H X b Hb j o p Ho Hp. rewrite (set_nth_get i q b) in Hp by exact Hb. destruct (Nat.eqb_spec i j) as [<-|N].
    - injection Hp as <-. eapply H; eassumption.
    - pose proof (i_cons w I j o p Ho Hp) as K. assert (Y : In j (map fst (sent w ++ extra)) -> In j (map fst (sent w))). { rewrite map_app. intros Z. apply in_app_or in Z as [Z|Z]; [exact Z|]. apply in_map_iff in Z as (e & <- & Z). exfalso. apply N. symmetry. now apply X. }
      destruct p; cbn in *; [tauto|tauto|]. destruct o as [|v [s|]]; try tauto. split; [tauto|]. apply in_or_app. now left.
  Qed.
  Lemma inv_step w w' : inv w -> step maxsize capacity ps w w' -> inv w'.
  Proof.
    intros I S. destruct S as [w i Hp Ho|w i v Hp Ho R|w i v size Hp Ho R|w i left k Hp L K U|w i left v size Hp Ho L U]; pose proof I as I0; destruct I as [A B C D E F G H J].
    - constructor; cbn [phases used puts lock sent].
      + now rewrite set_nth_length.
      + rewrite <- (app_nil_r (sent w)). eapply (others_consistent w i _ []); [exact I0| |intros e []|exact Hp]. intros o p Ho' Hp'. rewrite Ho in Ho'. injection Ho' as <-. rewrite app_nil_r. split; [reflexivity|]. exact (B i _ _ Ho Hp).
      + exact C.
      + exact D.
      + pose proof (total_set written ps (phases w) i _ _ (Exited 1) Ho Hp). cbn in *. lia.
      + exact F.
      + pose proof (total_set did_put ps (phases w) i _ _ (Exited 1) Ho Hp). cbn in *. lia.
      + exact H.
      + intros j Hj. destruct (J j Hj) as [l Hl]. exists l. rewrite (set_nth_get i _ _ _ _ Hp). destruct (Nat.eqb_spec i j); [subst; congruence|exact Hl].
    - constructor; cbn [phases used puts lock sent].
      + now rewrite set_nth_length.
      + rewrite <- (app_nil_r (sent w)). eapply (others_consistent w i _ []); [exact I0| |intros e []|exact Hp]. intros o p Ho' Hp'. rewrite Ho in Ho'. injection Ho' as <-. rewrite app_nil_r. split; [reflexivity|]. exact (B i _ _ Ho Hp).
      + exact C.
      + exact D.
      + pose proof (total_set written ps (phases w) i _ _ (Exited 0) Ho Hp). cbn in *. lia.
      + exact F.
      + pose proof (total_set did_put ps (phases w) i _ _ (Exited 0) Ho Hp). cbn in *. lia.
      + unfold room in R. destruct maxsize; [lia|exact I].
      + intros j Hj. destruct (J j Hj) as [l Hl]. exists l. rewrite (set_nth_get i _ _ _ _ Hp). destruct (Nat.eqb_spec i j); [subst; congruence|exact Hl].
    - constructor; cbn [phases used puts lock sent].
      + now rewrite set_nth_length.
      + rewrite <- (app_nil_r (sent w)). eapply (others_consistent w i _ []); [exact I0| |intros e []|exact Hp]. intros o p Ho' Hp'. rewrite Ho in Ho'. injection Ho' as <-. rewrite app_nil_r. split; [exact (B i _ _ Ho Hp)|]. exists v, size. auto.
      + exact C.
      + exact D.
      + pose proof (total_set written ps (phases w) i _ _ (Writing size) Ho Hp) as T. cbn in T. lia.
      + exact F.
      + pose proof (total_set did_put ps (phases w) i _ _ (Writing size) Ho Hp) as T. cbn in T. lia.
      + unfold room in R. destruct maxsize; [lia|exact I].
      + intros j Hj. destruct (J j Hj) as [l Hl]. exists l. rewrite (set_nth_get i _ _ _ _ Hp). destruct (Nat.eqb_spec i j); [subst; congruence|exact Hl].
    - destruct (nth_both (phases w) ps i _ (eq_sym A) Hp) as [o Ho]. destruct (B i o _ Ho Hp) as (NI & v & s & -> & Ls). constructor; cbn [phases used puts lock sent].
      + now rewrite set_nth_length.
      + rewrite <- (app_nil_r (sent w)). eapply (others_consistent w i _ []); [exact I0| |intros e []|exact Hp]. intros o p Ho' Hp'. rewrite Ho in Ho'. injection Ho' as <-. rewrite app_nil_r. split; [exact NI|]. exists v, s. split; [reflexivity|lia].
      + exact C.
      + exact D.
      + pose proof (total_set written ps (phases w) i _ _ (Writing (left - k)) Ho Hp) as T. cbn in T. lia.
      + exact U.
      + pose proof (total_set did_put ps (phases w) i _ _ (Writing (left - k)) Ho Hp) as T. cbn in T. lia.
      + exact H.
      + intros j [= <-]. exists (left - k). now apply (set_nth_same i _ (Writing left)).
    - destruct (B i _ _ Ho Hp) as (NI & v' & s & Ev & Ls). injection Ev as <- ->. constructor; cbn [phases used puts lock sent].
      + now rewrite set_nth_length.
      + eapply (others_consistent w i _ [(i, v)]); [exact I0| |intros e [<-|[]]; reflexivity|exact Hp]. intros o p Ho' Hp'. rewrite Ho in Ho'. injection Ho' as <-. split; [reflexivity|]. apply in_or_app. right. now left.
      + intros j v' Hj. apply in_app_or in Hj as [Hj|[Hj|[]]]; [now apply C|]. injection Hj as <- <-. now exists s.
      + rewrite map_app. cbn [map fst]. apply NoDup_app_snoc; assumption.
      + pose proof (total_set written ps (phases w) i _ _ (Exited 0) Ho Hp) as T. cbn in T. lia.
      + exact U.
      + pose proof (total_set did_put ps (phases w) i _ _ (Exited 0) Ho Hp) as T. cbn in T. lia.
      + exact H.
      + discriminate.
  Qed.
  Lemma inv_reachable w : reachable maxsize capacity ps w -> inv w.
  Proof. induction 1; [apply inv_start|eapply inv_step; eassumption]. Qed.

  (** *** Sorting *)
  Fixpoint increasing (l : list (nat * V)) : Prop := match l with [] => True | a :: r => Forall (fun b => fst a < fst b) r /\ increasing r end.
  Lemma insert_in (m : nat * V) l e : In e (insert m l) <-> e = m \/ In e l.
  Proof. induction l as [|x l IH]; cbn [insert]; [cbn; intuition|]. destruct (Nat.leb (fst m) (fst x)); cbn; [intuition|]. rewrite IH. intuition. Qed.
  Lemma insert_increasing (m : nat * V) l : increasing l -> ~ In (fst m) (map fst l) -> increasing (insert m l).
  Proof.
    induction l as [|x l IH]; intros S N; [cbn; auto|]. cbn [insert]. destruct S as [Sx S]. cbn in N. destruct (Nat.leb_spec (fst m) (fst x)).
    - split; [|split; assumption]. assert (fst m < fst x) by (apply Nat.le_neq; split; [assumption|intros E; apply N; now left]). constructor; [assumption|]. eapply Forall_impl; [|exact Sx]. cbn. lia.
    - split; [|apply IH; tauto]. apply Forall_forall. intros e He. apply insert_in in He as [->|He]; [assumption|]. rewrite Forall_forall in Sx. auto.
  Qed.
  Lemma sort_in (l : list (nat * V)) e : In e (sort_rank l) <-> In e l.
  Proof. induction l as [|m l IH]; [reflexivity|]. cbn [sort_rank fold_right]. rewrite insert_in. fold (sort_rank l). rewrite IH. cbn. intuition. Qed.
  Lemma sort_increasing (l : list (nat * V)) : NoDup (map fst l) -> increasing (sort_rank l).
  Proof.
    induction l as [|m l IH]; intros N; [exact I|]. cbn in N. apply NoDup_cons_iff in N as [N1 N2]. cbn [sort_rank fold_right]. apply insert_increasing; [now apply IH|]. fold (sort_rank l). intros F. apply N1. apply in_map_iff in F as (e & E & F). rewrite sort_in in F. apply in_map_iff. exists e. split; assumption.
  Qed.
  Lemma increasing_unique l : forall m, increasing l -> increasing m -> (forall e, In e l <-> In e m) -> l = m.
  Proof.
    induction l as [|a l IH]; intros [|b m] Sl Sm H; [reflexivity|destruct (proj2 (H b)); now left|destruct (proj1 (H a)); now left|]. destruct Sl as [Fa Sl], Sm as [Fb Sm]. rewrite Forall_forall in Fa, Fb.
    assert (a = b). { destruct (proj1 (H a) (or_introl eq_refl)) as [E|E]; [now symmetry|]. destruct (proj2 (H b) (or_introl eq_refl)) as [E'|E']; [assumption|]. specialize (Fa b E'). specialize (Fb a E). lia. } subst b. f_equal. apply IH; [assumption|assumption|].
    intros e. split; intros He.
    - destruct (proj1 (H e) (or_intror He)) as [<-|K]; [|assumption]. specialize (Fa a He). lia.
    - destruct (proj2 (H e) (or_intror He)) as [<-|K]; [|assumption]. specialize (Fb a He). lia.
  Qed.
  Fixpoint expected_from (i : nat) (l : list (outcome V)) : list (nat * V) :=
    match l with [] => [] | o :: l => match o with Returns v (Some _) => [(i, v)] | _ => [] end ++ expected_from (S i) l end.
  Lemma expected_in l : forall i j v, In (j, v) (expected_from i l) <-> i <= j /\ exists s, nth_error l (j - i) = Some (Returns v (Some s)).
  Proof.
    induction l as [|o l IH]; intros i j v; cbn [expected_from]; [split; [intros []|intros (_ & s & E); destruct (j - i); discriminate]|]. rewrite in_app_iff, IH. split.
    - intros [H|(L & s & E)]; [destruct o as [|v' [s|]]; try contradiction; destruct H as [H|[]]; injection H as <- <-; split; [lia|]; rewrite Nat.sub_diag; now exists s|]. split; [lia|]. exists s. replace (j - i) with (S (j - S i)) by lia. exact E.
    - intros (L & s & E). destruct (Nat.eq_dec i j) as [<-|N]; [left; rewrite Nat.sub_diag in E; cbn in E; injection E as ->; now left|]. right. split; [lia|]. exists s. replace (j - i) with (S (j - S i)) in E by lia. exact E.
  Qed.
  Lemma expected_increasing l : forall i, increasing (expected_from i l).
  Proof.
    induction l as [|o l IH]; intros i; [exact I|]. cbn [expected_from]. destruct o as [|v [s|]]; cbn [app]; auto. split; [|apply IH]. apply Forall_forall. intros [j u] H. apply expected_in in H. cbn. lia.
  Qed.
  Lemma expected_values l : forall i, map snd (expected_from i l) = returned l.
  Proof. induction l as [|o l IH]; intros i; [reflexivity|]. cbn [expected_from returned flat_map]. rewrite map_app, IH. destruct o as [|v [s|]]; reflexivity. Qed.

  Lemma joined_get (w : world V) i p : joined w -> nth_error (phases w) i = Some p -> exists c, p = Exited c.
  Proof. intros J H. apply nth_error_In in H. unfold joined in J. rewrite Forall_forall in J. specialize (J p H). destruct p; try contradiction. eauto. Qed.
  Lemma k_C55_result w : reachable maxsize capacity ps w -> joined w -> result w = if existsb fails ps then None else Some (returned ps).
  Proof.
    intros R J. apply inv_reachable in R as I. unfold result. destruct (existsb fails ps) eqn:F.
    - apply existsb_exists in F as (o & Io & Fo). apply In_nth_error in Io as [i Ho]. destruct (nth_both ps (phases w) i o (i_len w I) Ho) as [p Hp]. destruct (joined_get w i p J Hp) as [c ->]. destruct o; try discriminate. destruct (i_cons w I i _ _ Ho Hp) as [-> _].
      destruct (forallb _ (phases w)) eqn:E; [|reflexivity]. rewrite forallb_forall in E. specialize (E _ (nth_error_In _ _ Hp)). discriminate.
    - assert (Z : forallb (fun p => match p with Exited c => Nat.eqb c 0 | _ => false end) (phases w) = true).
      { apply forallb_forall. intros p Hp. apply In_nth_error in Hp as [i Hp]. destruct (joined_get w i p J Hp) as [c ->]. destruct (nth_both (phases w) ps i _ (eq_sym (i_len w I)) Hp) as [o Ho]. pose proof (i_cons w I i o _ Ho Hp) as K. cbn in K.
        destruct o as [|v [s|]]; [|destruct K as [-> _]; reflexivity|destruct K as [-> _]; reflexivity]. exfalso. assert (existsb fails ps = true); [|congruence]. apply existsb_exists. exists Fails. split; [now apply nth_error_In in Ho|reflexivity]. }
      rewrite Z. f_equal. rewrite <- (expected_values ps 0). f_equal. apply increasing_unique; [apply sort_increasing, I|apply expected_increasing|]. intros [j v]. rewrite sort_in, expected_in, Nat.sub_0_r. split.
      + intros H. split; [lia|]. now apply (i_sent w I).
      + intros (_ & s & E). destruct (nth_both ps (phases w) j _ (i_len w I) E) as [p Hp]. destruct (joined_get w j p J Hp) as [c ->]. apply (i_cons w I j _ _ E Hp).
  Qed.
  Lemma put_total (m : list phase) : length ps = length m -> (forall i o p, nth_error ps i = Some o -> nth_error m i = Some p -> p <> Running) -> total did_put ps m = put_count ps.
  Proof.
    intros E H. rewrite (total_ext did_put (fun o _ => if fails o then 0 else 1) ps m); [rewrite (total_fst (fun o => if fails o then 0 else 1)) by exact E|].
    - unfold put_count. clear. induction ps as [|o l IH]; [reflexivity|]. cbn. destruct (fails o); cbn; lia.
    - intros i o p Ho Hp. specialize (H i o p Ho Hp). destruct o, p; try reflexivity; contradiction.
  Qed.
  Lemma k_C55_deadlock w : reachable maxsize capacity ps w -> capacity < bytes ps \/ match maxsize with Some m => m < put_count ps | None => False end -> ~ joined w.
  Proof.
    intros R H J. apply inv_reachable in R as I. destruct H as [H|H].
    - pose proof (i_cap w I) as U. rewrite (i_used w I) in U. rewrite (total_ext written (fun o _ => match o with Returns _ (Some s) => s | _ => 0 end)) in U.
      + rewrite (total_fst (fun o : outcome V => match o with Returns _ (Some s) => s | _ => 0 end)) in U by (symmetry; apply I). fold (bytes ps) in U. lia.
      + intros i o p Ho Hp. destruct (joined_get w i p J Hp) as [c ->]. destruct o as [|v [s|]]; reflexivity.
    - pose proof (i_max w I) as M. destruct maxsize as [m|]; [|contradiction]. rewrite (i_puts w I), put_total in M; [lia|symmetry; apply I|]. intros i o p _ Hp. destruct (joined_get w i p J Hp) as [c ->]. discriminate.
  Qed.

  (** *** Progress *)
  Lemma joined_dec (w : world V) : joined w \/ exists i p, nth_error (phases w) i = Some p /\ match p with Exited _ => False | _ => True end.
  Proof.
    unfold joined. destruct (Forall_Exists_dec (fun p => match p with Exited _ => True | _ => False end) (fun p => ltac:(destruct p; [right|right|left]; tauto)) (phases w)) as [J|J]; [now left|right].
    apply Exists_exists in J as (p & Hp & N). apply In_nth_error in Hp as [i Hp]. exists i, p. split; [exact Hp|]. destruct p; tauto.
  Qed.
  Lemma written_le o p : match o, p with Returns _ (Some s), Writing l => l <= s | _, _ => True end -> written o p <= match o with Returns _ (Some s) => s | _ => 0 end.
  Proof. destruct o as [|v [s|]], p; cbn; lia. Qed.
  Lemma k_C55_progress w : reachable maxsize capacity ps w -> bytes ps <= capacity -> (match maxsize with Some m => put_count ps <= m | None => True end) -> joined w \/ exists w', step maxsize capacity ps w w'.
  Proof.
    intros R C M. apply inv_reachable in R as I. destruct (joined_dec w) as [J|(i & p & Hp & N)]; [now left|right].
    assert (Fl : forall j l, nth_error (phases w) j = Some (Writing l) -> (lock w = None \/ lock w = Some j) -> exists w', step maxsize capacity ps w w').
    { intros j l Hj Lk. destruct (nth_both (phases w) ps j _ (eq_sym (i_len w I)) Hj) as [o Ho]. destruct (i_cons w I j o _ Ho Hj) as (_ & v & s & -> & Ls). eexists. eapply StFlush; [exact Hj|exact Ho|exact Lk|].
      rewrite (i_used w I). pose proof (total_add_lt written (fun _ p => match p with Writing l => l | _ => 0 end) (fun o _ => match o with Returns _ (Some s) => s | _ => 0 end) ps (phases w) j (Returns v (Some s)) (Writing l)) as T.
      rewrite (total_fst (fun o : outcome V => match o with Returns _ (Some s) => s | _ => 0 end)) in T by (symmetry; apply I). fold (bytes ps) in T. cbn in T. enough (total written ps (phases w) + l <= bytes ps) by lia. apply T; [|exact Ho|exact Hj|lia].
      intros i' o' p' Ho' Hp'. apply written_le. pose proof (i_cons w I i' o' p' Ho' Hp') as K. destruct o' as [|v' [s'|]], p'; auto. cbn in K. destruct K as (_ & v2 & s2 & E & L). injection E as <- <-. exact L. }
    destruct (lock w) as [j|] eqn:Lk; [destruct (i_lock w I j Lk) as [l Hl]; apply (Fl j l Hl); now right|].
    destruct p as [|l|c]; [|apply (Fl i l Hp); now left|contradiction]. destruct (nth_both (phases w) ps i _ (eq_sym (i_len w I)) Hp) as [o Ho].
    assert (Rm : fails o = false -> room maxsize w).
    { intros Fo. unfold room. destruct maxsize as [m|]; [|exact Logic.I]. rewrite (i_puts w I). enough (total did_put ps (phases w) < put_count ps) by lia. unfold put_count.
      assert (E : length (filter (fun o => negb (fails o)) ps) = total (fun o _ => if fails o then 0 else 1) ps (phases w)). { rewrite (total_fst (fun o => if fails o then 0 else 1)) by (symmetry; apply I). clear. induction ps as [|x l IH]; [reflexivity|]. cbn. destruct (fails x); cbn; lia. }
      rewrite E. apply (total_lt _ _ ps (phases w) i o Running); [|exact Ho|exact Hp|rewrite Fo; destruct o; cbn; [discriminate|lia]]. intros i' o' p' _ _. destruct o', p'; cbn; lia. }
    destruct o as [|v [s|]]; eexists.
    - eapply StFail; eassumption.
    - eapply StPut; [eassumption|eassumption|]. now apply Rm.
    - eapply StDrop; [eassumption|eassumption|]. now apply Rm.
  Qed.
  Definition weight (o : outcome V) (p : phase) : nat := match p with Running => 2 + match o with Returns _ (Some s) => s | _ => 0 end | Writing l => 1 + l | Exited _ => 0 end.
  Lemma step_measure w w' : inv w -> step maxsize capacity ps w w' -> total weight ps (phases w') < total weight ps (phases w).
  Proof.
    intros I S. destruct S as [w i Hp Ho|w i v Hp Ho R|w i v size Hp Ho R|w i left k Hp L K U|w i left v size Hp Ho L U]; cbn [phases].
    - pose proof (total_set weight ps (phases w) i _ _ (Exited 1) Ho Hp) as T. cbn in T. lia.
    - pose proof (total_set weight ps (phases w) i _ _ (Exited 0) Ho Hp) as T. cbn in T. lia.
    - pose proof (total_set weight ps (phases w) i _ _ (Writing size) Ho Hp) as T. cbn in T. lia.
    - destruct (nth_both (phases w) ps i _ (eq_sym (i_len w I)) Hp) as [o Ho]. pose proof (total_set weight ps (phases w) i _ _ (Writing (left - k)) Ho Hp) as T. cbn in T. lia.
    - pose proof (total_set weight ps (phases w) i _ _ (Exited 0) Ho Hp) as T. cbn in T. lia.
  Qed.
  Lemma path_bound n w w' : path maxsize capacity ps n w w' -> inv w -> n + total weight ps (phases w') <= total weight ps (phases w).
  Proof. induction 1; intros I; [lia|]. specialize (IHpath (inv_step _ _ I H)). pose proof (step_measure _ _ I H). lia. Qed.
  Lemma start_weight : total weight ps (phases (start ps)) = 2 * length ps + bytes ps.
  Proof.
    unfold start, bytes. cbn [phases]. rewrite (total_ext weight (fun o _ => 2 + match o with Returns _ (Some s) => s | _ => 0 end)); [|intros i o p _ H; apply nth_repeat in H; subst; reflexivity].
    rewrite (total_fst (fun o : outcome V => 2 + match o with Returns _ (Some s) => s | _ => 0 end)) by (symmetry; apply repeat_length). induction ps as [|o l IH]; [reflexivity|]. cbn -[Nat.mul] in *. lia.
  Qed.
  Lemma k_C55_finite n w : path maxsize capacity ps n (start ps) w -> n <= 2 * length ps + bytes ps.
  Proof. intros P. pose proof (path_bound n _ _ P inv_start) as H. rewrite start_weight in H. lia. Qed.
  Lemma k_C55_joinable : bytes ps <= capacity -> (match maxsize with Some m => put_count ps <= m | None => True end) -> forall w, reachable maxsize capacity ps w -> exists n w', path maxsize capacity ps n w w' /\ joined w'.
  Proof.
    intros C M w R. remember (total weight ps (phases w)) as k eqn:E. revert w R E. induction k as [k IH] using lt_wf_ind. intros w R E. destruct (k_C55_progress w R C M) as [J|[w' S]]; [exists 0, w; split; [constructor|exact J]|].
    destruct (IH (total weight ps (phases w'))) with (w := w') as (n & w2 & P & J); [subst k; apply step_measure; [now apply inv_reachable|exact S]|econstructor; eassumption|reflexivity|]. exists (Datatypes.S n), w2. split; [econstructor; eassumption|exact J].
  Qed.
End Proofs.

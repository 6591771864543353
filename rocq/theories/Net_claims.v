(** C92: parties over torch.distributed. *)
Require Import List ZArith Bool Arith Lia Wellfounded.
From Verif Require Import Ring64 Sharing Sharing_proofs Net.
Import ListNotations.
Open Scope nat_scope.

(** *** Lists *)
Lemma set_nth_length {A} i (a : A) l : length (set_nth i a l) = length l.
Proof. revert i. induction l as [|b l IH]; intros [|i]; cbn; auto. Qed.
Lemma nth_error_set_same {A} i (a : A) l : i < length l -> nth_error (set_nth i a l) i = Some a.
Proof. revert i. induction l as [|b l IH]; intros [|i] H; cbn in *; try lia; auto. apply IH. lia. Qed.
Lemma nth_error_set_other {A} i j (a : A) l : i <> j -> nth_error (set_nth i a l) j = nth_error l j.
Proof. revert i j. induction l as [|b l IH]; intros [|i] [|j] H; cbn; auto; try lia. Qed.
Lemma nth_set_same {A} i (a d : A) l : i < length l -> nth i (set_nth i a l) d = a.
Proof. revert i. induction l as [|b l IH]; intros [|i] H; cbn in *; try lia; auto. apply IH. lia. Qed.
Lemma nth_set_other {A} i j (a d : A) l : i <> j -> nth j (set_nth i a l) d = nth j l d.
Proof. revert i j. induction l as [|b l IH]; intros [|i] [|j] H; cbn; auto; try lia. Qed.
Lemma set_nth_comm {A} i j (a b : A) l : i <> j -> set_nth i a (set_nth j b l) = set_nth j b (set_nth i a l).
Proof. revert i j. induction l as [|c l IH]; intros [|i] [|j] H; cbn; auto; try lia. f_equal. apply IH. lia. Qed.
Lemma set_nth_twice {A} i (a b : A) l : set_nth i a (set_nth i b l) = set_nth i a l.
Proof. revert i. induction l as [|c l IH]; intros [|i]; cbn; auto. f_equal. apply IH. Qed.
Lemma set_nth_id {A} i (a : A) l : nth_error l i = Some a -> set_nth i a l = l.
Proof. revert i. induction l as [|c l IH]; intros [|i] H; cbn in *; try discriminate; [congruence|]. f_equal. auto. Qed.
Lemma set_nth_nth {A} i (d : A) l : set_nth i (nth i l d) l = l.
Proof. revert i. induction l as [|c l IH]; intros [|i]; cbn; auto. f_equal. apply IH. Qed.
Lemma nth_error_lt {A} (l : list A) i a : nth_error l i = Some a -> i < length l.
Proof. intros H. apply nth_error_Some. congruence. Qed.
Lemma set_nth_over {A} i (a : A) l : length l <= i -> set_nth i a l = l.
Proof. revert i. induction l as [|c l IH]; intros [|i] H; cbn in *; auto; [lia|]. f_equal. apply IH. lia. Qed.

(** *** Runs *)
Section Runs.
  Context {W V A : Type}.
  Notation prog := (prog W V A).
  Notation state := (@state W V A).
  (** no party can go on *)
  Definition stuck (s : state) : Prop := forall l, move l s = None.
  (** one of the runs from [s] comes to an end in [t] *)
  Definition ends (s t : state) : Prop := exists ls, run ls s = Some t /\ stuck t.

  Lemma run_app ls ls' (s : state) : run (ls ++ ls') s = match run ls s with Some t => run ls' t | None => None end.
  Proof. revert s. induction ls as [|l ls IH]; intros s; cbn; [reflexivity|]. destruct (move l s); [apply IH|reflexivity]. Qed.

  (** *** A step takes a party to a part of its program *)
  Inductive child : prog -> prog -> Prop :=
  | CSend d m k : child k (Send d m k)
  | CRecv src b k m : child (k m) (Recv src b k)
  | CCall c k r : child (k r) (Call c k)
  | CAct f k v : child (k v) (Act f k).
  Lemma child_wf : well_founded child.
  Proof. intros p. induction p as [r|d m k IH|src b k IH|c k IH|f k IH]; constructor; intros q H; inversion H; subst; auto. Qed.
  Definition lec (a b : prog) : Prop := a = b \/ child a b.
  Inductive less : list prog -> list prog -> Prop :=
  | Here a b l l' : child a b -> Forall2 lec l l' -> less (a :: l) (b :: l')
  | There a b l l' : lec a b -> less l l' -> less (a :: l) (b :: l').
  Lemma less_or l l' : Forall2 lec l l' -> l = l' \/ less l l'.
  Proof. intros H. induction H as [|a b l l' Hab H IH]; [now left|]. destruct Hab as [->|Hc]; [|right; now constructor]. destruct IH as [->|L]; [now left|right; now constructor 2; [left|]]. Qed.
  Lemma less_acc_cons b : Acc child b -> forall l, Acc less l -> Acc less (b :: l).
  Proof.
    intros Hb. induction Hb as [b _ IHb]. intros l Hl. induction Hl as [l Hl IHl]. constructor. intros l0 H. inversion H as [a b' l1 l2 Hc Hf|a b' l1 l2 Hc Hf]; subst.
    - apply IHb; [exact Hc|]. destruct (less_or _ _ Hf) as [->|L]; [now constructor|now apply Hl].
    - destruct Hc as [->|Hc]; [now apply IHl|]. apply IHb; [exact Hc|]. now apply Hl.
  Qed.
  Lemma less_wf : well_founded less.
  Proof. intros l. induction l as [|b l IH]; [constructor; intros l H; inversion H|]. apply less_acc_cons; [apply child_wf|exact IH]. Qed.
  Lemma lec_refl l : Forall2 lec l l.
  Proof. induction l; constructor; auto. now left. Qed.
  Lemma less_set i a b l : nth_error l i = Some b -> child a b -> less (set_nth i a l) l.
  Proof. revert i. induction l as [|c l IH]; intros [|i] H Hc; cbn in *; try discriminate. - injection H as ->. constructor; [exact Hc|apply lec_refl]. - constructor 2; [now left|]. now apply IH. Qed.
  Lemma calls_spec (ps : list prog) cks : calls ps = Some cks -> ps = map (fun ck => Call (fst ck) (snd ck)) cks.
  Proof. revert cks. induction ps as [|p ps IH]; intros cks; cbn; [intros [= <-]; reflexivity|]. destruct p; try discriminate. destruct (calls ps) as [l|]; [|discriminate]. intros [= <-]. cbn. f_equal. now apply IH. Qed.
  Lemma calls_map (cks : list (call * (reply -> prog))) : calls (map (fun ck => Call (fst ck) (snd ck)) cks) = Some cks.
  Proof. induction cks as [|[c k] cks IH]; cbn; [reflexivity|]. now rewrite IH. Qed.
  Lemma less_all (cks : list (call * (reply -> prog))) g i : cks <> [] -> less (map (fun pk => snd (snd pk) (g (fst pk))) (combine (seq i (length cks)) cks)) (map (fun ck => Call (fst ck) (snd ck)) cks).
  Proof.
    intros H. destruct cks as [|[c k] cks]; [congruence|]. clear H. cbn [length seq combine map fst snd]. constructor; [constructor|].
    generalize (S i). induction cks as [|[c' k'] cks IH]; intros j; cbn [length seq combine map fst snd]; constructor; [right; constructor|apply IH].
  Qed.
  Lemma move_less l (s s' : state) : move l s = Some s' -> less (procs s') (procs s).
  Proof.
    destruct l as [p|]; cbn [move].
    - destruct (nth_error (procs s) p) as [[r|d m k|src b k|c k|f k]|] eqn:E; try discriminate.
      + destruct (_ && _); [|discriminate]. intros [= <-]. cbn [procs]. apply (less_set _ _ _ _ E). constructor.
      + destruct (_ <? _); [|discriminate]. destruct (nth _ _ _) as [|m rest]; [discriminate|]. destruct (fits b m); [|discriminate]. intros [= <-]. cbn [procs]. apply (less_set _ _ _ _ E). constructor.
      + destruct (f (world s)) as [w v]. intros [= <-]. cbn [procs]. apply (less_set _ _ _ _ E). constructor.
    - destruct (calls (procs s)) as [cks|] eqn:E; [|discriminate]. destruct (compatible _) eqn:C; [|discriminate]. intros [= <-]. cbn [procs]. rewrite (calls_spec _ _ E). apply less_all. intros ->. discriminate.
  Qed.
  (** it can be decided whether a party can go on *)
  Lemma move_out p (s : state) : length (procs s) <= p -> move (Some p) s = None.
  Proof. intros H. cbn [move]. now rewrite (proj2 (nth_error_None _ _) H). Qed.
  Lemma find_move (s : state) : stuck s \/ exists l s', move l s = Some s'.
  Proof.
    destruct (move None s) eqn:E; [right; eauto|].
    assert (H : forall n, (forall p, p < n -> move (Some p) s = None) \/ exists l s', move l s = Some s').
    { induction n as [|n [IH|IH]]; [left; lia| |now right]. destruct (move (Some n) s) eqn:E1; [right; eauto|]. left. intros p Hp. destruct (Nat.eq_dec p n) as [->|]; [exact E1|]. apply IH. lia. }
    destruct (H (length (procs s))) as [L|R]; [left|now right]. intros [p|]; [|exact E]. destruct (Nat.lt_ge_cases p (length (procs s))); [now apply L|now apply move_out].
  Qed.
  Lemma some_end (s : state) : exists t, ends s t.
  Proof.
    remember (procs s) as ps eqn:E. revert s E. induction (less_wf ps) as [ps _ IH]. intros s ->. destruct (find_move s) as [St|(l & s' & M)].
    - exists s, []. now split.
    - destruct (IH (procs s') (move_less _ _ _ M) s' eq_refl) as (t & ls & R & St). exists t, (l :: ls). cbn. now rewrite M.
  Qed.

  Lemma idx_inj n p q d e : d < n -> e < n -> p * n + d = q * n + e -> p = q /\ d = e.
  Proof. intros Hd He H. assert (p = q) by nia. subst. lia. Qed.

  (** *** Steps of different parties commute, when the shared world has only one state *)
  Lemma calls_none (ps : list prog) p x : nth_error ps p = Some x -> (forall c k, x <> Call c k) -> calls ps = None.
  Proof. revert p. induction ps as [|y ps IH]; intros [|p] H N; cbn in *; try discriminate. - injection H as ->. destruct x; try reflexivity. exfalso. eapply N. reflexivity. - destruct y; try reflexivity. now rewrite (IH _ H N). Qed.
  Lemma party_not_all p (s s' : state) : move (Some p) s = Some s' -> move None s = None.
  Proof. cbn [move]. destruct (nth_error (procs s) p) as [x|] eqn:E; [|discriminate]. intros M. assert (N : forall c k, x <> Call c k) by (intros c k ->; discriminate). now rewrite (calls_none _ _ _ E N). Qed.
  Definition sized (s : state) : Prop := length (chans s) = length (procs s) * length (procs s).
  Lemma all_length (s s' : state) : move None s = Some s' -> length (procs s') = length (procs s).
  Proof. cbn [move]. destruct (calls (procs s)) as [cks|] eqn:E; [|discriminate]. destruct (compatible _); [|discriminate]. intros [= <-]. cbn [procs]. rewrite (calls_spec _ _ E), !map_length, combine_length, seq_length. lia. Qed.
  Lemma move_length l (s s' : state) : move l s = Some s' -> length (procs s') = length (procs s).
  Proof.
    destruct l as [p|]; [|apply all_length]. cbn [move]. destruct (nth_error (procs s) p) as [[r|d m k|src b k|c k|f k]|] eqn:E; try discriminate.
    - destruct (_ && _); [|discriminate]. intros [= <-]. apply set_nth_length.
    - destruct (_ <? _); [|discriminate]. destruct (nth _ _ _) as [|m rest]; [discriminate|]. destruct (fits b m); [|discriminate]. intros [= <-]. apply set_nth_length.
    - destruct (f (world s)) as [w v]. intros [= <-]. apply set_nth_length.
  Qed.
  Lemma move_sized l (s s' : state) : sized s -> move l s = Some s' -> sized s'.
  Proof.
    unfold sized. intros H M. rewrite (move_length _ _ _ M), <- H. revert M. destruct l as [p|]; cbn [move].
    - destruct (nth_error (procs s) p) as [[r|d m k|src b k|c k|f k]|] eqn:E; try discriminate.
      + destruct (_ && _); [|discriminate]. intros [= <-]. apply set_nth_length.
      + destruct (_ <? _); [|discriminate]. destruct (nth _ _ _) as [|m rest]; [discriminate|]. destruct (fits b m); [|discriminate]. intros [= <-]. apply set_nth_length.
      + destruct (f (world s)) as [w v]. intros [= <-]. reflexivity.
    - destruct (calls (procs s)) as [cks|]; [|discriminate]. destruct (compatible _); [|discriminate]. intros [= <-]. reflexivity.
  Qed.
  Hypothesis one : forall a b : W, a = b.
  Lemma diamond (s s1 s2 : state) p q : sized s -> p <> q -> move (Some p) s = Some s1 -> move (Some q) s = Some s2 -> exists s', move (Some q) s1 = Some s' /\ move (Some p) s2 = Some s'.
  Proof.
    intros Z N M1 M2. unfold sized in Z. cbn [move] in M1, M2. set (n := length (procs s)) in *.
    destruct (nth_error (procs s) p) as [xp|] eqn:Ep; [|discriminate]. destruct (nth_error (procs s) q) as [xq|] eqn:Eq; [|discriminate].
    pose proof (nth_error_lt _ _ _ Ep) as Lp. pose proof (nth_error_lt _ _ _ Eq) as Lq. fold n in Lp, Lq.
    assert (Wc : forall (x y z : list prog) (u v : list (list msg)) (w w' : W), x = y -> u = v -> mkState x u w = mkState y v w') by (intros; subst; f_equal; apply one).
    destruct xp as [r|d m k|src b k|c k|f k]; try discriminate.
    - destruct (_ && _) eqn:Cd in M1; [|discriminate]. injection M1 as <-. apply andb_prop in Cd as (Cd & Cdp). pose proof (proj1 (Nat.ltb_lt _ _) Cd) as Ld.
      destruct xq as [r|d' m' k'|src' b' k'|c' k'|f' k']; try discriminate.
      + destruct (_ && _) eqn:Ce in M2; [|discriminate]. injection M2 as <-. apply andb_prop in Ce as (Ce & Ceq). pose proof (proj1 (Nat.ltb_lt _ _) Ce) as Le.
        assert (I : p * n + d <> q * n + d') by (intros H; apply idx_inj in H; lia).
        cbn [move procs chans world]. rewrite !set_nth_length, !nth_error_set_other, Ep, Eq by lia. fold n. rewrite Cd, Cdp, Ce, Ceq. cbn [andb]. eexists; split; [reflexivity|]. f_equal. f_equal; [now apply set_nth_comm; lia|]. rewrite !nth_set_other by lia. apply set_nth_comm. lia.
      + destruct (_ <? _) eqn:Cs in M2; [|discriminate]. pose proof (proj1 (Nat.ltb_lt _ _) Cs) as Ls. destruct (nth (src' * n + q) (chans s) []) as [|h rest] eqn:Ec; [discriminate|]. destruct (fits b' h) eqn:F; [|discriminate]. injection M2 as <-.
        cbn [move procs chans world]. rewrite !set_nth_length, !nth_error_set_other, Ep, Eq by lia. fold n. rewrite Cd, Cdp, Cs. cbn [andb].
        destruct (Nat.eq_dec (p * n + d) (src' * n + q)) as [I|I].
        * rewrite I, Ec. rewrite !nth_set_same by nia. cbn [app]. rewrite F. eexists; split; [reflexivity|]. f_equal. f_equal; [apply set_nth_comm; lia|]. now rewrite !set_nth_twice.
        * rewrite !nth_set_other by lia. rewrite Ec, F. eexists; split; [reflexivity|]. f_equal. f_equal; apply set_nth_comm; lia.
      + destruct (f' (world s)) as [w v] eqn:Ef. injection M2 as <-. cbn [move procs chans world]. rewrite !set_nth_length, !nth_error_set_other, Ep, Eq by lia. fold n. rewrite Cd, Cdp, Ef. cbn [andb]. eexists; split; [reflexivity|]. f_equal. f_equal. apply set_nth_comm. lia.
    - destruct (_ <? _) eqn:Cp in M1; [|discriminate]. pose proof (proj1 (Nat.ltb_lt _ _) Cp) as Lsp. destruct (nth (src * n + p) (chans s) []) as [|h rest] eqn:Ec; [discriminate|]. destruct (fits b h) eqn:F; [|discriminate]. injection M1 as <-.
      destruct xq as [r|d' m' k'|src' b' k'|c' k'|f' k']; try discriminate.
      + destruct (_ && _) eqn:Ce in M2; [|discriminate]. injection M2 as <-. apply andb_prop in Ce as (Ce & Ceq). pose proof (proj1 (Nat.ltb_lt _ _) Ce) as Le.
        cbn [move procs chans world]. rewrite !set_nth_length, !nth_error_set_other, Ep, Eq by lia. fold n. rewrite Ce, Ceq, Cp. cbn [andb].
        destruct (Nat.eq_dec (q * n + d') (src * n + p)) as [I|I].
        * rewrite I, Ec. rewrite !nth_set_same by nia. cbn [app]. rewrite F. eexists; split; [reflexivity|]. f_equal. f_equal; [apply set_nth_comm; lia|]. now rewrite !set_nth_twice.
        * rewrite !nth_set_other by lia. rewrite Ec, F. eexists; split; [reflexivity|]. f_equal. f_equal; apply set_nth_comm; lia.
      + destruct (_ <? _) eqn:Cs in M2; [|discriminate]. pose proof (proj1 (Nat.ltb_lt _ _) Cs) as Ls. destruct (nth (src' * n + q) (chans s) []) as [|h' rest'] eqn:Ec'; [discriminate|]. destruct (fits b' h') eqn:F'; [|discriminate]. injection M2 as <-.
        assert (I : src * n + p <> src' * n + q) by (intros H; apply idx_inj in H; lia).
        cbn [move procs chans world]. rewrite !set_nth_length, !nth_error_set_other, Ep, Eq by lia. fold n. rewrite Cp, Cs, !nth_set_other, Ec, Ec', F, F' by lia. eexists; split; [reflexivity|]. f_equal. f_equal; apply set_nth_comm; lia.
      + destruct (f' (world s)) as [w v] eqn:Ef. injection M2 as <-. cbn [move procs chans world]. rewrite !set_nth_length, !nth_error_set_other, Ep, Eq by lia. fold n. rewrite Cp, Ec, F, Ef. eexists; split; [reflexivity|]. f_equal. f_equal. apply set_nth_comm. lia.
    - destruct (f (world s)) as [w v] eqn:Ef. injection M1 as <-. rewrite (one w (world s)) in Ef |- *. clear w.
      destruct xq as [r|d' m' k'|src' b' k'|c' k'|f' k']; try discriminate.
      + destruct (_ && _) eqn:Ce in M2; [|discriminate]. injection M2 as <-. apply andb_prop in Ce as (Ce & Ceq). cbn [move procs chans world]. rewrite !set_nth_length, !nth_error_set_other, Ep, Eq by lia. fold n. rewrite Ce, Ceq, Ef. cbn [andb]. eexists; split; [reflexivity|]. f_equal. f_equal. apply set_nth_comm. lia.
      + destruct (_ <? _) eqn:Cs in M2; [|discriminate]. destruct (nth (src' * n + q) (chans s) []) as [|h' rest'] eqn:Ec'; [discriminate|]. destruct (fits b' h') eqn:F'; [|discriminate]. injection M2 as <-.
        cbn [move procs chans world]. rewrite !set_nth_length, !nth_error_set_other, Ep, Eq by lia. fold n. rewrite Cs, Ec', F', Ef. eexists; split; [reflexivity|]. f_equal. f_equal. apply set_nth_comm. lia.
      + destruct (f' (world s)) as [w' v'] eqn:Ef'. injection M2 as <-. rewrite (one w' (world s)) in Ef' |- *. cbn [move procs chans world]. rewrite !nth_error_set_other, Ep, Eq, Ef, Ef' by lia. eexists; split; [reflexivity|]. f_equal. f_equal. apply set_nth_comm. lia.
  Qed.
  Lemma catch_up (s s1 t : state) l ls : sized s -> move l s = Some s1 -> run ls s = Some t -> stuck t -> exists ls1, run ls1 s1 = Some t /\ length ls = S (length ls1).
  Proof.
    revert s s1. induction ls as [|a ls IH]; intros s s1 Z M R St.
    - injection R as <-. rewrite St in M. discriminate.
    - cbn [run] in R. destruct (move a s) as [s2|] eqn:Ma; [|discriminate]. assert (Da : a = l \/ a <> l) by (destruct a as [a|], l as [l|]; try (destruct (Nat.eq_dec a l); [left; congruence|right; congruence]); try (right; congruence); now left).
      destruct Da as [->|Da]; [exists ls; split; [congruence|reflexivity]|].
      assert (exists p q, a = Some p /\ l = Some q) as (p & q & -> & ->).
      { destruct a as [p|], l as [q|]; [eauto| | |congruence]; [rewrite (party_not_all _ _ _ Ma) in M; discriminate|rewrite (party_not_all _ _ _ M) in Ma; discriminate]. }
      assert (Dp : p <> q) by congruence. destruct (diamond _ _ _ _ _ Z Dp Ma M) as (s' & A1 & A2). destruct (IH s2 s' (move_sized _ _ _ Z Ma) A1 R St) as (ls1 & R1 & L1). exists (Some p :: ls1). cbn [run length]. rewrite A2, L1. split; [exact R1|reflexivity].
  Qed.
  Lemma catch_up_run (s u t : state) ls ls' : sized s -> run ls' s = Some u -> run ls s = Some t -> stuck t -> exists ls1, run ls1 u = Some t /\ length ls = length ls' + length ls1.
  Proof.
    revert s ls. induction ls' as [|l ls' IH]; intros s ls Z R' R St; cbn [run] in R'.
    - injection R' as <-. exists ls. now split.
    - destruct (move l s) as [s1|] eqn:M; [|discriminate]. destruct (catch_up _ _ _ _ _ Z M R St) as (ls1 & R1 & L1). destruct (IH s1 ls1 (move_sized _ _ _ Z M) R' R1 St) as (ls2 & R2 & L2). exists ls2. cbn [length]. split; [exact R2|lia].
  Qed.
  Lemma ends_run (s u t : state) ls : sized s -> run ls s = Some u -> (ends s t <-> ends u t).
  Proof.
    intros Z R. split.
    - intros (ls' & R' & St). destruct (catch_up_run _ _ _ _ _ Z R R' St) as (ls1 & R1 & _). now exists ls1.
    - intros (ls' & R' & St). exists (ls ++ ls'). rewrite run_app, R. now split.
  Qed.
  Lemma outcome (s : state) : sized s -> exists t n, stuck t /\ forall ls u, run ls s = Some u -> exists ls', run ls' u = Some t /\ length ls + length ls' = n.
  Proof. intros Z. destruct (some_end s) as (t & ls & R & St). exists t, (length ls). split; [exact St|]. intros ls' u R'. destruct (catch_up_run _ _ _ _ _ Z R' R St) as (ls1 & R1 & L). now exists ls1. Qed.
End Runs.

(** *** All parties in a collective *)
(** [n] parties that run the programs [F 0], ..., [F (n-1)] *)
Definition net {W V A} (n : nat) (F : nat -> prog W V A) (ch : list (list msg)) (w : W) : state W V A := mkState (map F (seq 0 n)) ch w.
Lemma calls_net {W V A} n (c : nat -> call) (k : nat -> reply -> prog W V A) : calls (map (fun p => Call (c p) (k p)) (seq 0 n)) = Some (map (fun p => (c p, k p)) (seq 0 n)).
Proof. rewrite <- calls_map, map_map. reflexivity. Qed.
Lemma combine_seq {B C} (f : nat -> B) (g : nat * B -> C) n : map g (combine (seq 0 n) (map f (seq 0 n))) = map (fun p => g (p, f p)) (seq 0 n).
Proof. generalize 0. induction n as [|n IH]; intros i; cbn [seq map combine]; [reflexivity|]. now rewrite IH. Qed.
Lemma move_net {W V A} n (c : nat -> call) (k : nat -> reply -> prog W V A) ch w : compatible (map c (seq 0 n)) = true ->
  move None (net n (fun p => Call (c p) (k p)) ch w) = Some (net n (fun p => k p (answer (map c (seq 0 n)) p)) ch w).
Proof.
  intros C. unfold net. cbn [move procs chans world]. rewrite calls_net. replace (map fst (map (fun p => (c p, k p)) (seq 0 n))) with (map c (seq 0 n)) by (rewrite map_map; reflexivity). rewrite C. rewrite map_length, seq_length. rewrite (combine_seq (fun p => (c p, k p)) (fun pk => snd (snd pk) (answer (map c (seq 0 n)) (fst pk)))). reflexivity.
Qed.
Lemma nth_error_net {B} n (F : nat -> B) p : nth_error (map F (seq 0 n)) p = if p <? n then Some (F p) else None.
Proof. destruct (Nat.ltb_spec p n) as [H|H]. - rewrite (map_nth_error F p (seq 0 n) (d := p)); [reflexivity|]. rewrite (nth_error_nth' _ 0) by (rewrite seq_length; exact H). now rewrite seq_nth. - apply nth_error_None. now rewrite map_length, seq_length. Qed.
Lemma move_call {W V A} (s : state W V A) p c k : nth_error (procs s) p = Some (Call c k) -> move (Some p) s = None.
Proof. intros H. cbn [move]. now rewrite H. Qed.
Lemma move_done {W V A} (s : state W V A) p r : nth_error (procs s) p = Some (Done r) -> move (Some p) s = None.
Proof. intros H. cbn [move]. now rewrite H. Qed.
Lemma ends_call {W V A} n (c : nat -> call) (k : nat -> reply -> prog W V A) ch w t : compatible (map c (seq 0 n)) = true ->
  (ends (net n (fun p => Call (c p) (k p)) ch w) t <-> ends (net n (fun p => k p (answer (map c (seq 0 n)) p)) ch w) t).
Proof.
  intros C. pose proof (move_net n c k ch w C) as M. split; intros (ls & R & St).
  - destruct ls as [|[p|] ls]; cbn [run] in R.
    + injection R as <-. now rewrite St in M.
    + exfalso. replace (move (Some p) _) with (@None (state W V A)) in R; [discriminate|]. symmetry. destruct (Nat.lt_ge_cases p n) as [H|H]; [|apply move_out; unfold net; cbn [procs]; now rewrite map_length, seq_length]. eapply move_call. unfold net. cbn [procs]. rewrite nth_error_net, (proj2 (Nat.ltb_lt _ _) H). reflexivity.
    + rewrite M in R. now exists ls.
  - exists (None :: ls). cbn [run]. rewrite M. now split.
Qed.
Lemma ends_ext {W V A} n (F G : nat -> prog W V A) ch w t : (forall p, p < n -> F p = G p) -> (ends (net n F ch w) t <-> ends (net n G ch w) t).
Proof. intros H. unfold net. rewrite (map_ext_in F G); [reflexivity|]. intros p Hp. apply in_seq in Hp. apply H. lia. Qed.

Lemma fits_spec a b : fits a b = true <-> kind a = kind b /\ length (elems a) = length (elems b).
Proof. unfold fits. rewrite andb_true_iff, Nat.eqb_eq. destruct (kind a), (kind b); cbn; intuition discriminate. Qed.
Lemma same_op_spec a b : same_op a b = true <-> a = b.
Proof. destruct a, b; cbn; intuition discriminate. Qed.
Lemma matches_trans a b c : matches a b = true -> matches a c = true -> matches b c = true.
Proof.
  destruct a, b; cbn [matches]; try discriminate; destruct c; cbn [matches]; try discriminate; rewrite ?andb_true_iff, ?Nat.eqb_eq, ?fits_spec, ?same_op_spec; intuition congruence.
Qed.
Lemma matches_sym a b : matches a b = true -> matches b a = true.
Proof. destruct a, b; cbn [matches]; try discriminate; rewrite ?andb_true_iff, ?Nat.eqb_eq, ?fits_spec, ?same_op_spec; intuition congruence. Qed.
(** compatibility, when the calls are alike *)
Lemma compatible_net n (c : nat -> call) : 0 < n -> (forall p, p < n -> matches (c 0) (c p) = true) -> complete (map c (seq 0 n)) = true -> compatible (map c (seq 0 n)) = true.
Proof.
  intros H M C. destruct n as [|n]; [lia|]. cbn [seq map] in *. unfold compatible. rewrite C, andb_true_r. apply forallb_forall. intros x Hx. apply in_map_iff in Hx as (p & <- & Hp). apply in_seq in Hp. apply M. lia.
Qed.
Lemma nth_net {B} n (F : nat -> B) p d : p < n -> nth p (map F (seq 0 n)) d = F p.
Proof. intros H. apply nth_error_nth with (d := d). rewrite nth_error_net, (proj2 (Nat.ltb_lt _ _) H). reflexivity. Qed.

(** element i of the reduction: over the parties *)
Definition total (o : op) (n : nat) (x : nat -> list Z) (L : nat) : list Z := map (fun i => fold_left (apply_op o) (map (fun p => nth i (x p) 0%Z) (seq 1 (n - 1))) (nth i (x 0) 0%Z)) (seq 0 L).
Lemma reduction_total o n x L : 0 < n -> (forall p, p < n -> length (x p) = L) -> reduction o (map (fun p => mkMsg Long (x p)) (seq 0 n)) = mkMsg Long (total o n x L).
Proof.
  intros H E. destruct n as [|n]; [lia|]. cbn [seq map reduction kind elems]. f_equal. rewrite map_map. cbn [elems]. unfold total. replace (S n - 1) with n by lia.
  assert (F : Forall (fun t => length t = L) (map (fun p => x p) (seq 1 n))). { apply Forall_forall. intros t Ht. apply in_map_iff in Ht as (p & <- & Hp). apply in_seq in Hp. apply E. lia. }
  apply nth_ext with (d := 0%Z) (d' := 0%Z). - rewrite map_length, seq_length. apply fold_zipw_shape; [apply E; lia|exact F].
  - intros i Hi. rewrite (fold_zipw_shape _ L) in Hi by (first [exact F|apply E; lia]). rewrite (fold_zipw_nth _ L) by (first [exact F|apply E; lia|exact Hi]). rewrite nth_net by exact Hi. now rewrite map_map.
Qed.

(** C92: with a sum, every element is the sum over the parties, modulo 2^64. *)
Lemma k_C92_sum n x L i : 2 <= n -> i < L -> nth i (total SUM n x L) 0%Z = wrap (zsum (map (fun p => nth i (x p) 0%Z) (seq 0 n))).
Proof.
  intros H Hi. unfold total. rewrite nth_net by exact Hi. destruct n as [|[|n]]; [lia|lia|]. replace (S (S n) - 1) with (S n) by lia. cbn [seq map fold_left apply_op]. symmetry. apply wrap_unique.
  - apply fold_wadd_in64, wadd_in64.
  - rewrite fold_wadd_eqm, wadd_eqm, !zsum_cons. apply eqm_refl_eq. ring.
Qed.

(** the elements at index i of the parties' tensors *)
Definition held (n : nat) (x : nat -> list Z) (i : nat) : list Z := map (fun p => nth i (x p) 0%Z) (seq 0 n).
Lemma nth_total o n x L i : 0 < n -> i < L -> exists a l, held n x i = a :: l /\ length l = n - 1 /\ nth i (total o n x L) 0%Z = fold_left (apply_op o) l a.
Proof.
  intros H Hi. unfold total, held. rewrite nth_net by exact Hi. destruct n as [|n]; [lia|]. replace (S n - 1) with n by lia. cbn [seq map]. do 2 eexists. split; [reflexivity|]. split; [now rewrite map_length, seq_length|reflexivity].
Qed.
Lemma fold_wmul_eqm l a : eqm (fold_left wmul l a) (a * fold_right Z.mul 1 l)%Z.
Proof. revert a. induction l as [|b l IH]; intros a; cbn [fold_left fold_right]; [apply eqm_refl_eq; ring|]. rewrite IH, wmul_eqm. apply eqm_refl_eq. ring. Qed.
Lemma fold_wmul_in64 l a : in64 a -> in64 (fold_left wmul l a).
Proof. revert a. induction l as [|b l IH]; intros a Ha; cbn [fold_left]; [exact Ha|]. apply IH, wrap_in64. Qed.
(** C92: with a product, it is their product modulo 2^64. *)
Lemma k_C92_product n x L i : 2 <= n -> i < L -> nth i (total PRODUCT n x L) 0%Z = wrap (fold_right Z.mul 1%Z (held n x i)).
Proof.
  intros H Hi. destruct (nth_total PRODUCT n x L i ltac:(lia) Hi) as (a & [|b l] & -> & Hl & ->); [cbn [length] in Hl; lia|]. cbn [fold_left apply_op fold_right]. symmetry. apply wrap_unique.
  - apply fold_wmul_in64, wrap_in64.
  - rewrite fold_wmul_eqm, wmul_eqm. apply eqm_refl_eq. ring.
Qed.
Lemma fold_min_least l a : (In (fold_left Z.min l a) (a :: l) /\ forall b, In b (a :: l) -> fold_left Z.min l a <= b)%Z.
Proof.
  revert a. induction l as [|c l IH]; intros a; cbn [fold_left]; [split; [now left|intros b [->|[]]; lia]|]. destruct (IH (Z.min a c)) as (I & F). split.
  - destruct I as [<-|I]; [destruct (Z.min_spec a c) as [(_ & ->)|(_ & ->)]; cbn; auto|right; now right].
  - intros b Hb. cbn [In] in Hb. destruct Hb as [<-|[<-|Hb]]; [specialize (F (Z.min a c) (or_introl eq_refl)); lia|specialize (F (Z.min a c) (or_introl eq_refl)); lia|apply F; now right].
Qed.
Lemma fold_max_greatest l a : (In (fold_left Z.max l a) (a :: l) /\ forall b, In b (a :: l) -> b <= fold_left Z.max l a)%Z.
Proof.
  revert a. induction l as [|c l IH]; intros a; cbn [fold_left]; [split; [now left|intros b [->|[]]; lia]|]. destruct (IH (Z.max a c)) as (I & F). split.
  - destruct I as [<-|I]; [destruct (Z.max_spec a c) as [(_ & ->)|(_ & ->)]; cbn; auto|right; now right].
  - intros b Hb. cbn [In] in Hb. destruct Hb as [<-|[<-|Hb]]; [specialize (F (Z.max a c) (or_introl eq_refl)); lia|specialize (F (Z.max a c) (or_introl eq_refl)); lia|apply F; now right].
Qed.
(** C92: with a minimum or maximum, it is the least or greatest of them. *)
Lemma k_C92_extremes n x L i : 0 < n -> i < L -> let lo := nth i (total MIN n x L) 0%Z in let hi := nth i (total MAX n x L) 0%Z in
  In lo (held n x i) /\ In hi (held n x i) /\ forall a, In a (held n x i) -> (lo <= a <= hi)%Z.
Proof.
  intros H Hi. cbv zeta. destruct (nth_total MIN n x L i H Hi) as (a & l & E & _ & ->). destruct (nth_total MAX n x L i H Hi) as (a' & l' & E' & _ & ->). rewrite E in E'. injection E' as <- <-. rewrite E. cbn [apply_op].
  destruct (fold_min_least l a) as (I & F), (fold_max_greatest l a) as (J & G). split; [exact I|]. split; [exact J|]. intros b Hb. split; [apply F, Hb|apply G, Hb].
Qed.
Lemma fold_testbit (f : Z -> Z -> Z) (g : bool -> bool -> bool) k : (forall a b, Z.testbit (f a b) k = g (Z.testbit a k) (Z.testbit b k)) -> forall l a, Z.testbit (fold_left f l a) k = fold_left g (map (fun b => Z.testbit b k) l) (Z.testbit a k).
Proof. intros F l. induction l as [|b l IH]; intros a; cbn [fold_left map]; [reflexivity|]. now rewrite IH, F. Qed.
(** C92: with a bitwise operation, a bit is set when it is set at all, at some, or at an odd number of the parties. *)
Lemma k_C92_bits n x L i k : 0 < n -> i < L -> let bits := map (fun a => Z.testbit a k) (held n x i) in
  Z.testbit (nth i (total BAND n x L) 0%Z) k = forallb (fun b => b) bits /\ Z.testbit (nth i (total BOR n x L) 0%Z) k = existsb (fun b => b) bits /\
  Z.testbit (nth i (total BXOR n x L) 0%Z) k = Nat.odd (length (filter (fun b => b) bits)).
Proof.
  intros H Hi. cbv zeta. destruct (nth_total BAND n x L i H Hi) as (a & l & E & _ & ->), (nth_total BOR n x L i H Hi) as (a1 & l1 & E1 & _ & ->), (nth_total BXOR n x L i H Hi) as (a2 & l2 & E2 & _ & ->).
  rewrite E in E1, E2. injection E1 as <- <-. injection E2 as <- <-. rewrite E. cbn [apply_op map]. rewrite (fold_testbit _ andb), (fold_testbit _ orb), (fold_testbit _ xorb) by (intros; first [apply Z.land_spec|apply Z.lor_spec|apply Z.lxor_spec]).
  generalize (Z.testbit a k). induction (map (fun b => Z.testbit b k) l) as [|b bs IH]; intros c; [destruct c; cbn; auto|]. cbn [fold_left]. destruct (IH (c && b)) as (I1 & _), (IH (c || b)) as (_ & I2 & _), (IH (xorb c b)) as (_ & _ & I3). rewrite I1, I2, I3. split; [|split].
  - cbn [forallb]. now rewrite andb_assoc.
  - cbn [existsb]. now rewrite orb_assoc.
  - destruct c, b; cbn [xorb filter length]; rewrite ?Nat.odd_succ, ?Nat.even_succ; reflexivity.
Qed.

(** C92: every run of the parties ends, all in the same state and after the same number of steps, whatever the schedule. *)
Lemma k_C92_outcome {V A} (ps : list (prog unit V A)) : exists t n, (forall l, move l t = None) /\
  forall ls u, run ls (initial ps tt) = Some u -> exists ls', run ls' u = Some t /\ length ls + length ls' = n.
Proof. apply outcome; [intros [] []; reflexivity|]. unfold sized, initial. cbn [procs chans]. apply repeat_length. Qed.

(** C92: ... and with effects outside the network too every run can be continued to an end, where no party can move. *)
Lemma k_C92_ends {W V A} (s : state W V A) ls u : run ls s = Some u -> exists t ls', run (ls ++ ls') s = Some t /\ forall l, move l t = None.
Proof. intros R. destruct (some_end u) as (t & ls' & R' & St). exists t, ls'. rewrite run_app, R. now split. Qed.

(** C92: all_reduce gives every party the reduction; the parties then go on with it. *)
Lemma k_C92_all_reduce {W V A} n x L o (K : nat -> value -> prog W V A) ch w t : 2 <= n -> (forall p, p < n -> length (x p) = L) ->
  (ends (net n (fun p => all_reduce n (mkMsg Long (x p)) o (K p)) ch w) t <-> ends (net n (fun p => K p (VTensor (mkMsg Long (total o n x L)))) ch w) t).
Proof.
  intros H E. assert (N : n <? 2 = false) by (apply Nat.ltb_ge; exact H). unfold all_reduce, alone. rewrite N. rewrite ends_call.
  - apply ends_ext. intros p Hp. unfold answer. rewrite nth_net by exact Hp. rewrite map_map. cbn [contribution data]. rewrite (reduction_total _ _ _ L) by (try exact E; lia). reflexivity.
  - apply compatible_net; [lia| |]. + intros p Hp. cbn [matches]. rewrite andb_true_iff, same_op_spec, fits_spec. cbn [kind elems]. rewrite !E by lia. auto. + destruct n; [lia|]. reflexivity.
Qed.
(** C92: all_reduce of a list of tensors reduces each with the other parties' tensor at the same place. *)
Lemma k_C92_all_reduce_batched {W V A} n (xs : list (nat -> list Z)) L o (K : nat -> list value -> prog W V A) ch w t : 2 <= n -> (forall x, In x xs -> forall p, p < n -> length (x p) = L x) ->
  (ends (net n (fun p => all_reduce_batched (map (fun x => mkMsg Long (x p)) xs) o (K p)) ch w) t <-> ends (net n (fun p => K p (map (fun x => VTensor (mkMsg Long (total o n x (L x)))) xs)) ch w) t).
Proof.
  intros H. revert K. induction xs as [|x xs IH]; intros K E; cbn [map all_reduce_batched]; [reflexivity|].
  rewrite (ends_call n (fun p => AllReduce o (mkMsg Long (x p))) (fun p => data (fun v => all_reduce_batched (map (fun x => mkMsg Long (x p)) xs) o (fun vs => K p (v :: vs))))).
  - rewrite <- (IH (fun p vs => K p (VTensor (mkMsg Long (total o n x (L x))) :: vs))) by (intros y Hy; apply E; now right).
    apply ends_ext. intros p Hp. unfold answer. rewrite nth_net by exact Hp. rewrite map_map. cbn [contribution data]. rewrite (reduction_total _ _ _ (L x)) by (try (apply E; now left); lia). reflexivity.
  - apply compatible_net; [lia| |]. + intros p Hp. cbn [matches]. rewrite andb_true_iff, same_op_spec, fits_spec. cbn [kind elems]. rewrite !(E x) by (try (now left); lia). auto. + destruct n; [lia|]. reflexivity.
Qed.
(** C92: reduce gives it to the destination only. *)
Lemma k_C92_reduce {W V A} n x L o dst (K : nat -> value -> prog W V A) ch w t : 2 <= n -> dst < n -> (forall p, p < n -> length (x p) = L) ->
  (ends (net n (fun p => reduce n (mkMsg Long (x p)) dst o (K p)) ch w) t <-> ends (net n (fun p => K p (if p =? dst then VTensor (mkMsg Long (total o n x L)) else VNone)) ch w) t).
Proof.
  intros H D E. assert (N : n <? 2 = false) by (apply Nat.ltb_ge; exact H). unfold reduce, alone. rewrite N. rewrite ends_call.
  - apply ends_ext. intros p Hp. unfold answer. rewrite nth_net by exact Hp. rewrite map_map. cbn [contribution]. destruct (p =? dst); [|reflexivity]. cbn [data]. rewrite (reduction_total _ _ _ L) by (try exact E; lia). reflexivity.
  - apply compatible_net; [lia| |]. + intros p Hp. cbn [matches]. rewrite !andb_true_iff, Nat.eqb_eq, same_op_spec, fits_spec. cbn [kind elems]. rewrite !E by lia. auto. + destruct n; [lia|]. cbn [seq map complete]. apply Nat.ltb_lt. cbn [length]. rewrite map_length, seq_length. exact D.
Qed.
(** C92: gather gives the destination the tensors in the order of the ranks. *)
Lemma k_C92_gather {W V A} n x L dst (K : nat -> error + value -> prog W V A) ch w t : 2 <= n -> dst < n -> (forall p, p < n -> length (x p) = L) ->
  (ends (net n (fun p => gather n p (mkMsg Long (x p)) dst (K p)) ch w) t <-> ends (net n (fun p => K p (inr (if p =? dst then VList (map (fun q => mkMsg Long (x q)) (seq 0 n)) else VNones))) ch w) t).
Proof.
  intros H D E. assert (N : n <? 2 = false) by (apply Nat.ltb_ge; exact H). unfold gather, alone. rewrite N. cbn [kind same_dtype negb].
  transitivity (ends (net n (fun p => Call (Gather dst (mkMsg Long (x p))) (fun r => match r with Many ms => K p (inr (VList ms)) | _ => K p (inr VNones) end)) ch w) t). { apply ends_ext. intros p _. now rewrite andb_false_r. }
  rewrite (ends_call n (fun p => Gather dst (mkMsg Long (x p))) (fun p r => match r with Many ms => K p (inr (VList ms)) | _ => K p (inr VNones) end)).
  - apply ends_ext. intros p Hp. unfold answer. rewrite nth_net by exact Hp. rewrite map_map. cbn [contribution]. destruct (p =? dst); reflexivity.
  - apply compatible_net; [lia| |]. + intros p Hp. cbn [matches]. rewrite !andb_true_iff, Nat.eqb_eq, fits_spec. cbn [kind elems]. rewrite !E by lia. auto. + destruct n; [lia|]. cbn [seq map complete]. apply Nat.ltb_lt. cbn [length]. rewrite map_length, seq_length. exact D.
Qed.
(** C92: all_gather gives them to every party. *)
Lemma k_C92_all_gather {W V A} n x L (K : nat -> error + value -> prog W V A) ch w t : 2 <= n -> (forall p, p < n -> length (x p) = L) ->
  (ends (net n (fun p => all_gather n (mkMsg Long (x p)) (K p)) ch w) t <-> ends (net n (fun p => K p (inr (VList (map (fun q => mkMsg Long (x q)) (seq 0 n))))) ch w) t).
Proof.
  intros H E. assert (N : n <? 2 = false) by (apply Nat.ltb_ge; exact H). unfold all_gather, alone. rewrite N. cbn [kind same_dtype negb]. rewrite (ends_call n (fun p => AllGather (mkMsg Long (x p))) (fun p r => data (fun v => K p (inr v)) r)).
  - apply ends_ext. intros p Hp. unfold answer. rewrite nth_net by exact Hp. rewrite map_map. reflexivity.
  - apply compatible_net; [lia| |]. + intros p Hp. cbn [matches]. rewrite fits_spec. cbn [kind elems]. rewrite !E by lia. auto. + destruct n; [lia|]. reflexivity.
Qed.
(** C92: broadcast gives every party the source's tensor, whatever its type. *)
Lemma k_C92_broadcast {W V A} n ty x L src (K : nat -> value -> prog W V A) ch w t : 2 <= n -> src < n -> (forall p, p < n -> length (x p) = L) ->
  (ends (net n (fun p => broadcast n (mkMsg ty (x p)) src (K p)) ch w) t <-> ends (net n (fun p => K p (VTensor (mkMsg ty (x src)))) ch w) t).
Proof.
  intros H D E. assert (N : n <? 2 = false) by (apply Nat.ltb_ge; exact H). unfold broadcast, alone. rewrite N. rewrite ends_call.
  - apply ends_ext. intros p Hp. unfold answer. rewrite nth_net by exact Hp. rewrite map_map. cbn [contribution data]. now rewrite nth_net.
  - apply compatible_net; [lia| |]. + intros p Hp. cbn [matches]. rewrite andb_true_iff, Nat.eqb_eq, fits_spec. cbn [kind elems]. rewrite !E by lia. auto. + destruct n; [lia|]. cbn [seq map complete]. apply Nat.ltb_lt. cbn [length]. rewrite map_length, seq_length. exact D.
Qed.
(** C92: scatter gives party p the source's p-th tensor; the lists of the other parties do not matter. *)
Lemma k_C92_scatter {W V A} n (x : nat -> list Z) L (other : nat -> list msg) src (K : nat -> value -> prog W V A) ch w t : 2 <= n -> src < n -> (forall p, p < n -> length (x p) = L) ->
  (ends (net n (fun p => scatter n p (if p =? src then map (fun q => mkMsg Long (x q)) (seq 0 n) else other p) src L (K p)) ch w) t <-> ends (net n (fun p => K p (VTensor (mkMsg Long (x p)))) ch w) t).
Proof.
  intros H D E. assert (N : n <? 2 = false) by (apply Nat.ltb_ge; exact H). unfold scatter, alone. rewrite N. set (l := map (fun q => mkMsg Long (x q)) (seq 0 n)).
  set (c := fun p => if p =? src then Scatter src (mkMsg Long (x p)) l else Scatter src (mkMsg Long (repeat 0%Z L)) []).
  assert (Ll : length l = n) by (unfold l; now rewrite map_length, seq_length).
  transitivity (ends (net n (fun p => Call (c p) (data (K p))) ch w) t). { apply ends_ext. intros p Hp. unfold c. destruct (p =? src) eqn:Ep; [|reflexivity]. unfold l at 1. now rewrite nth_net. }
  assert (Cs : nth src (map c (seq 0 n)) Barrier = Scatter src (mkMsg Long (x src)) l). { rewrite nth_net by exact D. unfold c. now rewrite Nat.eqb_refl. }
  rewrite (ends_call n c (fun p => data (K p))).
  - apply ends_ext. intros p Hp. unfold answer. rewrite (nth_net n c p) by exact Hp. assert (exists b y, c p = Scatter src b y) as (b & y & ->) by (unfold c; destruct (p =? src); eauto). cbv iota. rewrite Cs. cbn [list_of data]. unfold l. now rewrite nth_net.
  - apply compatible_net; [lia| |].
    + intros p Hp. assert (Q : forall q, q < n -> exists b y, c q = Scatter src (mkMsg Long b) y /\ length b = L). { intros q Hq. unfold c. destruct (q =? src); eexists _, _; (split; [reflexivity|]); [now apply E|apply repeat_length]. }
      destruct (Q 0 ltac:(lia)) as (b & y & -> & E1). destruct (Q p Hp) as (b' & y' & -> & E2). cbn [matches]. rewrite andb_true_iff, Nat.eqb_eq, fits_spec. cbn [kind elems]. rewrite E1, E2. auto.
    + assert (Q : exists b y, c 0 = Scatter src (mkMsg Long b) y /\ length b = L). { unfold c. destruct (0 =? src) eqn:E0; eexists _, _; (split; [reflexivity|]); [apply E; lia|apply repeat_length]. }
      destruct Q as (b & y & E0 & Lb). destruct (map c (seq 0 n)) as [|c0 rest] eqn:Em; [destruct n; [lia|discriminate]|]. assert (c0 = c 0) by (destruct n; [lia|]; cbn [seq map] in Em; congruence). subst c0. rewrite E0 in Cs |- *. rewrite E0 in Em. cbn [complete]. rewrite Cs. cbn [list_of]. rewrite Ll.
      assert (Lm : length (Scatter src (mkMsg Long b) y :: rest) = n) by (rewrite <- Em, map_length, seq_length; reflexivity). rewrite Lm, Nat.eqb_refl, (proj2 (Nat.ltb_lt _ _) D). cbn [andb]. apply forallb_forall. intros m Hm. unfold l in Hm. apply in_map_iff in Hm as (q & <- & Hq). apply in_seq in Hq. apply fits_spec. cbn [kind elems]. rewrite E by lia. auto.
Qed.
(** C92: after a barrier the parties go on. *)
Lemma k_C92_barrier {W V A} n (K : nat -> prog W V A) ch w t : 0 < n -> (ends (net n (fun p => barrier (K p)) ch w) t <-> ends (net n K ch w) t).
Proof. intros H. unfold barrier. rewrite (ends_call n (fun _ => Barrier) (fun p _ => K p)); [reflexivity|]. apply compatible_net; [lia|reflexivity|]. destruct n; [lia|]. reflexivity. Qed.

(** C92: parties that enter different collectives (kind, root, operation, type or number of elements) all stay there. *)
Lemma k_C92_mismatch {W V A} n c (k : nat -> reply -> prog W V A) ch w t p q : p < n -> q < n -> matches (c p) (c q) = false ->
  ends (net n (fun p => Call (c p) (k p)) ch w) t -> t = net n (fun p => Call (c p) (k p)) ch w.
Proof.
  intros Hp Hq M (ls & R & St). assert (C : compatible (map c (seq 0 n)) = false).
  { destruct (compatible _) eqn:C; [|reflexivity]. exfalso. destruct n as [|n]; [lia|]. cbn [seq map compatible] in C. apply andb_prop in C as (C & _). rewrite forallb_forall in C.
    assert (Q : forall i, i < S n -> i = 0 \/ matches (c 0) (c i) = true). { intros [|i] Hi; [now left|right]. apply C, in_map_iff. exists (S i). split; [reflexivity|]. apply in_seq. lia. }
    assert (Refl : forall a, matches a a = true). { intros []; cbn [matches]; rewrite ?Nat.eqb_refl, ?(proj2 (same_op_spec _ _) eq_refl), ?(proj2 (fits_spec _ _) (conj eq_refl eq_refl)); reflexivity. }
    assert (Q' : forall i, i < S n -> matches (c 0) (c i) = true) by (intros i Hi; destruct (Q i Hi) as [->|]; auto).
    rewrite (matches_trans _ _ _ (Q' p Hp) (Q' q Hq)) in M. discriminate. }
  destruct ls as [|[i|] ls]; cbn [run] in R.
  - now injection R as <-.
  - exfalso. replace (move (Some i) _) with (@None (state W V A)) in R; [discriminate|]. symmetry. destruct (Nat.lt_ge_cases i n) as [H|H]; [|apply move_out; unfold net; cbn [procs]; now rewrite map_length, seq_length]. eapply move_call. unfold net. cbn [procs]. rewrite nth_error_net, (proj2 (Nat.ltb_lt _ _) H). reflexivity.
  - exfalso. unfold net in R. cbn [move procs chans world] in R. rewrite calls_net in R. replace (map fst (map (fun p => (c p, k p)) (seq 0 n))) with (map c (seq 0 n)) in R by (rewrite map_map; reflexivity). rewrite C in R. discriminate.
Qed.

(** *** Objects *)
Definition is_buffer (b : list Z) : Prop := Forall (fun z => 0 <= z < 256)%Z b /\ (Z.of_nat (length b) < 2 ^ 31)%Z.
(** [p] has not come to its end *)
Definition waits {W V A} (t : state W V A) (p : nat) : Prop := p < length (procs t) /\ forall r, nth_error (procs t) p <> Some (Done r).
(** one object after the other; the receiver keeps the result of each receive *)
Fixpoint send_all {W V A O} (dumps : O -> list Z) (os : list O) (dst : nat) (k : error + unit -> prog W V A) : prog W V A :=
  match os with [] => k (inr tt) | o :: os => send_obj dumps o dst (fun r => match r with inl e => k (inl e) | inr _ => send_all dumps os dst k end) end.
Fixpoint recv_all {W V A O} (loads : list Z -> error + O) (count : nat) (src : nat) (k : list (error + O) -> prog W V A) : prog W V A :=
  match count with O => k [] | S c => recv_obj loads src (fun r => recv_all loads c src (fun rs => k (r :: rs))) end.
Lemma int8_round b : (0 <= b < 256)%Z -> of_int8 (to_int8 b) = b.
Proof. intros H. unfold of_int8, to_int8. destruct (Z.ltb_spec b 128); [now apply Z.mod_small|]. replace (b - 256)%Z with (b + (-1) * 256)%Z by ring. rewrite Z_mod_plus_full. now apply Z.mod_small. Qed.
Lemma buffer_round b : Forall (fun z => 0 <= z < 256)%Z b -> map of_int8 (map to_int8 b) = b.
Proof. intros H. rewrite map_map. induction H as [|z b Hz H IH]; [reflexivity|]. cbn [map]. now rewrite int8_round, IH. Qed.
Lemma framed_ok {O} (dumps : O -> list Z) o : is_buffer (dumps o) -> framed dumps o = inr (mkMsg Int32 [Z.of_nat (length (dumps o))], mkMsg Int8 (map to_int8 (dumps o))).
Proof. intros (_ & H). unfold framed. apply Z.ltb_lt in H. now rewrite H. Qed.
Lemma unframed_ok {O} (dumps : O -> list Z) (loads : list Z -> error + O) o : is_buffer (dumps o) -> unframed loads (mkMsg Int8 (map to_int8 (dumps o))) = loads (dumps o).
Proof. intros (H & _). unfold unframed. cbn [elems]. now rewrite buffer_round. Qed.
Lemma fits_empty {O} (dumps : O -> list Z) o : fits (empty_bytes (mkMsg Int32 [Z.of_nat (length (dumps o))])) (mkMsg Int8 (map to_int8 (dumps o))) = true.
Proof. apply fits_spec. unfold empty_bytes. cbn [kind elems hd]. rewrite repeat_length, map_length, Nat2Z.id. auto. Qed.
Lemma move_send {W V A} (ps : list (prog W V A)) ch w p d m k : nth_error ps p = Some (Send d m k) -> d < length ps -> d <> p ->
  move (Some p) (mkState ps ch w) = Some (mkState (set_nth p k ps) (set_nth (p * length ps + d) (nth (p * length ps + d) ch [] ++ [m]) ch) w).
Proof. intros E L N. cbn [move procs chans world]. rewrite E, (proj2 (Nat.ltb_lt _ _) L), (proj2 (Nat.eqb_neq _ _) N). reflexivity. Qed.
Lemma move_recv {W V A} (ps : list (prog W V A)) ch w p src b k m rest : nth_error ps p = Some (Recv src b k) -> src < length ps -> nth (src * length ps + p) ch [] = m :: rest -> fits b m = true ->
  move (Some p) (mkState ps ch w) = Some (mkState (set_nth p (k m) ps) (set_nth (src * length ps + p) rest ch) w).
Proof. intros E L C F. cbn [move procs chans world]. rewrite E, (proj2 (Nat.ltb_lt _ _) L), C, F. reflexivity. Qed.
Lemma transfer {W V A O} (dumps : O -> list Z) (loads : list Z -> error + O) o (ps : list (prog W V A)) ch w p q k k' : length ch = length ps * length ps -> p <> q -> is_buffer (dumps o) ->
  nth_error ps p = Some (send_obj dumps o q k) -> nth_error ps q = Some (recv_obj loads p k') -> nth (p * length ps + q) ch [] = [] ->
  run [Some p; Some p; Some q; Some q] (mkState ps ch w) = Some (mkState (set_nth p (k (inr tt)) (set_nth q (k' (loads (dumps o))) ps)) ch w).
Proof.
  intros Z N B Ep Eq C. pose proof (nth_error_lt _ _ _ Ep) as Lp. pose proof (nth_error_lt _ _ _ Eq) as Lq. set (n := length ps) in *. assert (I : p * n + q < length ch) by nia.
  unfold send_obj in Ep. rewrite (framed_ok _ _ B) in Ep. unfold recv_obj in Eq. cbn [run].
  rewrite (move_send _ _ _ _ _ _ _ Ep) by (fold n; lia). fold n. rewrite C. cbn [app].
  erewrite move_send; [|apply nth_error_set_same; exact Lp|rewrite set_nth_length; exact Lq|lia]. rewrite set_nth_length. fold n. rewrite nth_set_same by exact I. rewrite !set_nth_twice. cbn [app].
  erewrite move_recv; [|rewrite nth_error_set_other by exact N; exact Eq|rewrite set_nth_length; exact Lp|rewrite set_nth_length; fold n; now rewrite nth_set_same|reflexivity]. rewrite set_nth_length. fold n. rewrite set_nth_twice.
  erewrite move_recv; [|apply nth_error_set_same; rewrite set_nth_length; exact Lq|rewrite !set_nth_length; exact Lp|rewrite !set_nth_length; fold n; now rewrite nth_set_same|apply fits_empty]. rewrite !set_nth_length. fold n. rewrite !set_nth_twice.
  rewrite (unframed_ok _ _ _ B). f_equal. f_equal; [apply set_nth_comm; lia|]. rewrite <- C at 1. apply set_nth_nth.
Qed.
(** C92: any number of objects sent from p to q arrive in order and whole, whatever all other parties do meanwhile. *)
Lemma k_C92_objects {V A O} (dumps : O -> list Z) (loads : list Z -> error + O) os (ps : list (prog unit V A)) ch p q K K' t : length ch = length ps * length ps -> p <> q -> (forall o, In o os -> is_buffer (dumps o)) ->
  nth_error ps p = Some (send_all dumps os q K) -> nth_error ps q = Some (recv_all loads (length os) p K') -> nth (p * length ps + q) ch [] = [] ->
  (ends (mkState ps ch tt) t <-> ends (mkState (set_nth p (K (inr tt)) (set_nth q (K' (map (fun o => loads (dumps o)) os)) ps)) ch tt) t).
Proof.
  intros Z N B Ep Eq C. revert ps K' Z B Ep Eq C. induction os as [|o os IH]; intros ps K' Z B Ep Eq C.
  - cbn [send_all recv_all length map] in *. rewrite (set_nth_id q _ ps Eq), (set_nth_id p _ ps Ep). reflexivity.
  - pose proof (nth_error_lt _ _ _ Ep) as Lp. pose proof (nth_error_lt _ _ _ Eq) as Lq. cbn [send_all recv_all length map] in *.
    assert (One : forall a b : unit, a = b) by (intros [] []; reflexivity).
    rewrite (ends_run One (mkState ps ch tt) _ _ _ Z (transfer dumps loads o ps ch tt p q _ _ Z N (B o (or_introl eq_refl)) Ep Eq C)).
    rewrite (IH _ (fun rs => K' (loads (dumps o) :: rs))); rewrite ?set_nth_length; try assumption.
    + rewrite (set_nth_comm q p) by lia. rewrite !set_nth_twice. reflexivity.
    + intros o' Ho. apply B. now right.
    + apply nth_error_set_same. now rewrite set_nth_length.
    + rewrite nth_error_set_other by exact N. now apply nth_error_set_same.
Qed.
(** C92 refuted for objects of 2^31 bytes and more: the sender fails and the receiver waits for ever. *)
Lemma k_C92_large_refuted {V O} (dumps : O -> list Z) (loads : list Z -> error + O) o t : (2 ^ 31 <= Z.of_nat (length (dumps o)))%Z ->
  @ends unit V _ (initial [send_obj dumps o 1 (fun r => Done (inl r)); recv_obj loads 0 (fun r => Done (inr r))] tt) t ->
  nth_error (procs t) 0 = Some (Done (inl (inl SizeOverflow))) /\ waits t 1.
Proof.
  intros H (ls & R & _). unfold send_obj, framed in R. rewrite (proj2 (Z.ltb_ge _ _) H) in R.
  destruct ls as [|[[|[|p]]|] ls]; cbn in R; try discriminate; [|destruct p; discriminate]. injection R as <-. split; [reflexivity|]. split; [cbn; lia|]. intros r. discriminate.
Qed.
(** C92: broadcast_obj gives every party what it makes of the source's bytes, and the source its own object. *)
Lemma k_C92_broadcast_obj {W V A O} n (dumps : O -> list Z) (loads : nat -> list Z -> error + O) (o : nat -> option O) v src (K : nat -> error + option O -> prog W V A) ch w t :
  2 <= n -> src < n -> o src = Some v -> is_buffer (dumps v) ->
  (ends (net n (fun p => broadcast_obj dumps (loads p) n p (o p) src (K p)) ch w) t <->
   ends (net n (fun p => K p (if p =? src then inr (Some v) else match loads p (dumps v) with inl e => inl e | inr u => inr (Some u) end)) ch w) t).
Proof.
  intros H D E B. assert (N : n <? 2 = false) by (apply Nat.ltb_ge; exact H).
  set (size := mkMsg Int32 [Z.of_nat (length (dumps v))]). set (arr := mkMsg Int8 (map to_int8 (dumps v))).
  set (c1 := fun p => Broadcast src (if p =? src then size else mkMsg Int32 [1%Z])). set (c2 := fun p => Broadcast src (if p =? src then arr else empty_bytes size)).
  set (k2 := fun p (r : reply) => if p =? src then K p (inr (Some v)) else match r with Data d => K p (match unframed (loads p) d with inl e => inl e | inr u => inr (Some u) end) | _ => K p (inl Unexpected) end).
  set (k1 := fun p (r : reply) => if p =? src then Call (c2 p) (k2 p) else match r with Data s => Call (Broadcast src (empty_bytes s)) (k2 p) | _ => K p (inl Unexpected) end).
  transitivity (ends (net n (fun p => Call (c1 p) (k1 p)) ch w) t).
  { apply ends_ext. intros p Hp. unfold broadcast_obj, c1, k1, k2, c2. rewrite N. destruct (Nat.eqb_spec p src) as [->|]; [|reflexivity]. rewrite E, (framed_ok _ _ B). reflexivity. }
  assert (C : forall m b, fits b m = true -> compatible (map (fun p => Broadcast src (if p =? src then m else b)) (seq 0 n)) = true).
  { intros m b F. apply fits_spec in F as (F1 & F2). apply compatible_net; [lia| |]. - intros p Hp. cbn [matches]. rewrite andb_true_iff, Nat.eqb_eq, fits_spec. destruct (0 =? src), (p =? src); intuition congruence. - destruct n; [lia|]. cbn [seq map complete]. apply Nat.ltb_lt. cbn [length]. rewrite map_length, seq_length. exact D. }
  assert (An : forall m b p, p < n -> answer (map (fun p => Broadcast src (if p =? src then m else b)) (seq 0 n)) p = Data m).
  { intros m b p Hp. unfold answer. rewrite nth_net by exact Hp. rewrite map_map. cbn [contribution]. rewrite nth_net by exact D. now rewrite Nat.eqb_refl. }
  rewrite (ends_call n c1 k1) by (apply C; reflexivity).
  transitivity (ends (net n (fun p => Call (c2 p) (k2 p)) ch w) t).
  { apply ends_ext. intros p Hp. unfold c1. rewrite An by exact Hp. unfold k1, c2. destruct (p =? src); reflexivity. }
  rewrite (ends_call n c2 k2) by (apply C, fits_empty). apply ends_ext. intros p Hp. unfold c2. rewrite An by exact Hp. unfold k2. destruct (p =? src); [reflexivity|]. unfold arr. now rewrite (unframed_ok _ _ _ B).
Qed.
(** C92 refuted when the source fails (None, or too large an object): it goes on alone and all other parties wait for ever. *)
Lemma k_C92_source_fails_refuted {W V A O} n (dumps : O -> list Z) (loads : nat -> list Z -> error + O) (o : nat -> option O) src (K : nat -> error + option O -> prog W V A) ch w t r :
  2 <= n -> src < n -> match o src with None => True | Some v => (2 ^ 31 <= Z.of_nat (length (dumps v)))%Z end -> (forall e, K src (inl e) = Done r) ->
  ends (net n (fun p => broadcast_obj dumps (loads p) n p (o p) src (K p)) ch w) t -> nth_error (procs t) src = Some (Done r) /\ forall p, p < n -> p <> src -> waits t p.
Proof.
  intros H D F Kr (ls & R & _). assert (N : n <? 2 = false) by (apply Nat.ltb_ge; exact H). set (s := net n _ ch w) in R.
  assert (Es : nth_error (procs s) src = Some (Done r)).
  { unfold s, net. cbn [procs]. rewrite nth_error_net, (proj2 (Nat.ltb_lt _ _) D). unfold broadcast_obj. rewrite N, Nat.eqb_refl. destruct (o src) as [v|]; [|now rewrite Kr]. unfold framed. rewrite (proj2 (Z.ltb_ge _ _) F). now rewrite Kr. }
  assert (Eo : forall p, p < n -> p <> src -> exists c k, nth_error (procs s) p = Some (Call c k)).
  { intros p Hp Np. unfold s, net. cbn [procs]. rewrite nth_error_net, (proj2 (Nat.ltb_lt _ _) Hp). unfold broadcast_obj. rewrite N, (proj2 (Nat.eqb_neq _ _) Np). eauto. }
  assert (Ln : length (procs s) = n) by (unfold s, net; cbn [procs]; now rewrite map_length, seq_length).
  assert (t = s) as ->.
  { destruct ls as [|[p|] ls]; cbn [run] in R; [now injection R as <-| |].
    - exfalso. replace (move (Some p) s) with (@None (state W V A)) in R; [discriminate|]. symmetry. destruct (Nat.lt_ge_cases p n) as [Hp|Hp]; [|apply move_out; now rewrite Ln]. destruct (Nat.eq_dec p src) as [->|Np]; [eapply move_done; exact Es|]. destruct (Eo p Hp Np) as (c & k & Ec). eapply move_call. exact Ec.
    - exfalso. cbn [move] in R. rewrite (calls_none _ _ _ Es) in R by discriminate. discriminate. }
  split; [exact Es|]. intros p Hp Np. split; [now rewrite Ln|]. intros r'. destruct (Eo p Hp Np) as (c & k & ->). discriminate.
Qed.
(** C92 refuted for gather of tensors that are not int64: the destination raises and all other parties wait for ever. *)
Lemma k_C92_gather_type_refuted {W V A} n (m : nat -> msg) dst (K : nat -> error + value -> prog W V A) ch w t r : 2 <= n -> dst < n -> kind (m dst) <> Long -> K dst (inl TypeMismatch) = Done r ->
  ends (net n (fun p => gather n p (m p) dst (K p)) ch w) t -> nth_error (procs t) dst = Some (Done r) /\ forall p, p < n -> p <> dst -> waits t p.
Proof.
  intros H D T Kr (ls & R & _). assert (N : n <? 2 = false) by (apply Nat.ltb_ge; exact H). set (s := net n _ ch w) in R.
  assert (Es : nth_error (procs s) dst = Some (Done r)).
  { unfold s, net. cbn [procs]. rewrite nth_error_net, (proj2 (Nat.ltb_lt _ _) D). unfold gather, alone. rewrite N, Nat.eqb_refl. destruct (kind (m dst)); try congruence; cbn [same_dtype negb andb]; now rewrite Kr. }
  assert (Eo : forall p, p < n -> p <> dst -> exists c k, nth_error (procs s) p = Some (Call c k)).
  { intros p Hp Np. unfold s, net. cbn [procs]. rewrite nth_error_net, (proj2 (Nat.ltb_lt _ _) Hp). unfold gather, alone. rewrite N, (proj2 (Nat.eqb_neq _ _) Np). cbn [andb]. eauto. }
  assert (Ln : length (procs s) = n) by (unfold s, net; cbn [procs]; now rewrite map_length, seq_length).
  assert (t = s) as ->.
  { destruct ls as [|[p|] ls]; cbn [run] in R; [now injection R as <-| |].
    - exfalso. replace (move (Some p) s) with (@None (state W V A)) in R; [discriminate|]. symmetry. destruct (Nat.lt_ge_cases p n) as [Hp|Hp]; [|apply move_out; now rewrite Ln]. destruct (Nat.eq_dec p dst) as [->|Np]; [eapply move_done; exact Es|]. destruct (Eo p Hp Np) as (c & k & Ec). eapply move_call. exact Ec.
    - exfalso. cbn [move] in R. rewrite (calls_none _ _ _ Es) in R by discriminate. discriminate. }
  split; [exact Es|]. intros p Hp Np. split; [now rewrite Ln|]. intros r'. destruct (Eo p Hp Np) as (c & k & ->). discriminate.
Qed.
(** C92 refuted for a single party: scatter returns the whole list there, and its own tensor with more parties. *)
Lemma k_C92_scatter_alone_refuted {W V A} l src size (K : value -> prog W V A) : scatter 1 0 l src size K = K (VList l).
Proof. reflexivity. Qed.

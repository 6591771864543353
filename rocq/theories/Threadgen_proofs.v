(** Proofs about parties that run as threads. *)
Require Import ZArith List Arith Bool Lia Permutation.
From Verif Require Import Ring64 Sharing Sharing_proofs Threadgen.
Import ListNotations.
Local Open Scope nat_scope.

Lemma key_eqb_spec a b : reflect (a = b) (key_eqb a b).
Proof. destruct a, b; constructor; congruence. Qed.
Lemma set_nth_length {A} i (a : A) l : length (set_nth i a l) = length l.
Proof. revert i. induction l as [|b l IH]; intros [|i]; cbn; auto. Qed.
Lemma set_nth_same {A} i (a b : A) l : nth_error l i = Some b -> nth_error (set_nth i a l) i = Some a.
Proof. revert i. induction l as [|c l IH]; intros [|i] H; try discriminate; [reflexivity|]. now apply IH. Qed.
Lemma set_nth_other {A} i j (a : A) l : j <> i -> nth_error (set_nth i a l) j = nth_error l j.
Proof. revert i j. induction l as [|c l IH]; intros [|i] [|j] H; try reflexivity; try congruence. cbn. apply IH. congruence. Qed.
Lemma tails_in {A} (pre : list A) s : forall l, l = pre ++ s -> In s ((fix tails l := match l with [] => [[]] | _ :: r => l :: tails r end) l).
Proof. induction pre as [|a pre IH]; intros l ->; cbn [app]; [destruct s; now left|]. right. now apply IH. Qed.

Section Proofs.
  Variable gstate : Type.
  Variable unseeded : gstate.
  Variable seeded : Z -> gstate.
  Variable draw : gstate -> nat -> list Z * gstate.
  Variable next_seed local_seed global_seed : nat -> Z.
  Notation advance := (advance gstate unseeded seeded draw next_seed local_seed global_seed).
  Notation exec := (exec gstate unseeded seeded draw next_seed local_seed global_seed).
  Notation process := (process gstate).

  (** ** Initialisation *)
  Lemma setup_facts n i pre a rest : setup n i = pre ++ a :: rest ->
    match a with ANew k => In (ASeed k) rest | ASend _ => True | AWait src => src = prev_of n i | ABroadcast => i = 0 | AGet => True
    | ASeed k => ~ In (AWait (prev_of n i)) (a :: rest) /\ ~ In AGet (a :: rest) | ADraw _ _ => False end.
  Proof.
    intros H. apply tails_in in H. unfold setup in H. destruct (Nat.eqb_spec i 0) as [E|E]; cbn [app] in H;
      repeat (destruct H as [H|H]; [try discriminate H; injection H as <- <-; cbn [In]; repeat split; try exact E; try tauto; intros C; repeat (destruct C as [C|C]; [discriminate C|]); exact C|]); contradiction.
  Qed.
  (** the seed thread [i] has for a key *)
  Definition seed_of (n i : nat) (k : key) : Z := match k with Prev => next_seed (prev_of n i) | Next => next_seed i | Local_ => local_seed i | Global_ => global_seed 0 end.
  Definition honest (m : message) : Prop := match m with Tagged r z => z = next_seed r | Plain z => z = global_seed 0 end.
  Definition fair (n i : nat) (t : thread) : Prop :=
    (exists pre, setup n i = pre ++ todo t) /\ (~ In (AWait (prev_of n i)) (todo t) -> got_prev t = next_seed (prev_of n i)) /\ (~ In AGet (todo t) -> got_global t = global_seed 0).
  Record ok (n : nat) (p : process) : Prop := {
    o_len : length (threads gstate p) = n;
    o_table : forall k, table gstate p k < made gstate p;
    o_inj : forall k k', k <> k' -> table gstate p k <> table gstate p k';
    o_mail : forall x m, In m (mailbox gstate p x) -> honest m;
    o_stop : forall i t, nth_error (threads gstate p) i = Some t -> failed t = true -> todo t = [];
    o_fair : forall i t, nth_error (threads gstate p) i = Some t -> failed t = false -> fair n i t;
    o_keys : forall k, (exists i, i < n /\ objects gstate p (table gstate p k) = seeded (seed_of n i k)) \/ (exists c t, nth_error (threads gstate p) c = Some t /\ failed t = false /\ In (ASeed k) (todo t)) \/
      (exists c t, nth_error (threads gstate p) c = Some t /\ failed t = true) }.

  Lemma ok_start n : 1 <= n -> ok n (starting gstate unseeded n).
  Proof.
    intros Hn. unfold starting. constructor; cbn [threads table made mailbox objects].
    - now rewrite map_length, seq_length.
    - intros []; cbn; lia.
    - intros [] []; cbn; congruence.
    - intros x m [].
    - intros i t H. apply nth_error_In in H. apply in_map_iff in H as (j & <- & _). discriminate.
    - intros i t H _. assert (Hi : i < n) by (rewrite <- (seq_length n 0), <- (map_length (fun i => fresh_thread (setup n i)) (seq 0 n)); apply nth_error_Some; congruence).
      rewrite nth_error_map in H. rewrite (nth_error_nth' (seq 0 n) 0) in H by (rewrite seq_length; exact Hi). rewrite seq_nth in H by exact Hi. cbn in H. injection H as <-. cbn [fresh_thread todo got_prev got_global]. split; [now exists []|]. split; intros C; exfalso; apply C; unfold setup; cbn; destruct (Nat.eqb i 0); cbn; tauto.
    - intros k. right. left. exists 0, (fresh_thread (setup n 0)). split; [rewrite nth_error_map, (nth_error_nth' (seq 0 n) 0) by (rewrite seq_length; lia); rewrite seq_nth by lia; reflexivity|]. split; [reflexivity|]. cbn. destruct k; tauto.
  Qed.

  (** a step that changes one thread *)
  Lemma threads_cases {A} (i : nat) (a b : A) l j t : nth_error l i = Some b -> nth_error (set_nth i a l) j = Some t -> (j = i /\ t = a) \/ (j <> i /\ nth_error l j = Some t).
  Proof. intros H E. destruct (Nat.eq_dec j i) as [->|N]; [left; rewrite (set_nth_same i a b l H) in E; split; congruence|right; rewrite set_nth_other in E by exact N; auto]. Qed.
  Lemma ok_step n p i : ok n p -> ok n (advance p i).
  Proof.
    intros O. pose proof O as [L T J M St F K]. unfold Threadgen.advance. destruct (nth_error (threads gstate p) i) as [t|] eqn:Ei; [|exact O]. destruct (todo t) as [|a rest] eqn:Et; [exact O|].
    destruct (failed t) eqn:Ef; [rewrite (St i t Ei Ef) in Et; discriminate|]. destruct (F i t Ei Ef) as ((pre & Hp) & Fp & Fg). rewrite Et in Hp, Fp, Fg. pose proof (setup_facts n i pre a rest Hp) as X.
    assert (Hi : i < n) by (rewrite <- L; apply nth_error_Some; congruence).
    assert (Hp' : exists pre, setup n i = pre ++ rest) by (exists (pre ++ [a]); rewrite <- app_assoc; exact Hp).
    (* the invariant for a changed thread *)
    assert (B : forall t' ob md tb mb, (failed t' = true -> todo t' = []) -> (failed t' = false -> fair n i t') -> (forall k, tb k < md) -> (forall k k', k <> k' -> tb k <> tb k') -> (forall x m, In m (mb x) -> honest m) ->
      (forall k, (exists j, j < n /\ ob (tb k) = seeded (seed_of n j k)) \/ (exists c u, nth_error (set_nth i t' (threads gstate p)) c = Some u /\ failed u = false /\ In (ASeed k) (todo u)) \/ (exists c u, nth_error (set_nth i t' (threads gstate p)) c = Some u /\ failed u = true)) ->
      ok n (mkProcess gstate ob md tb mb (set_nth i t' (threads gstate p)))).
    { intros t' ob md tb mb B1 B2 B3 B4 B5 B6. constructor; cbn [threads table made mailbox objects]; auto.
      - now rewrite set_nth_length.
      - intros j u Hj. apply (threads_cases i t' t) in Hj as [[-> ->]|[N Hj]]; [exact B1|now apply (St j)|exact Ei].
      - intros j u Hj. apply (threads_cases i t' t) in Hj as [[-> ->]|[N Hj]]; [exact B2|now apply (F j)|exact Ei]. }
    (* a key whose object did not change *)
    assert (C : forall t' k (ob : nat -> gstate) (o : nat), failed t' = false -> (In (ASeed k) (todo t) -> In (ASeed k) (todo t') \/ exists j, j < n /\ ob o = seeded (seed_of n j k)) -> ob o = objects gstate p (table gstate p k) ->
      (exists j, j < n /\ ob o = seeded (seed_of n j k)) \/ (exists c u, nth_error (set_nth i t' (threads gstate p)) c = Some u /\ failed u = false /\ In (ASeed k) (todo u)) \/ (exists c u, nth_error (set_nth i t' (threads gstate p)) c = Some u /\ failed u = true)).
    { intros t' k ob o Ft' Hin Ho. destruct (K k) as [(j & Hj & E)|[(c & u & Hc & Fu & Hu)|(c & u & Hc & Fu)]].
      - left. exists j. split; [exact Hj|]. now rewrite Ho.
      - destruct (Nat.eq_dec c i) as [->|N].
        + rewrite Ei in Hc. injection Hc as <-. destruct (Hin Hu) as [Hu'|Hu']; [|now left]. right; left. exists i, t'. rewrite (set_nth_same i t' t) by exact Ei. auto.
        + right; left. exists c, u. rewrite set_nth_other by exact N. auto.
      - destruct (Nat.eq_dec c i) as [->|N]; [rewrite Ei in Hc; injection Hc as <-; congruence|]. right; right. exists c, u. rewrite set_nth_other by exact N. auto. }
    assert (D : forall t' k (ob : nat -> gstate) (o : nat), failed t' = true -> (exists j, j < n /\ ob o = seeded (seed_of n j k)) \/ (exists c u, nth_error (set_nth i t' (threads gstate p)) c = Some u /\ failed u = false /\ In (ASeed k) (todo u)) \/ (exists c u, nth_error (set_nth i t' (threads gstate p)) c = Some u /\ failed u = true)).
    { intros t' k ob o Ft'. right; right. exists i, t'. rewrite (set_nth_same i t' t) by exact Ei. auto. }
    assert (Q : forall gp gg dr, (forall s, AWait s <> a) -> AGet <> a -> gp = got_prev t -> gg = got_global t -> fair n i (mkThread rest gp gg dr false)).
    { intros gp gg dr Na Ng -> ->. split; [exact Hp'|]. cbn [todo got_prev got_global]. split; intros C'; [apply Fp|apply Fg]; intros [E|E]; try contradiction; [now apply (Na (prev_of n i))|now apply Ng]. }
    assert (R : forall k, a <> ASeed k -> In (ASeed k) (todo t) -> In (ASeed k) rest) by (intros k N H; rewrite Et in H; destruct H as [H|H]; [congruence|exact H]).
    assert (Mb : forall ms m, mailbox gstate p i = m :: ms -> forall x m', In m' (if Nat.eqb x i then ms else mailbox gstate p x) -> honest m') by (intros ms m Em x m' H; destruct (Nat.eqb_spec x i) as [->|]; [apply (M i); rewrite Em; now right|now apply (M x)]).
    destruct a as [k|dst|src| | |k|k size]; cbn zeta.
    - apply B; [discriminate|intros _; apply Q; congruence| | |exact M|].
      + intros k'. destruct (key_eqb_spec k' k); [lia|]. specialize (T k'). lia.
      + intros k1 k2 N. destruct (key_eqb_spec k1 k) as [->|N1]; destruct (key_eqb_spec k2 k) as [->|N2]; try congruence; [specialize (T k2); lia|specialize (T k1); lia|now apply J].
      + intros k'. destruct (key_eqb_spec k' k) as [->|N].
        * right; left. eexists i, _. rewrite (set_nth_same i _ t) by exact Ei. split; [reflexivity|]. split; [first [reflexivity|exact Ef]|exact X].
        * apply C; [first [reflexivity|exact Ef]|intros H; left; apply R; [congruence|exact H]|]. unfold put_object. destruct (Nat.eqb_spec (table gstate p k') (made gstate p)) as [E|]; [specialize (T k'); lia|reflexivity].
    - apply B; [cbn; congruence|intros _; apply Q; congruence|exact T|exact J| |intros k; apply C; [first [reflexivity|exact Ef]|intros H; left; apply R; [congruence|exact H]|reflexivity]].
      intros x m. unfold put_mail. destruct (Nat.eqb x dst); [|apply M]. intros H. apply in_app_or in H as [H|[<-|[]]]; [now apply (M x)|reflexivity].
    - destruct (mailbox gstate p i) as [|m ms] eqn:Em; [exact O|]. assert (Hm : honest m) by (apply (M i); rewrite Em; now left). destruct m as [r z|z].
      + destruct (Nat.eqb_spec r src) as [->|N].
        * apply B; [cbn; congruence| |exact T|exact J|now apply (Mb _ _ eq_refl)|intros k; apply C; [first [reflexivity|exact Ef]|intros H; left; apply R; [congruence|exact H]|reflexivity]].
          intros _. split; [exact Hp'|]. cbn [todo got_prev got_global]. split; [intros _; cbn in Hm; now rewrite Hm, X|]. intros C'. apply Fg. intros [E|E]; [discriminate|contradiction].
        * apply B; [reflexivity|cbn; discriminate|exact T|exact J|now apply (Mb _ _ eq_refl)|intros k; apply D; reflexivity].
      + apply B; [reflexivity|cbn; discriminate|exact T|exact J|now apply (Mb _ _ eq_refl)|intros k; apply D; reflexivity].
    - apply B; [cbn; congruence|intros _; apply Q; congruence|exact T|exact J| |intros k; apply C; [first [reflexivity|exact Ef]|intros H; left; apply R; [congruence|exact H]|reflexivity]].
      intros x m. destruct (Nat.ltb x (length (threads gstate p))); [|apply M]. intros H. apply in_app_or in H as [H|[<-|[]]]; [now apply (M x)|]. cbn. now rewrite X.
    - destruct (mailbox gstate p i) as [|m ms] eqn:Em; [exact O|]. assert (Hm : honest m) by (apply (M i); rewrite Em; now left). destruct m as [r z|z].
      + apply B; [reflexivity|cbn; discriminate|exact T|exact J|now apply (Mb _ _ eq_refl)|intros k; apply D; reflexivity].
      + apply B; [cbn; congruence| |exact T|exact J|now apply (Mb _ _ eq_refl)|intros k; apply C; [first [reflexivity|exact Ef]|intros H; left; apply R; [congruence|exact H]|reflexivity]].
        intros _. split; [exact Hp'|]. cbn [todo got_prev got_global]. split; [|intros _; exact Hm]. intros C'. apply Fp. intros [E|E]; [discriminate|contradiction].
    - apply B; [cbn; congruence|intros _; apply Q; congruence|exact T|exact J|exact M|]. intros k'.
      assert (Sd : my_seed next_seed local_seed i t k = seed_of n i k) by (destruct X as [X1 X2]; destruct k; cbn; auto).
      destruct (key_eqb_spec k' k) as [->|N]; [left; exists i; split; [exact Hi|]; unfold put_object; now rewrite Nat.eqb_refl, Sd|].
      apply C; [first [reflexivity|exact Ef]|intros H; left; apply R; [congruence|exact H]|]. unfold put_object. destruct (Nat.eqb_spec (table gstate p k') (table gstate p k)) as [E|]; [exfalso; now apply (J k' k)|reflexivity].
    - contradiction.
  Qed.
  Lemma ok_exec n s : forall p, ok n p -> ok n (exec s p).
  Proof. induction s as [|i s IH]; intros p O; [exact O|]. cbn. apply IH. now apply ok_step. Qed.
  Lemma setup_done n s : 1 <= n -> let p := exec s (starting gstate unseeded n) in finished gstate p -> healthy gstate p ->
    length (threads gstate p) = n /\ (forall k, exists i, i < n /\ objects gstate p (table gstate p k) = seeded (seed_of n i k)) /\ (forall k k', k <> k' -> table gstate p k <> table gstate p k').
  Proof.
    intros Hn p Hf Hh. assert (O : ok n p) by (apply ok_exec; now apply ok_start). split; [apply (o_len n p O)|]. split; [|apply (o_inj n p O)]. intros k. destruct (o_keys n p O k) as [H|[(c & t & Hc & _ & Hin)|(c & t & Hc & Ht)]]; [exact H| |].
    - exfalso. apply nth_error_In in Hc. unfold finished in Hf. rewrite Forall_forall in Hf. now rewrite (Hf t Hc) in Hin.
    - exfalso. apply nth_error_In in Hc. unfold healthy in Hh. rewrite Forall_forall in Hh. rewrite (Hh t Hc) in Ht. discriminate.
  Qed.

  (** ** Draws *)
  Variable size : nat.
  Fixpoint chunks (g : gstate) (d : nat) : list (list Z) := match d with O => [] | S d => let (v, g) := draw g size in v :: chunks g d end.
  Fixpoint later (g : gstate) (d : nat) : gstate := match d with O => g | S d => later (snd (draw g size)) d end.
  Lemma chunks_snoc d : forall g, chunks g (S d) = chunks g d ++ [fst (draw (later g d) size)].
  Proof. induction d as [|d IH]; intros g; [cbn; now destruct (draw g size)|]. cbn [chunks later]. cbn [chunks] in IH. destruct (draw g size) as [v g'] eqn:E. cbn [snd app]. f_equal. rewrite IH. reflexivity. Qed.
  Lemma later_snoc d : forall g, later g (S d) = snd (draw (later g d) size).
  Proof. induction d as [|d IH]; intros g; [reflexivity|]. cbn [later]. cbn [later] in IH. now rewrite IH. Qed.
  Lemma chunks_length d : forall g, length (chunks g d) = d.
  Proof. induction d as [|d IH]; intros g; [reflexivity|]. cbn [chunks]. destruct (draw g size). cbn. now rewrite IH. Qed.
  Lemma chunks_sized d : (forall g k, length (fst (draw g k)) = k) -> forall g, Forall (fun c => length c = size) (chunks g d).
  Proof. intros H. induction d as [|d IH]; intros g; [constructor|]. cbn [chunks]. specialize (H g size). destruct (draw g size). constructor; [exact H|apply IH]. Qed.

  Definition of_key (k : key) (t : thread) : list (list Z) := map snd (filter (fun e => key_eqb (fst e) k) (drawn t)).
  Definition collected (k : key) (p : process) : list (list Z) := flat_map (of_key k) (threads gstate p).
  Lemma collect_step k i (t t' : thread) (v : list Z) l : nth_error l i = Some t -> of_key k t' = of_key k t ++ [v] -> Permutation (flat_map (of_key k) (set_nth i t' l)) (flat_map (of_key k) l ++ [v]).
  Proof.
    revert i. induction l as [|u l IH]; intros [|i] H E; try discriminate; cbn [set_nth flat_map] in *.
    - injection H as ->. rewrite E, <- !app_assoc. apply Permutation_app_head. apply Permutation_app_comm.
    - rewrite <- app_assoc. apply Permutation_app_head. now apply IH.
  Qed.
  Lemma collect_same k i (t t' : thread) l : nth_error l i = Some t -> of_key k t' = of_key k t -> flat_map (of_key k) (set_nth i t' l) = flat_map (of_key k) l.
  Proof. revert i. induction l as [|u l IH]; intros [|i] H E; try discriminate; cbn [set_nth flat_map] in *; [injection H as ->; now rewrite E|f_equal; now apply IH]. Qed.

  Definition keys_of (l : list action) : list key := flat_map (fun a => match a with ADraw k _ => [k] | _ => [] end) l.
  Definition drawing (l : list action) : Prop := Forall (fun a => exists k, a = ADraw k size) l.
  Record drew (p0 : process) (ks : list key) (p : process) : Prop := {
    d_len : length (threads gstate p) = length (threads gstate p0);
    d_table : table gstate p = table gstate p0;
    d_thread : forall t, In t (threads gstate p) -> drawing (todo t) /\ map fst (drawn t) ++ keys_of (todo t) = ks;
    d_key : forall k, exists d, objects gstate p (table gstate p k) = later (objects gstate p0 (table gstate p0 k)) d /\ Permutation (collected k p) (chunks (objects gstate p0 (table gstate p0 k)) d) }.
  Lemma in_set_nth {A} i (a : A) l x : In x (set_nth i a l) -> x = a \/ In x l.
  Proof. revert i. induction l as [|b l IH]; intros [|i] H; cbn in *; auto; [destruct H; auto|destruct H as [H|H]; [auto|]; destruct (IH i H); auto]. Qed.
  Lemma drew_step p0 ks p i : (forall k k', k <> k' -> table gstate p0 k <> table gstate p0 k') -> drew p0 ks p -> drew p0 ks (advance p i).
  Proof.
    intros J I. pose proof I as [L T H K]. unfold Threadgen.advance. destruct (nth_error (threads gstate p) i) as [t|] eqn:Ei; [|exact I]. destruct (todo t) as [|a rest] eqn:Et; [exact I|].
    destruct (H t (nth_error_In _ _ Ei)) as [Hd Hk]. rewrite Et in Hd, Hk. apply Forall_cons_iff in Hd as [(k & ->) Hd']. cbn zeta. destruct (draw (objects gstate p (table gstate p k)) size) as [v g] eqn:Ed.
    constructor; cbn [threads table objects].
    - rewrite set_nth_length. exact L.
    - exact T.
    - intros u Hu. apply in_set_nth in Hu as [->|Hu]; [|now apply H]. cbn [todo drawn]. split; [exact Hd'|]. rewrite <- Hk, map_app, <- app_assoc. reflexivity.
    - intros k'. destruct (K k') as (d & E & P). rewrite T in *. destruct (key_eqb_spec k' k) as [->|N].
      + exists (S d). unfold put_object. rewrite Nat.eqb_refl. split; [now rewrite later_snoc, <- E, Ed|]. rewrite chunks_snoc, <- E, Ed. cbn [fst]. unfold collected. cbn [threads]. eapply Permutation_trans; [eapply collect_step; [exact Ei|]|apply Permutation_app_tail; exact P].
        unfold of_key. cbn [drawn]. rewrite filter_app, map_app. cbn [filter fst]. destruct (key_eqb_spec k k); [reflexivity|congruence].
      + exists d. unfold put_object. destruct (Nat.eqb_spec (table gstate p0 k') (table gstate p0 k)) as [C|_]; [exfalso; now apply (J k' k)|]. split; [exact E|]. unfold collected. cbn [threads]. rewrite (collect_same k' i t); [exact P|exact Ei|].
        unfold of_key. cbn [drawn]. rewrite filter_app, map_app. cbn [filter fst]. destruct (key_eqb_spec k k'); [congruence|]. cbn. now rewrite app_nil_r.
  Qed.
  Lemma drew_exec p0 ks s : (forall k k', k <> k' -> table gstate p0 k <> table gstate p0 k') -> forall p, drew p0 ks p -> drew p0 ks (exec s p).
  Proof. intros J. induction s as [|i s IH]; intros p I; [exact I|]. cbn. apply IH. now apply drew_step. Qed.
  Lemma drew_begin p l : drawing l -> drew p (keys_of l) (begin gstate l p).
  Proof.
    intros Hl. constructor; cbn [begin threads table objects].
    - now rewrite map_length.
    - reflexivity.
    - intros t Ht. apply in_map_iff in Ht as (u & <- & _). cbn [fresh_thread todo drawn]. split; [exact Hl|reflexivity].
    - intros k. exists 0. split; [reflexivity|]. cbn [chunks]. unfold collected. cbn [begin threads]. induction (threads gstate p) as [|t r IH]; [constructor|exact IH].
  Qed.
  Lemma draws_done p l s : (forall k k', k <> k' -> table gstate p k <> table gstate p k') -> drawing l -> NoDup (keys_of l) -> let q := exec s (begin gstate l p) in finished gstate q ->
    length (threads gstate q) = length (threads gstate p) /\ (forall t, In t (threads gstate q) -> map fst (drawn t) = keys_of l) /\
    (forall k, In k (keys_of l) -> Permutation (collected k q) (chunks (objects gstate p (table gstate p k)) (length (threads gstate p)))).
  Proof.
    intros J Hl Hn q Hf. assert (I : drew p (keys_of l) q) by (apply drew_exec; [exact J|now apply drew_begin]). destruct I as [L T H K].
    assert (H' : forall t, In t (threads gstate q) -> map fst (drawn t) = keys_of l) by (intros t Ht; destruct (H t Ht) as [_ E]; unfold finished in Hf; rewrite Forall_forall in Hf; rewrite (Hf t Ht) in E; cbn in E; now rewrite app_nil_r in E).
    split; [exact L|]. split; [exact H'|]. intros k Hk. destruct (K k) as (d & _ & P). assert (Ed : d = length (threads gstate p)); [|now rewrite <- Ed].
    rewrite <- (chunks_length d (objects gstate p (table gstate p k))), <- (Permutation_length P), <- L. unfold collected. clear P Hf K T L. revert H'. generalize (threads gstate q) as ts. intros ts H'. clear -H' Hn Hk.
    induction ts as [|t ts IH]; [reflexivity|]. cbn [flat_map]. rewrite app_length, IH by (intros u Hu; apply H'; now right). cbn [length]. f_equal.
    unfold of_key. rewrite map_length. assert (E : map fst (drawn t) = keys_of l) by (apply H'; now left). rewrite <- E in Hn, Hk. clear -Hn Hk. induction (drawn t) as [|[k' v] r IH]; [contradiction|]. cbn [map fst filter] in *. inversion Hn; subst. destruct (key_eqb_spec k' k) as [->|N].
    - cbn [length]. f_equal. assert (Z : filter (fun e : key * list Z => key_eqb (fst e) k) r = []); [|now rewrite Z]. clear -H1. induction r as [|[k' v'] r IH]; [reflexivity|]. cbn in *. destruct (key_eqb_spec k' k) as [->|]; [exfalso; apply H1; now left|]. apply IH. tauto.
    - apply IH; [assumption|]. destruct Hk as [Hk|Hk]; [congruence|exact Hk].
  Qed.
End Proofs.

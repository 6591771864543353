(** Parties that run as threads: specification and proofs of C114. *)
Require Import ZArith List Arith Bool Lia Permutation.
From Verif Require Import Ring64 Sharing Sharing_proofs Threadgen Threadgen_proofs.
Import ListNotations.
Local Open Scope nat_scope.

Section Claims.
  Context {gstate : Type} (unseeded : gstate) (seeded : Z -> gstate) (draw : gstate -> nat -> list Z * gstate) (next_seed local_seed global_seed : nat -> Z).
  Notation exec := (exec gstate unseeded seeded draw next_seed local_seed global_seed).

  (** ** Specification *)
  (** the generator under a key *)
  Definition generator (p : process gstate) (k : key) : gstate := objects gstate p (table gstate p k).
  (** different keys have different generators *)
  Definition apart (p : process gstate) : Prop := forall k k', k <> k' -> table gstate p k <> table gstate p k'.
  (** what a generator gives in [d] calls for [size] elements *)
  Fixpoint successive (size : nat) (g : gstate) (d : nat) : list (list Z) := match d with O => [] | S d => fst (draw g size) :: successive size (snd (draw g size)) d end.
  Definition column (j : nat) (l : list (list Z)) : Z := zsum (map (fun v => nth j v 0%Z) l).
  (** the zero shares of all parties *)
  Definition zero_shares (p : process gstate) : list (list Z) := map zero_share (threads gstate p).
  (** every thread encrypts with source [src] and value [x] (arithmetic.py:97-104), and all reveal *)
  Definition round_trip (p : process gstate) (s : list nat) (src : nat) (x : list Z) : list Z :=
    reveal_arith (add_at wadd src x (zero_shares (exec s (begin gstate (przs_draws (length x)) p)))).
  Definition completes (p : process gstate) (s : list nat) (size : nat) : Prop := finished gstate (exec s (begin gstate (przs_draws size) p)).
  (** the masks the threads got *)
  Definition masks (p : process gstate) : list (list Z) := map (fun t => match drawn t with [(_, v)] => v | _ => [] end) (threads gstate p).

  (** ** Initialisation *)
  Lemma prev_small n i : 1 <= n -> prev_of n i < n.
  Proof. intros H. unfold prev_of. apply Nat.mod_upper_bound. lia. Qed.
  (** C114: after the initialisation one generator is left for each key. *)
  Lemma k_C114_setup n s : 1 <= n -> let p := exec s (starting gstate unseeded n) in finished gstate p -> healthy gstate p ->
    length (threads gstate p) = n /\ apart p /\ (exists i, i < n /\ generator p Prev = seeded (next_seed i)) /\ (exists i, i < n /\ generator p Next = seeded (next_seed i)) /\
    (exists i, i < n /\ generator p Local_ = seeded (local_seed i)) /\ generator p Global_ = seeded (global_seed 0).
  Proof.
    intros Hn p Hf Hh. destruct (setup_done gstate unseeded seeded draw next_seed local_seed global_seed n s Hn Hf Hh) as (L & K & J). split; [exact L|]. split; [exact J|].
    split; [destruct (K Prev) as (i & Hi & E); exists (prev_of n i); split; [now apply prev_small|exact E]|]. split; [exact (K Next)|]. split; [exact (K Local_)|]. destruct (K Global_) as (i & _ & E). exact E.
  Qed.

  (** ** Zero sharings *)
  Lemma successive_chunks size d : forall g, successive size g d = chunks gstate draw size g d.
  Proof. induction d as [|d IH]; intros g; [reflexivity|]. cbn [successive chunks]. rewrite IH. now destruct (draw g size). Qed.
  Lemma column_permutation j a b : Permutation a b -> column j a = column j b.
  Proof. unfold column. induction 1; cbn [map]; rewrite ?zsum_cons; try congruence. ring. Qed.
  Lemma threads_columns ts : (forall t, In t ts -> map fst (drawn t) = [Prev; Next]) -> forall size, (forall t v, In t ts -> In v (map snd (drawn t)) -> length v = size) -> forall j, j < size ->
    (column j (map zero_share ts) == column j (flat_map (of_key Prev) ts) - column j (flat_map (of_key Next) ts))%Z.
  Proof.
    intros H size Hs j Hj. unfold column. induction ts as [|t ts IH]; [reflexivity|]. cbn [map flat_map]. specialize (IH (fun u Hu => H u (or_intror Hu)) (fun u v Hu => Hs u v (or_intror Hu))). rewrite !map_app, !zsum_app, zsum_cons, IH.
    assert (Ht := H t (or_introl eq_refl)). assert (Hv := fun v => Hs t v (or_introl eq_refl)). unfold of_key, zero_share. destruct (drawn t) as [|[k1 c] [|[k2 n] [|]]]; try discriminate. cbn in Ht, Hv. injection Ht as -> ->. cbn [filter fst key_eqb map snd].
    rewrite nth_zipw by (rewrite ?(Hv c), ?(Hv n); auto). rewrite wsub_eqm. cbn [zsum fold_right]. apply eqm_refl_eq. ring.
  Qed.
  Lemma collected_sized (draw_length : forall g k, length (fst (draw g k)) = k) size g d k (p : process gstate) : Permutation (collected gstate k p) (chunks gstate draw size g d) -> forall v, In v (collected gstate k p) -> length v = size.
  Proof. intros P v Hv. pose proof (chunks_sized gstate draw size d draw_length g) as F. rewrite Forall_forall in F. apply F. now apply (Permutation_in _ P). Qed.
  Lemma shares_done (draw_length : forall g k, length (fst (draw g k)) = k) p s size : apart p -> completes p s size ->
    let q := exec s (begin gstate (przs_draws size) p) in let n := length (threads gstate p) in
    length (threads gstate q) = n /\ Forall (fun t => length t = size) (zero_shares q) /\
    forall j, j < size -> (column j (zero_shares q) == column j (successive size (generator p Prev) n) - column j (successive size (generator p Next) n))%Z.
  Proof.
    intros J Hc q n. destruct (draws_done gstate unseeded seeded draw next_seed local_seed global_seed size p (przs_draws size) s J) as (L & D & P).
    - constructor; [eexists; reflexivity|]. constructor; [eexists; reflexivity|constructor].
    - cbn. constructor; [intros [E|[]]; discriminate|]. constructor; [intros []|constructor].
    - exact Hc.
    - fold q in L, D, P. assert (Pp := P Prev (or_introl eq_refl)). assert (Pn := P Next (or_intror (or_introl eq_refl))).
      assert (Hs : forall t v, In t (threads gstate q) -> In v (map snd (drawn t)) -> length v = size).
      { intros t v Ht Hv. assert (E := D t Ht). cbn in E. assert (In v (of_key Prev t) \/ In v (of_key Next t)) as [H|H].
        { unfold of_key. destruct (drawn t) as [|[k1 c] [|[k2 m] [|]]]; try discriminate. injection E as -> ->. cbn in *. tauto. }
        - apply (collected_sized draw_length size _ _ Prev q Pp). apply in_flat_map. eauto.
        - apply (collected_sized draw_length size _ _ Next q Pn). apply in_flat_map. eauto. }
      split; [exact L|]. split.
      + apply Forall_forall. intros z Hz. apply in_map_iff in Hz as (t & <- & Ht). assert (E := D t Ht). cbn in E. assert (Hv := fun v => Hs t v Ht). unfold zero_share. destruct (drawn t) as [|[k1 c] [|[k2 m] [|]]]; try discriminate. cbn in Hv. rewrite zipw_length by (rewrite !Hv; auto). apply Hv. auto.
      + intros j Hj. unfold zero_shares. rewrite (threads_columns (threads gstate q) D size Hs j Hj). rewrite !successive_chunks. apply eqm_refl_eq. f_equal; apply column_permutation; assumption.
  Qed.
  (** C114: zero sharings add up to the difference between the streams of the two generators, whatever the order of the draws. *)
  Lemma k_C114_zero_shares : (forall g k, length (fst (draw g k)) = k) -> forall p s size, apart p -> completes p s size -> forall j, j < size ->
    let n := length (threads gstate p) in (column j (zero_shares (exec s (begin gstate (przs_draws size) p))) == column j (successive size (generator p Prev) n) - column j (successive size (generator p Next) n))%Z.
  Proof. intros H p s size J Hc j Hj n. now apply (shares_done H p s size J Hc). Qed.

  (** ** Encryption *)
  Lemma in64_nth_zipw (f : Z -> Z -> Z) a b : (forall x y, in64 (f x y)) -> forall j, j < length a -> length a = length b -> in64 (nth j (zipw f a b) 0%Z).
  Proof. intros H j Hj L. rewrite nth_zipw by assumption. apply H. Qed.
  Lemma reveal_in64 k sh j : 1 < length sh -> Forall (fun t => length t = k) sh -> j < k -> in64 (nth j (reveal_arith sh) 0%Z).
  Proof.
    destruct sh as [|a [|b sh]]; cbn [length]; try lia. intros _ H Hj. inversion H as [|? ? Ha H']; subst. inversion H' as [|? ? Hb H'']; subst. cbn [reveal_arith fold_left].
    rewrite (fold_zipw_nth wadd (length a)); [|rewrite zipw_length; congruence|exact H''|exact Hj]. apply fold_wadd_in64. apply in64_nth_zipw; [intros; apply wrap_in64|lia|congruence].
  Qed.
  (** C114: what a tensor decrypts to. *)
  Lemma k_C114_encrypt : (forall g k, length (fst (draw g k)) = k) -> forall p s src x, apart p -> 2 <= length (threads gstate p) -> src < length (threads gstate p) -> completes p s (length x) -> forall j, j < length x ->
    let n := length (threads gstate p) in
    nth j (round_trip p s src x) 0%Z = wrap (nth j x 0 + (column j (successive (length x) (generator p Prev) n) - column j (successive (length x) (generator p Next) n)))%Z.
  Proof.
    intros H p s src x J Hn Hs Hc j Hj n. destruct (shares_done H p s (length x) J Hc) as (L & F & C). unfold round_trip. set (z := zero_shares _) in *.
    assert (Lz : length z = n) by (unfold z, zero_shares; rewrite map_length; exact L).
    symmetry. apply wrap_unique; [apply (reveal_in64 (length x)); [rewrite add_at_length, Lz; unfold n; lia|now apply add_at_shapes|exact Hj]|].
    symmetry. rewrite (reveal_arith_nth _ (length x)); [|intros E; apply (f_equal (@length _)) in E; rewrite add_at_length, Lz in E; cbn in E; unfold n in E; lia|now apply add_at_shapes|exact Hj].
    rewrite (add_at_sum (length x)); [|reflexivity|exact F|rewrite Lz; exact Hs|exact Hj]. change (zsum (map (fun t => nth j t 0%Z) z)) with (column j z). rewrite (C j Hj). reflexivity.
  Qed.
  (** C114: decryption is right exactly if the two streams have the same sums. *)
  Lemma k_C114_right : (forall g k, length (fst (draw g k)) = k) -> forall p s src x, apart p -> 2 <= length (threads gstate p) -> src < length (threads gstate p) -> completes p s (length x) -> Forall in64 x ->
    let n := length (threads gstate p) in
    (round_trip p s src x = x <-> forall j, j < length x -> (column j (successive (length x) (generator p Prev) n) == column j (successive (length x) (generator p Next) n))%Z).
  Proof.
    intros H p s src x J Hn Hs Hc Hx n. assert (E := fun j Hj => k_C114_encrypt H p s src x J Hn Hs Hc j Hj). cbn zeta in E. fold n in E. split.
    - intros Er j Hj. specialize (E j Hj). rewrite Er in E. assert (Q := wrap_eqm (nth j x 0 + (column j (successive (length x) (generator p Prev) n) - column j (successive (length x) (generator p Next) n)))%Z). rewrite <- E in Q.
      transitivity ((nth j x 0 + (column j (successive (length x) (generator p Prev) n) - column j (successive (length x) (generator p Next) n))) - nth j x 0 + column j (successive (length x) (generator p Next) n))%Z; [apply eqm_refl_eq; ring|]. rewrite <- Q. apply eqm_refl_eq. ring.
    - intros C. apply (nth_ext _ _ 0%Z 0%Z).
      + destruct (shares_done H p s (length x) J Hc) as (L & F & _). unfold round_trip. apply reveal_arith_length; [|now apply add_at_shapes]. intros Z. apply (f_equal (@length _)) in Z. rewrite add_at_length in Z. unfold zero_shares in Z. rewrite map_length, L in Z. cbn in Z. lia.
      + intros j Hj. assert (Hj' : j < length x). { destruct (shares_done H p s (length x) J Hc) as (L & F & _). unfold round_trip in Hj. rewrite (reveal_arith_length _ (length x)) in Hj; [exact Hj| |now apply add_at_shapes]. intros Z. apply (f_equal (@length _)) in Z. rewrite add_at_length in Z. unfold zero_shares in Z. rewrite map_length, L in Z. cbn in Z. lia. }
        rewrite (E j Hj'). apply wrap_unique; [rewrite Forall_forall in Hx; apply Hx; now apply nth_In|]. rewrite (C j Hj'). apply eqm_refl_eq. ring.
  Qed.

  (** ** Masks *)
  (** C114: the threads' dropout masks are successive draws, one for each thread. *)
  Lemma k_C114_masks p s size : apart p -> let q := exec s (begin gstate (mask_draws size) p) in finished gstate q -> Permutation (masks q) (successive size (generator p Global_) (length (threads gstate p))).
  Proof.
    intros J q Hf. destruct (draws_done gstate unseeded seeded draw next_seed local_seed global_seed size p (mask_draws size) s J) as (L & D & P).
    - constructor; [eexists; reflexivity|constructor].
    - cbn. constructor; [intros []|constructor].
    - exact Hf.
    - fold q in L, D, P. rewrite successive_chunks. eapply Permutation_trans; [|exact (P Global_ (or_introl eq_refl))]. apply eq_ind with (x := masks q); [apply Permutation_refl|]. unfold masks, collected. clear -D. induction (threads gstate q) as [|t ts IH]; [reflexivity|]. cbn [map flat_map].
      rewrite IH by (intros u Hu; apply D; now right). assert (E := D t (or_introl eq_refl)). cbn in E. unfold of_key. destruct (drawn t) as [|[k v] [|]]; try discriminate. cbn in E. injection E as ->. reflexivity.
  Qed.

  (** ** Turns *)
  Lemma drawing_step size p i j t : (forall k u, nth_error (threads gstate p) k = Some u -> drawing size (todo u)) -> nth_error (threads gstate (advance gstate unseeded seeded draw next_seed local_seed global_seed p i)) j = Some t ->
    exists u, nth_error (threads gstate p) j = Some u /\ todo t = if Nat.eqb j i then tl (todo u) else todo u.
  Proof.
    intros H. unfold advance. destruct (nth_error (threads gstate p) i) as [u|] eqn:Ei.
    - destruct (todo u) as [|a rest] eqn:Eu.
      + intros Hj. exists t. split; [exact Hj|]. destruct (Nat.eqb_spec j i) as [->|]; [|reflexivity]. rewrite Ei in Hj. injection Hj as <-. now rewrite Eu.
      + assert (D := H i u Ei). rewrite Eu in D. apply Forall_cons_iff in D as [(k & ->) _]. cbn zeta. destruct (draw (objects gstate p (table gstate p k)) size) as [v g]. cbn [threads]. intros Hj. apply (threads_cases i _ u) in Hj as [[-> ->]|[N Hj]]; [| |exact Ei].
        * exists u. rewrite Nat.eqb_refl, Eu. split; [exact Ei|reflexivity].
        * exists t. split; [exact Hj|]. destruct (Nat.eqb_spec j i); [contradiction|reflexivity].
    - intros Hj. exists t. split; [exact Hj|]. destruct (Nat.eqb_spec j i) as [->|]; [congruence|reflexivity].
  Qed.
  Lemma turns_finish size s : forall p, (forall i t, nth_error (threads gstate p) i = Some t -> drawing size (todo t) /\ length (todo t) <= count_occ Nat.eq_dec s i) -> finished gstate (exec s p).
  Proof.
    induction s as [|i s IH]; intros p H.
    - apply Forall_forall. intros t Ht. apply In_nth_error in Ht as (j & Hj). apply H in Hj as [_ Hj]. cbn in Hj. destruct (todo t); [reflexivity|cbn in Hj; lia].
    - cbn [Threadgen.exec fold_left]. apply IH. intros j t Hj. destruct (drawing_step size p i j t (fun k u Hk => proj1 (H k u Hk)) Hj) as (u & Hu & E). destruct (H j u Hu) as [D C]. rewrite E. cbn [count_occ] in C. destruct (Nat.eq_dec i j) as [->|N].
      + rewrite Nat.eqb_refl. destruct (todo u) as [|a r]; cbn [tl length] in *; [split; [constructor|lia]|]. apply Forall_cons_iff in D as [_ D]. split; [exact D|lia].
      + destruct (Nat.eqb_spec j i); [congruence|]. auto.
  Qed.
  (** every thread has two turns *)
  Definition two_turns (n : nat) (s : list nat) : Prop := forall i, i < n -> 2 <= count_occ Nat.eq_dec s i.
  (** C114: any schedule that gives each thread two turns completes a zero sharing. *)
  Lemma k_C114_completes p s size : two_turns (length (threads gstate p)) s -> completes p s size.
  Proof.
    intros H. apply (turns_finish size). cbn [begin threads]. intros i t Hi. assert (L : i < length (threads gstate p)) by (rewrite <- (map_length (fun _ : thread => fresh_thread (przs_draws size))); apply nth_error_Some; congruence).
    apply nth_error_In in Hi. apply in_map_iff in Hi as (u & <- & _). cbn [fresh_thread todo]. split; [|exact (H i L)]. constructor; [eexists; reflexivity|]. constructor; [eexists; reflexivity|constructor].
  Qed.

  (** ** Two threads *)
  (** thread 0 up to its wait, thread 1 up to its seeding, thread 0 to its end, thread 1 to its end *)
  Definition in_turn : list nat := repeat 0 5 ++ repeat 1 6 ++ repeat 0 7 ++ repeat 1 5.
  (** thread 1 sets its prev seed after thread 0 and its next seed before thread 0 *)
  Definition crossed : list nat := repeat 0 5 ++ repeat 1 6 ++ repeat 0 3 ++ [1; 0; 1; 1; 0; 0; 0; 1; 1].
  Lemma in_turn_state : let p := exec in_turn (starting gstate unseeded 2) in finished gstate p /\ healthy gstate p /\ generator p Prev = seeded (next_seed 0) /\ generator p Next = seeded (next_seed 1).
  Proof. vm_compute. repeat split; repeat constructor. Qed.
  Lemma crossed_state : let p := exec crossed (starting gstate unseeded 2) in finished gstate p /\ healthy gstate p /\ generator p Prev = seeded (next_seed 0) /\ generator p Next = seeded (next_seed 0).
  Proof. vm_compute. repeat split; repeat constructor. Qed.
  (** C114: with two threads, the order in which they initialise decides: in one order a tensor decrypts rightly only if the streams of the two seeds have the same sums, in another it always does. *)
  Lemma k_C114_two_threads : (forall g k, length (fst (draw g k)) = k) -> exists s1 s2,
    let p1 := exec s1 (starting gstate unseeded 2) in let p2 := exec s2 (starting gstate unseeded 2) in
    (finished gstate p1 /\ healthy gstate p1) /\ (finished gstate p2 /\ healthy gstate p2) /\
    forall s src x, two_turns 2 s -> src < 2 -> Forall in64 x ->
      (round_trip p1 s src x = x <-> forall j, j < length x -> (column j (successive (length x) (seeded (next_seed 0)) 2) == column j (successive (length x) (seeded (next_seed 1)) 2))%Z) /\
      round_trip p2 s src x = x.
  Proof.
    intros H. exists in_turn, crossed. destruct in_turn_state as (F1 & H1 & P1 & N1). destruct crossed_state as (F2 & H2 & P2 & N2). cbn zeta. split; [exact (conj F1 H1)|]. split; [exact (conj F2 H2)|].
    destruct (k_C114_setup 2 in_turn ltac:(lia) F1 H1) as (L1 & J1 & _). destruct (k_C114_setup 2 crossed ltac:(lia) F2 H2) as (L2 & J2 & _). set (p1 := exec in_turn _) in *. set (p2 := exec crossed _) in *. intros s src x Hs Hsrc Hx.
    assert (C1 : completes p1 s (length x)) by (apply k_C114_completes; now rewrite L1). assert (C2 : completes p2 s (length x)) by (apply k_C114_completes; now rewrite L2).
    assert (T1 : 2 <= length (threads gstate p1)) by lia. assert (T2 : 2 <= length (threads gstate p2)) by lia. assert (S1 : src < length (threads gstate p1)) by lia. assert (S2 : src < length (threads gstate p2)) by lia.
    split.
    - pose proof (k_C114_right H p1 s src x J1 T1 S1 C1 Hx) as R. cbn zeta in R. rewrite L1, P1, N1 in R. exact R.
    - apply (k_C114_right H p2 s src x J2 T2 S2 C2 Hx). cbn zeta. intros j _. rewrite P2, N2. reflexivity.
  Qed.

  (** ** Three threads *)
  Lemma failed_stays p i j t : nth_error (threads gstate p) i = Some t -> failed t = true -> todo t = [] -> nth_error (threads gstate (advance gstate unseeded seeded draw next_seed local_seed global_seed p j)) i = Some t.
  Proof.
    intros Hi Ht Hd. unfold advance. destruct (nth_error (threads gstate p) j) as [u|] eqn:Ej; [|exact Hi]. destruct (todo u) as [|a rest] eqn:Eu; [exact Hi|].
    assert (N : i <> j) by (intros ->; rewrite Ej in Hi; injection Hi as ->; congruence). cbn zeta.
    destruct a; try (cbn [threads]; rewrite set_nth_other by exact N; exact Hi).
    - destruct (mailbox gstate p j) as [|[r z|z] ms]; [exact Hi| |]; [destruct (Nat.eqb r src)|]; cbn [threads]; rewrite set_nth_other by exact N; exact Hi.
    - destruct (mailbox gstate p j) as [|[r z|z] ms]; [exact Hi| |]; cbn [threads]; rewrite set_nth_other by exact N; exact Hi.
    - destruct (draw _ _). cbn [threads]. rewrite set_nth_other by exact N. exact Hi.
  Qed.
  Lemma exec_app a b p : exec (a ++ b) p = exec b (exec a p).
  Proof. apply fold_left_app. Qed.
  (** thread 1 is slow: the broadcast of thread 0 overtakes its seed *)
  Definition slow_sender : list nat := repeat 0 5 ++ repeat 2 5 ++ repeat 0 2 ++ [2].
  (** C114: with three threads the initialisation can fail. *)
  Lemma k_C114_overtaken_refuted : exists s, forall s', ~ healthy gstate (exec (s ++ s') (starting gstate unseeded 3)).
  Proof.
    exists slow_sender. intros s' Hh. rewrite exec_app in Hh.
    assert (F : exists t, nth_error (threads gstate (exec slow_sender (starting gstate unseeded 3))) 2 = Some t /\ failed t = true /\ todo t = []) by (vm_compute; eexists; split; [reflexivity|split; reflexivity]).
    revert Hh F. generalize (exec slow_sender (starting gstate unseeded 3)). induction s' as [|j s' IH]; intros p Hh (t & Ht & Hf & Hd).
    - unfold healthy in Hh. cbn in Hh. rewrite Forall_forall in Hh. rewrite (Hh t (nth_error_In _ _ Ht)) in Hf. discriminate.
    - apply (IH _ Hh). exists t. split; [now apply failed_stays|now split].
  Qed.
End Claims.

(** ** A generator *)
(** counts up from its seed *)
Definition counting_draw (g : Z) (size : nat) : list Z * Z := (map (fun k => (g + Z.of_nat k)%Z) (seq 0 size), (g + Z.of_nat size)%Z).
Definition seeds_10_20 (i : nat) : Z := match i with O => 10%Z | _ => 20%Z end.
Definition thread_exec := exec Z 0%Z (fun z => z) counting_draw seeds_10_20 seeds_10_20 seeds_10_20.
(** C114: a tensor that decrypts to something else *)
Lemma k_C114_decrypt_refuted : let p := thread_exec in_turn (starting Z 0%Z 2) in finished Z p /\ healthy Z p /\ two_turns 2 [0; 1; 0; 1] /\
  round_trip 0%Z (fun z => z) counting_draw seeds_10_20 seeds_10_20 seeds_10_20 p [0; 1; 0; 1] 0 [5; 6]%Z = [-15; -14]%Z.
Proof. cbn zeta. split; [vm_compute; repeat constructor|]. split; [vm_compute; repeat constructor|]. split; [intros [|[|i]] Hi; [now vm_compute|now vm_compute|lia]|]. vm_compute. reflexivity. Qed.
(** C114: masks that differ *)
Lemma k_C114_masks_refuted : let p := thread_exec in_turn (starting Z 0%Z 2) in masks (thread_exec [0; 1] (begin Z (mask_draws 2) p)) = [[10; 11]; [12; 13]]%Z.
Proof. vm_compute. reflexivity. Qed.

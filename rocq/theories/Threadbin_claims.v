(** Binary sharings of parties that run as threads: proofs of C114. *)
Require Import ZArith List Arith Bool Lia Permutation.
From Verif Require Import Ring64 Sharing Sharing_proofs Threadgen Threadgen_proofs Threadgen_claims Threadbin.
Import ListNotations.
Local Open Scope nat_scope.

(** ** Specification *)
(** the exclusive or of the elements at [j] *)
Definition xcolumn (j : nat) (l : list (list Z)) : Z := fold_right Z.lxor 0%Z (map (fun v => nth j v 0%Z) l).

Lemma xor_swap a b c d : Z.lxor (Z.lxor a b) (Z.lxor c d) = Z.lxor (Z.lxor a c) (Z.lxor b d).
Proof. rewrite !Z.lxor_assoc. f_equal. rewrite <- !Z.lxor_assoc. f_equal. apply Z.lxor_comm. Qed.
Lemma xcolumn_app j a b : xcolumn j (a ++ b) = Z.lxor (xcolumn j a) (xcolumn j b).
Proof. unfold xcolumn. induction a as [|v a IH]; [reflexivity|]. cbn [map app fold_right]. now rewrite IH, Z.lxor_assoc. Qed.
Lemma xcolumn_permutation j a b : Permutation a b -> xcolumn j a = xcolumn j b.
Proof. unfold xcolumn. induction 1; cbn [map fold_right]; try congruence. rewrite <- !Z.lxor_assoc. f_equal. apply Z.lxor_comm. Qed.

Section Claims.
  Context {gstate : Type} (unseeded : gstate) (seeded : Z -> gstate) (draw : gstate -> nat -> list Z * gstate) (next_seed local_seed global_seed : nat -> Z).
  Notation exec := (exec gstate unseeded seeded draw next_seed local_seed global_seed).
  Notation completes := (completes unseeded seeded draw next_seed local_seed global_seed).
  Notation successive := (successive draw).
  Definition bin_shares (p : process gstate) : list (list Z) := map zero_share_bin (threads gstate p).
  (** every thread encrypts, and all reveal *)
  Definition bin_round_trip (p : process gstate) (s : list nat) (src : nat) (x : list Z) : list Z := reveal_bin (encrypt_bin_threads unseeded seeded draw next_seed local_seed global_seed s src x p).
  Lemma threads_xcolumns ts : (forall t, In t ts -> map fst (drawn t) = [Prev; Next]) -> forall size, (forall t v, In t ts -> In v (map snd (drawn t)) -> length v = size) -> forall j, j < size ->
    xcolumn j (map zero_share_bin ts) = Z.lxor (xcolumn j (flat_map (of_key Prev) ts)) (xcolumn j (flat_map (of_key Next) ts)).
  Proof.
    intros H size Hs j Hj. induction ts as [|t ts IH]; [reflexivity|]. cbn [map flat_map]. specialize (IH (fun u Hu => H u (or_intror Hu)) (fun u v Hu => Hs u v (or_intror Hu))). rewrite !xcolumn_app. change (xcolumn j (zero_share_bin t :: map zero_share_bin ts)) with (Z.lxor (nth j (zero_share_bin t) 0%Z) (xcolumn j (map zero_share_bin ts))). rewrite IH.
    assert (Ht := H t (or_introl eq_refl)). assert (Hv := fun v => Hs t v (or_introl eq_refl)). assert (exists c n, drawn t = [(Prev, c); (Next, n)]) as (c & n & E) by (destruct (drawn t) as [|[k1 c] [|[k2 n] [|]]]; try discriminate; cbn in Ht; injection Ht as -> ->; eauto). rewrite E in Hv. cbn in Hv.
    assert (KP : of_key Prev t = [c]) by (unfold of_key; now rewrite E). assert (KN : of_key Next t = [n]) by (unfold of_key; now rewrite E). rewrite KP, KN. unfold zero_share_bin at 1. rewrite E. rewrite nth_zipw by (rewrite ?(Hv c), ?(Hv n); auto). change (xcolumn j [c]) with (Z.lxor (nth j c 0%Z) 0). change (xcolumn j [n]) with (Z.lxor (nth j n 0%Z) 0). rewrite !Z.lxor_0_r. apply xor_swap.
  Qed.
  Lemma bin_done (draw_length : forall g k, length (fst (draw g k)) = k) p s size : apart p -> completes p s size ->
    let q := exec s (begin gstate (przs_draws size) p) in let n := length (threads gstate p) in
    length (threads gstate q) = n /\ Forall (fun t => length t = size) (bin_shares q) /\
    forall j, j < size -> xcolumn j (bin_shares q) = Z.lxor (xcolumn j (successive size (generator p Prev) n)) (xcolumn j (successive size (generator p Next) n)).
  Proof.
    intros J Hc q n. destruct (draws_done gstate unseeded seeded draw next_seed local_seed global_seed size p (przs_draws size) s J) as (L & D & P).
    - constructor; [eexists; reflexivity|]. constructor; [eexists; reflexivity|constructor].
    - cbn. constructor; [intros [E|[]]; discriminate|]. constructor; [intros []|constructor].
    - exact Hc.
    - fold q in L, D, P. assert (Pp := P Prev (or_introl eq_refl)). assert (Pn := P Next (or_intror (or_introl eq_refl))).
      assert (Hs : forall t v, In t (threads gstate q) -> In v (map snd (drawn t)) -> length v = size).
      { intros t v Ht Hv. assert (E := D t Ht). cbn in E. assert (In v (of_key Prev t) \/ In v (of_key Next t)) as [H|H].
        { unfold of_key. destruct (drawn t) as [|[k1 c] [|[k2 m] [|]]]; try discriminate. injection E as -> ->. cbn in *. tauto. }
        - apply (collected_sized draw draw_length size _ _ Prev q Pp). apply in_flat_map. eauto.
        - apply (collected_sized draw draw_length size _ _ Next q Pn). apply in_flat_map. eauto. }
      split; [exact L|]. split.
      + apply Forall_forall. intros z Hz. apply in_map_iff in Hz as (t & <- & Ht). assert (E := D t Ht). cbn in E. assert (Hv := fun v => Hs t v Ht). unfold zero_share_bin. destruct (drawn t) as [|[k1 c] [|[k2 m] [|]]]; try discriminate. cbn in Hv. rewrite zipw_length by (rewrite !Hv; auto). apply Hv. auto.
      + intros j Hj. unfold bin_shares. rewrite (threads_xcolumns (threads gstate q) D size Hs j Hj). rewrite !successive_chunks. f_equal; apply xcolumn_permutation; assumption.
  Qed.
  (** C114: what a binary sharing decrypts to. *)
  Lemma k_C114_binary : (forall g k, length (fst (draw g k)) = k) -> forall p s src x, apart p -> src < length (threads gstate p) -> completes p s (length x) ->
    let n := length (threads gstate p) in length (bin_round_trip p s src x) = length x /\ forall j, j < length x ->
    nth j (bin_round_trip p s src x) 0%Z = Z.lxor (nth j x 0%Z) (Z.lxor (xcolumn j (successive (length x) (generator p Prev) n)) (xcolumn j (successive (length x) (generator p Next) n))).
  Proof.
    intros H p s src x J Hs Hc n. destruct (bin_done H p s (length x) J Hc) as (L & F & C). unfold bin_round_trip, encrypt_bin_threads. fold (bin_shares (exec s (begin gstate (przs_draws (length x)) p))). set (z := bin_shares _) in *.
    assert (Lz : length z = n) by (unfold z, bin_shares; rewrite map_length; exact L). assert (Ne : add_at Z.lxor src x z <> []) by (intros E; apply (f_equal (@length _)) in E; rewrite add_at_length, Lz in E; cbn in E; unfold n in E; lia).
    pose proof (add_at_shapes Z.lxor (length x) src x z eq_refl F) as S. split; [now apply reveal_bin_length|]. intros j Hj. rewrite (reveal_bin_nth _ (length x)); [|exact Ne|exact S|exact Hj].
    rewrite (add_at_xor (length x)); [|reflexivity|exact F|rewrite Lz; exact Hs|exact Hj]. f_equal. exact (C j Hj).
  Qed.
  (** C114: decryption of a binary sharing is right exactly if the two streams have the same exclusive ors. *)
  Lemma k_C114_binary_right : (forall g k, length (fst (draw g k)) = k) -> forall p s src x, apart p -> src < length (threads gstate p) -> completes p s (length x) ->
    let n := length (threads gstate p) in
    (bin_round_trip p s src x = x <-> forall j, j < length x -> xcolumn j (successive (length x) (generator p Prev) n) = xcolumn j (successive (length x) (generator p Next) n)).
  Proof.
    intros H p s src x J Hs Hc n. destruct (k_C114_binary H p s src x J Hs Hc) as [L E]. fold n in E. split.
    - intros Er j Hj. specialize (E j Hj). rewrite Er in E. apply Z.lxor_eq. apply (f_equal (Z.lxor (nth j x 0%Z))) in E. rewrite <- Z.lxor_assoc, Z.lxor_nilpotent, Z.lxor_0_l in E. now rewrite <- E.
    - intros C. apply (nth_ext _ _ 0%Z 0%Z); [exact L|]. intros j Hj. rewrite L in Hj. rewrite (E j Hj), (C j Hj), Z.lxor_nilpotent. apply Z.lxor_0_r.
  Qed.
  (** C114: with two threads the order in which they initialise decides for binary sharings too. *)
  Lemma k_C114_binary_two_threads : (forall g k, length (fst (draw g k)) = k) -> exists s1 s2,
    let p1 := exec s1 (starting gstate unseeded 2) in let p2 := exec s2 (starting gstate unseeded 2) in
    (finished gstate p1 /\ healthy gstate p1) /\ (finished gstate p2 /\ healthy gstate p2) /\
    forall s src x, two_turns 2 s -> src < 2 ->
      (bin_round_trip p1 s src x = x <-> forall j, j < length x -> xcolumn j (successive (length x) (seeded (next_seed 0)) 2) = xcolumn j (successive (length x) (seeded (next_seed 1)) 2)) /\
      bin_round_trip p2 s src x = x.
  Proof.
    intros H. exists in_turn, crossed. destruct (in_turn_state unseeded seeded draw next_seed local_seed global_seed) as (F1 & H1 & P1 & N1). destruct (crossed_state unseeded seeded draw next_seed local_seed global_seed) as (F2 & H2 & P2 & N2). cbn zeta. split; [exact (conj F1 H1)|]. split; [exact (conj F2 H2)|].
    destruct (k_C114_setup unseeded seeded draw next_seed local_seed global_seed 2 in_turn ltac:(lia) F1 H1) as (L1 & J1 & _). destruct (k_C114_setup unseeded seeded draw next_seed local_seed global_seed 2 crossed ltac:(lia) F2 H2) as (L2 & J2 & _). set (p1 := exec in_turn _) in *. set (p2 := exec crossed _) in *. intros s src x Hs Hsrc.
    assert (C1 : completes p1 s (length x)) by (apply k_C114_completes; now rewrite L1). assert (C2 : completes p2 s (length x)) by (apply k_C114_completes; now rewrite L2). assert (S1 : src < length (threads gstate p1)) by lia. assert (S2 : src < length (threads gstate p2)) by lia.
    split.
    - pose proof (k_C114_binary_right H p1 s src x J1 S1 C1) as R. cbn zeta in R. rewrite L1, P1, N1 in R. exact R.
    - apply (k_C114_binary_right H p2 s src x J2 S2 C2). cbn zeta. intros j _. rewrite P2, N2. reflexivity.
  Qed.
End Claims.
(** C114: a binary sharing that decrypts to something else *)
Lemma k_C114_binary_refuted : let p := thread_exec in_turn (starting Z 0%Z 2) in finished Z p /\ healthy Z p /\ two_turns 2 [0; 1; 0; 1] /\
  bin_round_trip 0%Z (fun z => z) counting_draw seeds_10_20 seeds_10_20 seeds_10_20 p [0; 1; 0; 1] 0 [5; 6; 7]%Z = [1; 14; 11]%Z.
Proof. cbn zeta. split; [vm_compute; repeat constructor|]. split; [vm_compute; repeat constructor|]. split; [intros [|[|i]] Hi; [now vm_compute|now vm_compute|lia]|]. vm_compute. reflexivity. Qed.

(** C88, C89: what zero sharings, the trusted first party and the replicated protocol give away. *)
Require Import List ZArith Bool Arith Lia Znumtheory Zpow_facts.
From Verif Require Import Ring64 Sharing Sharing_proofs Arith Arith_proofs Beaver Trunc Secrecy Secrecy_claims Leak.
Import ListNotations.
Local Open Scope Z_scope.

(** *** Specification *)
(** the sum of the numbers of the [j] parties after party [c] in the ring *)
Definition run_sum (n c j : nat) (x : list Z) : Z := zsum (map (fun t => nth ((c + t) mod n) x 0) (seq 1 j)).
(** the two inputs agree on the coalition's numbers and on the sum over every stretch of parties between party [c] and a member of the coalition *)
Definition same_runs (n : nat) (bad : nat -> bool) (c : nat) (x x' : list Z) : Prop :=
  (forall i, (i < n)%nat -> bad i = true -> nth i x 0 = nth i x' 0) /\ (forall j, (j < n)%nat -> bad ((c + j + 1) mod n)%nat = true -> run_sum n c j x == run_sum n c j x').
(** [m] rounds of ring numbers *)
Definition rounds_ok (n m : nat) (us : list (list Z)) : Prop := length us = m /\ Forall (fun u => length u = n /\ Forall in64 u) us.

(** *** The ring *)
Lemma next_mod n i : (0 < n)%nat -> next n (i mod n) = ((i + 1) mod n)%nat.
Proof. intros H. unfold next. rewrite Nat.add_mod_idemp_l by lia. reflexivity. Qed.
Lemma prev_mod n i : (0 < n)%nat -> prev n ((i + 1) mod n) = (i mod n)%nat.
Proof.
  intros H. unfold prev. assert (L := Nat.mod_upper_bound (i + 1) n ltac:(lia)). replace ((i + 1) mod n + n - 1)%nat with ((i + 1) mod n + (n - 1))%nat by lia.
  rewrite Nat.add_mod_idemp_l by lia. replace (i + 1 + (n - 1))%nat with (i + 1 * n)%nat by lia. now rewrite Nat.mod_add by lia.
Qed.
Lemma run_sum_S n c j x : run_sum n c (S j) x = run_sum n c j x + nth ((c + j + 1) mod n) x 0.
Proof. unfold run_sum. rewrite seq_S, map_app, zsum_app. cbn [map]. rewrite zsum_cons. replace (c + (1 + j))%nat with (c + j + 1)%nat by lia. cbn. ring. Qed.
Lemma telescope n c u j : (0 < n)%nat -> zsum (map (fun t => zero_share n u ((c + t) mod n)) (seq 1 j)) == nth (c mod n) u 0 - nth ((c + j) mod n) u 0.
Proof.
  intros H. induction j as [|j IH]; [rewrite Nat.add_0_r; apply eqm_refl_eq; cbn; ring|]. rewrite seq_S, map_app, zsum_app, IH. cbn [map]. rewrite zsum_cons. unfold zero_share at 1. rewrite wsub_eqm. replace (c + (1 + j))%nat with (c + j + 1)%nat by lia. rewrite prev_mod by assumption. replace (c + S j)%nat with (c + j + 1)%nat by lia. apply eqm_refl_eq. cbn. ring.
Qed.
Lemma zsum_swap {A} (f : A -> nat -> Z) us l : zsum (map (fun t => zsum (map (fun u => f u t) us)) l) = zsum (map (fun u => zsum (map (f u) l)) us).
Proof.
  induction l as [|t l IH]; cbn [map]; [induction us as [|u us IHu]; [reflexivity|cbn [map]; rewrite zsum_cons, <- IHu; reflexivity]|]. rewrite zsum_cons, IH.
  induction us as [|u us IHu]; [reflexivity|]. cbn [map]. rewrite !zsum_cons. rewrite <- IHu.
  - ring.
  - clear. induction l as [|t l IH]; [cbn; induction us as [|u us IH]; [reflexivity|cbn [map]; rewrite zsum_cons, <- IH; reflexivity]|]. cbn [map]. rewrite zsum_cons, IH. clear. induction us as [|u us IH]; [reflexivity|]. cbn [map]. rewrite !zsum_cons, <- IH. ring.
Qed.
Lemma zsum_map_add {A} (f g : A -> Z) l : zsum (map (fun a => f a + g a) l) = zsum (map f l) + zsum (map g l).
Proof. induction l as [|a l IH]; [reflexivity|]. cbn [map]. rewrite !zsum_cons, IH. ring. Qed.
Lemma map_seq_eq {B} (f g : nat -> B) n : map f (seq 0 n) = map g (seq 0 n) -> forall i, (i < n)%nat -> f i = g i.
Proof. intros H i Hi. rewrite <- (map_seq_nth f n i (f i) Hi), H. now rewrite map_seq_nth. Qed.
Lemma shares_run n c us x j : (0 < n)%nat -> zsum (map (fun t => sum_share n us x ((c + t) mod n)) (seq 1 j)) == run_sum n c j x + zsum (map (fun u => nth (c mod n) u 0 - nth ((c + j) mod n) u 0) us).
Proof.
  intros H. unfold sum_share. rewrite (zsum_map_eqm _ (fun t => nth ((c + t) mod n) x 0 + zsum (map (fun u => zero_share n u ((c + t) mod n)) us))) by (intros; apply wrap_eqm).
  rewrite zsum_map_add, (zsum_swap (fun u t => zero_share n u ((c + t) mod n))). unfold run_sum. apply eqm_add; [reflexivity|]. apply zsum_map_eqm. intros u _. now apply telescope.
Qed.

Section Coalition.
  Variable n : nat.
  Variable bad : nat -> bool.
  Variable c : nat.
  Hypothesis Hc : (c < n)%nat.
  Hypothesis Bc : bad c = true.
  Variables x x' : list Z.
  Let N0 : (0 < n)%nat. Proof. lia. Qed.
  Lemma learned us us' : sum_view n bad us x = sum_view n bad us' x' -> same_runs n bad c x x'.
  Proof.
    unfold sum_view. intros E. injection E as E1 E2 E3. split.
    - intros i Hi B. pose proof (map_seq_eq _ _ n E1 i Hi) as Q. cbn beta in Q. rewrite B in Q. now injection Q.
    - intros j Hj B. assert (S : zsum (map (fun t => sum_share n us x ((c + t) mod n)) (seq 1 j)) = zsum (map (fun t => sum_share n us' x' ((c + t) mod n)) (seq 1 j))).
      { f_equal. apply map_ext. intros t. apply (map_seq_eq _ _ n E3). apply Nat.mod_upper_bound. lia. }
      assert (K : forall i, (i < n)%nat -> bad i || bad (next n i) = true -> map (fun u => nth i u 0) us = map (fun u => nth i u 0) us').
      { intros i Hi Q. clear - E2 Hi Q. revert us' E2. induction us as [|u us IH]; intros [|u' us'] E2; try discriminate; [reflexivity|]. cbn [map] in *. injection E2 as Eu E2. f_equal; [|now apply IH]. pose proof (map_seq_eq _ _ n Eu i Hi) as P. cbn beta in P. rewrite Q in P. now injection P. }
      pose proof (shares_run n c us x j N0) as R1. pose proof (shares_run n c us' x' j N0) as R2. rewrite S in R1. rewrite R2 in R1.
      assert (W : forall vs : list (list Z), zsum (map (fun u => nth (c mod n) u 0 - nth ((c + j) mod n) u 0) vs) = zsum (map (fun u => nth (c mod n) u 0) vs) - zsum (map (fun u => nth ((c + j) mod n) u 0) vs)). { clear. induction vs as [|u vs IH]; [reflexivity|]. cbn [map]. rewrite !zsum_cons, IH. ring. }
      rewrite !W in R1. rewrite (K (c mod n)%nat) in R1 by (try (apply Nat.mod_upper_bound; lia); rewrite Nat.mod_small by lia; now rewrite Bc). rewrite (K ((c + j) mod n)%nat) in R1 by (try (apply Nat.mod_upper_bound; lia); rewrite next_mod by assumption; rewrite B; apply orb_true_r).
      set (T := zsum (map (fun u => nth (c mod n) u 0) us') - zsum (map (fun u => nth ((c + j) mod n) u 0) us')) in R1. rewrite <- (Z.add_simpl_r (run_sum n c j x) T), <- R1. apply eqm_refl_eq. ring.
  Qed.
  Definition place (i : nat) : nat := ((i + n - c) mod n)%nat.
  Lemma place_back i : (i < n)%nat -> ((c + place i) mod n)%nat = i.
  Proof. intros Hi. unfold place. rewrite Nat.add_mod_idemp_r by lia. replace (c + (i + n - c))%nat with (i + 1 * n)%nat by lia. rewrite Nat.mod_add by lia. now apply Nat.mod_small. Qed.
  Lemma place_lt i : (place i < n)%nat.
  Proof. apply Nat.mod_upper_bound. lia. Qed.
  Definition gap (i : nat) : Z := run_sum n c (place i) x' - run_sum n c (place i) x.
  Definition shift (s : Z) (us : list (list Z)) : list (list Z) := match us with [] => [] | u :: us => map (fun i => wrap (nth i u 0 + s * gap i)) (seq 0 n) :: us end.
  Lemma shift_ok s m us : rounds_ok n m us -> rounds_ok n m (shift s us) /\ shift (- s) (shift s us) = us.
  Proof.
    intros [L F]. destruct us as [|u us]; [now repeat split|]. apply Forall_cons_iff in F as [[Lu Fu] F]. cbn [shift]. split.
    - split; [exact L|]. constructor; [|assumption]. split; [now rewrite map_length, seq_length|]. apply Forall_map, Forall_forall. intros i _. apply wrap_in64.
    - f_equal. apply nth_ext with (d := 0) (d' := 0); [now rewrite map_length, seq_length|]. intros i Hi. rewrite map_length, seq_length in Hi. rewrite !map_seq_nth by assumption. apply eqm_in64_eq; [apply wrap_in64|apply Forall_nth; [assumption|lia]|]. rewrite !wrap_eqm. apply eqm_refl_eq. ring.
  Qed.
  Hypothesis K : same_runs n bad c x x'.
  Lemma gap_known i : (i < n)%nat -> bad i || bad (next n i) = true -> gap i == 0.
  Proof.
    intros Hi B. destruct K as [K1 K2]. unfold gap. assert (X : run_sum n c (place i) x == run_sum n c (place i) x'). 2: { rewrite X. apply eqm_refl_eq. ring. }
    destruct (bad (next n i)) eqn:Bn.
    - apply K2; [apply place_lt|]. rewrite <- Bn. f_equal. rewrite <- (place_back i Hi) at 2. now rewrite next_mod.
    - rewrite orb_false_r in B. destruct (place i) as [|j] eqn:P; [reflexivity|]. pose proof (place_back i Hi) as PB. rewrite P in PB. replace (c + S j)%nat with (c + j + 1)%nat in PB by lia. rewrite !run_sum_S, PB, (K1 i Hi B). apply eqm_add; [|reflexivity]. apply K2; [pose proof (place_lt i); lia|]. now rewrite PB.
  Qed.
  Lemma gap_step i : (i < n)%nat -> gap (prev n i) - gap i == nth i x 0 - nth i x' 0.
  Proof.
    intros Hi. destruct (place i) as [|j] eqn:P.
    - pose proof (place_back i Hi) as PB. rewrite P, Nat.add_0_r, Nat.mod_small in PB by lia. subst i. destruct K as [K1 K2]. rewrite (K1 c Hc Bc).
      rewrite (gap_known c) by (try assumption; now rewrite Bc). rewrite gap_known; [apply eqm_refl_eq; ring| |].
      + apply Nat.mod_upper_bound. lia.
      + unfold prev. rewrite next_mod by assumption. replace (c + n - 1 + 1)%nat with (c + 1 * n)%nat by lia. rewrite Nat.mod_add, (Nat.mod_small c n) by lia. rewrite Bc. apply orb_true_r.
    - assert (PP : place (prev n i) = j). { pose proof (place_back i Hi) as PB. rewrite P in PB. replace (c + S j)%nat with (c + j + 1)%nat in PB by lia. rewrite <- PB, prev_mod by assumption. unfold place. pose proof (place_lt i) as PL. rewrite P in PL. assert (Nat.modulo (c + j) n < n)%nat by (apply Nat.mod_upper_bound; lia).
        replace ((c + j) mod n + n - c)%nat with ((c + j) mod n + (n - c))%nat by lia. rewrite Nat.add_mod_idemp_l by lia. replace (c + j + (n - c))%nat with (j + 1 * n)%nat by lia. rewrite Nat.mod_add by lia. apply Nat.mod_small. lia. }
      unfold gap. rewrite PP, P, !run_sum_S. pose proof (place_back i Hi) as PB. rewrite P in PB. replace (c + S j)%nat with (c + j + 1)%nat in PB by lia. rewrite PB. apply eqm_refl_eq. ring.
  Qed.
  Lemma hidden m us : rounds_ok n (S m) us -> sum_view n bad us x = sum_view n bad (shift 1 us) x'.
  Proof.
    intros [L F]. destruct us as [|u us]; [discriminate|]. apply Forall_cons_iff in F as [[Lu Fu] F]. cbn [shift]. set (u2 := map (fun i => wrap (nth i u 0 + 1 * gap i)) (seq 0 n)).
    assert (N2 : forall i, (i < n)%nat -> nth i u2 0 = wrap (nth i u 0 + 1 * gap i)) by (intros i Hi; unfold u2; now rewrite map_seq_nth).
    unfold sum_view. f_equal; [f_equal|].
    - apply map_ext_in. intros i Hi. apply in_seq in Hi. destruct (bad i) eqn:B; [|reflexivity]. f_equal. destruct K as [K1 _]. apply K1; [lia|assumption].
    - cbn [map]. f_equal. apply map_ext_in. intros i Hi. apply in_seq in Hi. destruct (bad i || bad (next n i)) eqn:B; [|reflexivity]. f_equal. rewrite N2 by lia. apply eqm_in64_eq; [apply Forall_nth; [assumption|lia]|apply wrap_in64|]. rewrite wrap_eqm. rewrite (gap_known i) by (try assumption; lia). apply eqm_refl_eq. ring.
    - apply map_ext_in. intros i Hi. apply in_seq in Hi. unfold sum_share. apply eqm_wrap_eq. cbn [map]. rewrite !zsum_cons. unfold zero_share at 1 3. rewrite !wsub_eqm, !N2, !wrap_eqm; [|lia|apply Nat.mod_upper_bound; lia].
      pose proof (gap_step i ltac:(lia)) as G. set (R := zsum _). transitivity (nth i x' 0 + (nth (prev n i) u 0 - nth i u 0 + R) + (gap (prev n i) - gap i)); [|apply eqm_refl_eq; ring]. rewrite G. apply eqm_refl_eq. ring.
  Qed.
End Coalition.

Lemma nth_map {A B} (f : A -> B) l i da db : (i < length l)%nat -> nth i (map f l) db = f (nth i l da).
Proof. intros H. rewrite (nth_indep _ db (f da)) by (now rewrite map_length). apply map_nth. Qed.
(** C88: the shares of the zero sharings are differences of numbers that neighbouring parties have in common *)
Lemma k_C88_ring : forall (G : Type) seeded (draw : G -> nat -> list Z * G), (forall g k, length (fst (draw g k)) = k) -> forall next_seeds global_seeds w0 history d k i j,
  setup_prng G seeded next_seeds global_seeds = Some w0 -> let w := run G seeded draw history w0 in (i < length w)%nat -> (j < k)%nat ->
  nth j (nth i (fst (przs G draw wsub d k w)) []) 0 = zero_share (length w) (map (fun g => nth j (fst (draw (g_next G g d) k)) 0) w) i.
Proof.
  intros G seeded draw DL ns gs w0 h d k i j Hs w Hi Hj. assert (Sy : synced w) by (apply run_inv; now apply setup_synced in Hs). destruct w as [|g0 w'] eqn:Ew; [cbn in Hi; lia|]. rewrite <- Ew in *. clear Ew.
  rewrite przs_fst. rewrite (nth_map _ w i g0) by assumption.
  rewrite nth_zipw by (rewrite ?DL; auto). unfold zero_share. assert (P : (prev (length w) i < length w)%nat) by (apply Nat.mod_upper_bound; lia).
  f_equal.
  - rewrite (nth_map _ w _ g0) by assumption. do 3 f_equal.
    pose proof (Sy d) as E. assert (E2 : nth (prev (length w) i) (map (fun g => g_next G g d) w) (g_next G g0 d) = nth i (map (fun g => g_prev G g d) w) (g_next G g0 d)).
    { rewrite E. apply nth_error_nth. rewrite nth_error_rot1 by (now rewrite map_length). rewrite map_length. replace ((prev (length w) i + 1) mod length w)%nat with i; [apply nth_error_nth'; now rewrite map_length|].
      unfold prev. rewrite Nat.add_mod_idemp_l by lia. replace (i + length w - 1 + 1)%nat with (i + 1 * length w)%nat by lia. rewrite Nat.mod_add, Nat.mod_small by lia. reflexivity. }
    rewrite !(nth_map _ w _ g0) in E2 by assumption. congruence.
  - now rewrite (nth_map _ w _ g0) by assumption.
Qed.
(** C88: a coalition that sees a sum revealed learns the sum of the numbers of each stretch of parties between its members, and nothing else *)
Lemma k_C88_exactly : forall n bad c x x' m, (c < n)%nat -> bad c = true ->
  (same_runs n bad c x x' -> exists f g, bijection (rounds_ok n (S m)) f g /\ forall us, rounds_ok n (S m) us -> sum_view n bad us x = sum_view n bad (f us) x') /\
  (forall us us', sum_view n bad us x = sum_view n bad us' x' -> same_runs n bad c x x').
Proof.
  intros n bad c x x' m Hc Bc. split.
  - intros K. exists (shift n c x x' 1), (shift n c x x' (-1)). split; [|intros us R; now apply (hidden n bad c Hc Bc x x' K m)]. split; intros us R; [apply (shift_ok n c Hc x x' 1 (S m) us R)|apply (shift_ok n c Hc x x' (-1) (S m) us R)].
  - intros us us'. now apply learned.
Qed.

Lemma rotated n x c : (0 < n)%nat -> zsum (map (fun t => nth ((c + t) mod n) x 0) (seq 0 n)) = zsum (map (fun i => nth i x 0) (seq 0 n)).
Proof.
  intros H. induction c as [|c IH].
  - f_equal. apply map_ext_in. intros t Ht. apply in_seq in Ht. now rewrite Nat.mod_small by lia.
  - rewrite <- IH. replace (map (fun t => nth ((S c + t) mod n) x 0) (seq 0 n)) with (map (fun t => nth ((c + t) mod n) x 0) (seq 1 n)).
    2: { rewrite <- seq_shift, map_map. apply map_ext. intros t. now replace (c + S t)%nat with (S c + t)%nat by lia. }
    assert (E : 0 + nth ((c + 0) mod n) x 0 + zsum (map (fun t => nth ((c + t) mod n) x 0) (seq 1 n)) = zsum (map (fun t => nth ((c + t) mod n) x 0) (seq 0 n)) + nth ((c + n) mod n) x 0).
    { transitivity (zsum (map (fun t => nth ((c + t) mod n) x 0) (seq 0 (S n)))); [cbn [seq map]; rewrite zsum_cons; ring|]. rewrite seq_S, map_app, zsum_app. cbn [map]. rewrite zsum_cons. cbn. ring. }
    replace ((c + n) mod n)%nat with ((c + 0) mod n)%nat in E; [lia|]. rewrite Nat.add_0_r. replace (c + n)%nat with (c + 1 * n)%nat by lia. now rewrite Nat.mod_add by lia.
Qed.
(** C88: one party alone learns the sum of the others' numbers and nothing else *)
Lemma k_C88_one_party : forall n c x x' m, (c < n)%nat -> length x = n -> length x' = n -> nth c x 0 = nth c x' 0 -> zsum x == zsum x' ->
  exists f g, bijection (rounds_ok n (S m)) f g /\ forall us, rounds_ok n (S m) us -> sum_view n (Nat.eqb c) us x = sum_view n (Nat.eqb c) (f us) x'.
Proof.
  intros n c x x' m Hc L L' E T. apply (k_C88_exactly n (Nat.eqb c) c x x' m Hc (Nat.eqb_refl c)). split.
  - intros i Hi B. apply Nat.eqb_eq in B. now subst i.
  - intros j Hj B. apply Nat.eqb_eq in B. assert (J : j = (n - 1)%nat).
    { destruct (Nat.eq_dec j (n - 1)) as [->|D]; [reflexivity|]. exfalso. destruct (Nat.lt_ge_cases (c + j + 1) n) as [Q|Q]; [rewrite Nat.mod_small in B by assumption; lia|]. replace (c + j + 1)%nat with (c + j + 1 - n + 1 * n)%nat in B by lia. rewrite Nat.mod_add, Nat.mod_small in B by lia. lia. }
    subst j. assert (R : forall v, length v = n -> run_sum n c (n - 1) v = zsum v - nth c v 0).
    { intros v Lv. pose proof (rotated n v c ltac:(lia)) as R. assert (Ev : map (fun i => nth i v 0) (seq 0 n) = v). { apply nth_ext with (d := 0) (d' := 0); [now rewrite map_length, seq_length|]. intros i Hi. rewrite map_length, seq_length in Hi. now rewrite map_seq_nth. }
      rewrite Ev in R. rewrite <- R. unfold run_sum. destruct n as [|q]; [lia|]. replace (S q - 1)%nat with q by lia. cbn [seq map]. rewrite zsum_cons, Nat.add_0_r, (Nat.mod_small c) by lia. ring. }
    rewrite !R by assumption. rewrite E, T. reflexivity.
Qed.
(** C88: both neighbours of a party together learn its number, though only the sum is revealed *)
Lemma k_C88_neighbours : forall n bad i us us' x x', (i < n)%nat -> bad (prev n i) = true -> bad (next n i) = true -> sum_view n bad us x = sum_view n bad us' x' -> nth i x 0 == nth i x' 0.
Proof.
  intros n bad i us us' x x' Hi B1 B2 E. assert (Hp : (prev n i < n)%nat) by (apply Nat.mod_upper_bound; lia).
  assert (Pi : ((prev n i + 1) mod n)%nat = i). { unfold prev. rewrite Nat.add_mod_idemp_l by lia. replace (i + n - 1 + 1)%nat with (i + 1 * n)%nat by lia. rewrite Nat.mod_add, Nat.mod_small by lia. reflexivity. }
  destruct (learned n bad (prev n i) Hp B1 x x' us us' E) as [K1 K2].
  destruct (Nat.eq_dec n 1) as [->|N1]. { assert (i = 0)%nat by lia. subst i. cbn in B1. rewrite (K1 0%nat) by (auto; lia). reflexivity. }
  specialize (K2 1%nat ltac:(lia)). rewrite <- Pi at 1 2. unfold run_sum in K2. cbn [seq map] in K2. rewrite !zsum_cons in K2. cbn [zsum fold_right] in K2. rewrite !Z.add_0_r in K2. apply K2. rewrite <- B2. f_equal. unfold next. rewrite <- Pi at 2. rewrite Nat.add_mod_idemp_l by lia. reflexivity.
Qed.
(** C88: so the sum is not all that is learned: two of four parties tell two inputs with the same sum apart, whatever the generators give *)
Lemma k_C88_only_sum_refuted : exists n bad x x', length x = n /\ length x' = n /\ zsum x = zsum x' /\ (forall i, bad i = true -> nth i x 0 = nth i x' 0) /\ forall us us', sum_view n bad us x <> sum_view n bad us' x'.
Proof.
  exists 4%nat, (fun i => Nat.eqb i 0 || Nat.eqb i 2), [0; 5; 0; 0], [0; 0; 0; 5]. repeat split.
  - intros i B. apply orb_true_iff in B as [B|B]; apply Nat.eqb_eq in B; now subst.
  - intros us us' E. apply (k_C88_neighbours 4 _ 1 us us' _ _ ltac:(lia) eq_refl eq_refl) in E. vm_compute in E. discriminate.
Qed.

(** *** The trusted first party *)
Lemma add_at_nth op src x sh i : (src < length sh)%nat -> nth i (add_at op src x sh) [] = if Nat.eqb i src then zipw op (nth i sh []) x else nth i sh [].
Proof.
  revert src i. induction sh as [|s sh IH]; intros src i H; [cbn in H; lia|]. destruct src as [|src]; [destruct i; reflexivity|]. destruct i as [|i]; [reflexivity|]. cbn [add_at nth Nat.eqb]. apply IH. cbn in H. lia.
Qed.
(** what the two neighbours of a party compute from their generators and its message *)
Definition unmask_input {G} (draw : G -> nat -> list Z * G) (d : nat) (before after : gens G) (message : list Z) : list Z :=
  let k := length message in
  let (c1, p1) := draw (g_next G before d) k in let (n1, q1) := draw (g_prev G after d) k in
  let c2 := fst (draw p1 k) in let n2 := fst (draw q1 k) in
  map (fun j => wrap (nth j message 0 - (nth j c1 0 - nth j n1 0) + (nth j c2 0 - nth j n2 0))) (seq 0 k).
Section Tfp.
  Context {G : Type}.
  Variable draw : G -> nat -> list Z * G.
  Hypothesis DL : forall g k, length (fst (draw g k)) = k.
  Lemma ring_gens w d i g0 : synced w -> (i < length w)%nat -> g_next G (nth (prev (length w) i) w g0) d = g_prev G (nth i w g0) d.
  Proof.
    intros Sy Hi. assert (P : (prev (length w) i < length w)%nat) by (apply Nat.mod_upper_bound; lia). pose proof (Sy d) as E.
    assert (E2 : nth (prev (length w) i) (map (fun g => g_next G g d) w) (g_next G g0 d) = nth i (map (fun g => g_prev G g d) w) (g_next G g0 d)).
    { rewrite E. apply nth_error_nth. rewrite nth_error_rot1 by (now rewrite map_length). rewrite map_length. replace ((prev (length w) i + 1) mod length w)%nat with i; [apply nth_error_nth'; now rewrite map_length|].
      unfold prev. rewrite Nat.add_mod_idemp_l by lia. replace (i + length w - 1 + 1)%nat with (i + 1 * length w)%nat by lia. rewrite Nat.mod_add, Nat.mod_small by lia. reflexivity. }
    rewrite !(nth_map _ w _ g0) in E2 by assumption. exact E2.
  Qed.
  Lemma next_gens w d i g0 : synced w -> (i < length w)%nat -> g_prev G (nth (next (length w) i) w g0) d = g_next G (nth i w g0) d.
  Proof.
    intros Sy Hi. assert (N : (next (length w) i < length w)%nat) by (apply Nat.mod_upper_bound; lia). rewrite <- (ring_gens w d (next (length w) i) g0 Sy N). f_equal. f_equal. unfold next. rewrite prev_mod by lia. now rewrite Nat.mod_small.
  Qed.
  Lemma party_share op d k w i g0 : (i < length w)%nat -> nth i (fst (przs G draw op d k w)) [] = zipw op (fst (draw (g_prev G (nth i w g0) d) k)) (fst (draw (g_next G (nth i w g0) d) k)).
  Proof. intros Hi. rewrite przs_fst. now rewrite (nth_map _ w i g0). Qed.
  Lemma party_next op d k w i g0 : (i < length w)%nat -> g_prev G (nth i (snd (przs G draw op d k w)) g0) d = snd (draw (g_prev G (nth i w g0) d) k) /\ g_next G (nth i (snd (przs G draw op d k w)) g0) d = snd (draw (g_next G (nth i w g0) d) k).
  Proof.
    intros Hi. unfold przs. cbn [snd]. rewrite map_map, (nth_map _ w i g0) by assumption. unfold przs_party. destruct (draw (g_prev G (nth i w g0) d) k) as [cu p'] eqn:E1, (draw (g_next G (nth i w g0) d) k) as [nx n'] eqn:E2. cbn [snd g_prev g_next]. unfold Sharing.upd. rewrite Nat.eqb_refl. now split.
  Qed.
  Lemma tfp_recover d src X A w g0 : synced w -> (src < length w)%nat -> src <> O -> Forall in64 X -> length A = length X ->
    unmask_input draw d (nth (prev (length w) src) w g0) (nth (next (length w) src) w g0) (tfp_message G draw d src X A w) = X.
  Proof.
    intros Sy Hs Nz FX LA. set (k := length X).
    assert (E : tfp_message G draw d src X A w = zipw wsub (zipw wadd (nth src (fst (przs G draw wsub d k w)) []) X) (nth src (fst (przs G draw wsub d k (snd (przs G draw wsub d k w)))) [])).
    { unfold tfp_message, encrypt_arith. fold k. rewrite (surjective_pairing (przs G draw wsub d k w)). cbn [fst snd]. rewrite LA. fold k. rewrite (surjective_pairing (przs G draw wsub d k (snd (przs G draw wsub d k w)))). cbn [fst snd].
      rewrite !add_at_nth by (rewrite przs_fst_length, ?przs_length; lia). rewrite Nat.eqb_refl. destruct (Nat.eqb_spec src 0); [contradiction|reflexivity]. }
    rewrite E. rewrite !(party_share wsub d k _ src g0) by (rewrite ?przs_length; assumption). destruct (party_next wsub d k w src g0 Hs) as [-> ->].
    unfold unmask_input. set (m := zipw wsub _ _). assert (Lm : length m = k). { unfold m. rewrite !zipw_length; rewrite ?zipw_length; rewrite ?zipw_length; rewrite ?DL; try reflexivity. }
    rewrite Lm. rewrite (ring_gens w d src g0 Sy Hs), (next_gens w d src g0 Sy Hs). set (gp := g_prev G (nth src w g0) d) in *. set (gn := g_next G (nth src w g0) d) in *.
    rewrite (surjective_pairing (draw gp k)), (surjective_pairing (draw gn k)). cbn [fst snd] in *.
    apply nth_ext with (d := 0) (d' := 0); [now rewrite map_length, seq_length|]. intros j Hj. rewrite map_length, seq_length in Hj. rewrite map_seq_nth by assumption. unfold m.
    rewrite !nth_zipw; rewrite ?zipw_length; rewrite ?zipw_length; rewrite ?DL; try reflexivity; try assumption.
    apply eqm_in64_eq; [apply wrap_in64|now apply Forall_nth|]. rewrite wrap_eqm. mring.
  Qed.
  Lemma tfp_sum d src X A w : synced w -> (src < length w)%nat -> Forall in64 X -> length A = length X -> map (fun j => wadd (nth j (tfp_opened G draw d src X A w) 0) (nth j A 0)) (seq 0 (length X)) = X.
  Proof.
    intros Sy Hs FX LA. unfold tfp_opened. set (k := length X). unfold encrypt_arith. fold k. rewrite (surjective_pairing (przs G draw wsub d k w)). cbn [fst snd]. rewrite LA. fold k. set (w1 := snd (przs G draw wsub d k w)). rewrite (surjective_pairing (przs G draw wsub d k w1)). cbn [fst snd].
    assert (L1 : length w1 = length w) by apply przs_length. assert (Sy1 : synced w1) by (now apply przs_synced).
    set (xs := add_at wadd src X (fst (przs G draw wsub d k w))). set (as_ := add_at wadd 0 A (fst (przs G draw wsub d k w1))).
    assert (Lx : length xs = length w) by (unfold xs; rewrite add_at_length; apply przs_fst_length). assert (La : length as_ = length w) by (unfold as_; rewrite add_at_length, przs_fst_length; exact L1).
    assert (Fx : Forall (fun t => length t = k) xs) by (apply add_at_shapes; [reflexivity|now apply przs_shapes]). assert (Fa : Forall (fun t => length t = k) as_) by (apply add_at_shapes; [assumption|now apply przs_shapes]).
    assert (Fz : Forall (fun t => length t = k) (zipw (zipw wsub) xs as_)). { clearbody xs as_. clear - Fx Fa. revert as_ Fa. induction Fx as [|s xs Hs Fx IH]; intros as_ Fa; [constructor|]. destruct Fa as [|t as_ Ht Fa]; [constructor|]. rewrite zipw_cons. constructor; [rewrite zipw_length; congruence|now apply IH]. }
    assert (Nz : zipw (zipw wsub) xs as_ <> []). { intros Q. apply (f_equal (@length _)) in Q. rewrite zipw_length in Q by congruence. cbn in Q. lia. }
    apply nth_ext with (d := 0) (d' := 0); [now rewrite map_length, seq_length|]. intros j Hj. rewrite map_length, seq_length in Hj. rewrite map_seq_nth by assumption.
    assert (R : nth j (reveal_arith (zipw (zipw wsub) xs as_)) 0 == zsum (map (fun s => nth j s 0) xs) - zsum (map (fun s => nth j s 0) as_)).
    { rewrite (reveal_arith_nth _ k j Nz Fz Hj). rewrite ?wrap_eqm. assert (Lxa : length xs = length as_) by congruence. clearbody xs as_. clear - Fx Fa Hj Lxa. revert as_ Fa Lxa. induction Fx as [|s xs Hs Fx IH]; intros [|t as_] Fa L; try discriminate; [reflexivity|]. apply Forall_cons_iff in Fa as [Ht Fa]. rewrite zipw_cons. cbn [map]. rewrite !zsum_cons, IH by (auto; now injection L). rewrite nth_zipw by congruence. rewrite wsub_eqm. apply eqm_refl_eq. ring. }
    apply eqm_in64_eq; [apply wadd_in64|now apply Forall_nth|]. rewrite wadd_eqm, R. unfold xs, as_.
    rewrite (add_at_sum k src X _ j) by (try reflexivity; try assumption; try (now apply przs_shapes); now rewrite przs_fst_length). rewrite (add_at_sum k 0 A _ j) by (try assumption; try (now apply przs_shapes); rewrite przs_fst_length; lia).
    rewrite !(przs_elem_sum draw DL) by assumption. apply eqm_refl_eq. ring.
  Qed.
End Tfp.
(** C88: with the trusted first party, the two neighbours of any other party read the number it encrypted from its message in one multiplication *)
Lemma k_C88_tfp_neighbours : forall (G : Type) seeded (draw : G -> nat -> list Z * G), (forall g k, length (fst (draw g k)) = k) -> forall next_seeds global_seeds w0 history d src x a g0,
  setup_prng G seeded next_seeds global_seeds = Some w0 -> let w := run G seeded draw history w0 in (src < length w)%nat -> src <> O -> Forall in64 x -> length a = length x ->
  unmask_input draw d (nth (prev (length w) src) w g0) (nth (next (length w) src) w g0) (tfp_message G draw d src x a w) = x.
Proof. intros G seeded draw DL ns gs w0 h d src x a g0 Hs w Hi Hz F L. apply tfp_recover; auto. apply run_inv. now apply setup_synced in Hs. Qed.
(** C88: and party 0, which drew the masks, reads every operand of a multiplication from the opened difference *)
Lemma k_C88_tfp_first : forall (G : Type) seeded (draw : G -> nat -> list Z * G), (forall g k, length (fst (draw g k)) = k) -> forall next_seeds global_seeds w0 history d src x a,
  setup_prng G seeded next_seeds global_seeds = Some w0 -> let w := run G seeded draw history w0 in (src < length w)%nat -> Forall in64 x -> length a = length x ->
  map (fun j => wadd (nth j (tfp_opened G draw d src x a w) 0) (nth j a 0)) (seq 0 (length x)) = x.
Proof. intros G seeded draw DL ns gs w0 h d src x a Hs w Hi F L. apply tfp_sum; auto. apply run_inv. now apply setup_synced in Hs. Qed.

(** *** The replicated protocol *)
Lemma view1_3 x0 x1 x2 y0 y1 y2 : replicated_view1 [x0; x1; x2] [y0; y1; y2] = Some [x1; y1; x0; y0; wadd (wadd (wrap (x2 * y2)) (wrap (x2 * y1))) (wrap (x1 * y2))].
Proof. cbn. unfold bil_row, wadd, wmul. cbn. rewrite ?Z.add_0_r, ?wrap_wrap. reflexivity. Qed.
Lemma square_view1_3 x0 x1 x2 : replicated_square_view1 [x0; x1; x2] = Some [x1; x0; wadd (wmul x2 x2) (wmul (wmul 2 x2) x1)].
Proof. reflexivity. Qed.
Lemma three {A} (l : list A) : length l = 3%nat -> exists a b c, l = [a; b; c].
Proof. destruct l as [|a [|b [|c [|]]]]; try discriminate. intros _. now exists a, b, c. Qed.
Lemma odd_cancel k a b : 0 <= k -> Z.odd a = true -> (2 ^ k | a * b) -> (2 ^ k | b).
Proof.
  intros Hk O D. apply Gauss with (b := a); [assumption|]. apply rel_prime_sym, rel_prime_Zpower_r; [assumption|]. apply rel_prime_sym. apply prime_rel_prime; [exact prime_2|]. intros [q E]. rewrite E in O. rewrite Z.odd_mul in O. cbn in O. now rewrite andb_false_r in O.
Qed.
Lemma eqm_div a b : a == b <-> (2 ^ 64 | a - b).
Proof. rewrite eqm_iff, <- M64_eq. split; intros [q E]; exists q; lia. Qed.
Lemma view1_eq x2 y2 a2 b2 x1 y1 : wadd (wadd (wrap (x2 * y2)) (wrap (x2 * y1))) (wrap (x1 * y2)) = wadd (wadd (wrap (a2 * b2)) (wrap (a2 * y1))) (wrap (x1 * b2)) -> (x1 + x2) * (y1 + y2) == (x1 + a2) * (y1 + b2).
Proof.
  unfold wadd. intros E. apply wrap_eq_eqm in E. rewrite !wrap_eqm in E.
  transitivity (x2 * y2 + x2 * y1 + x1 * y2 + x1 * y1); [apply eqm_refl_eq; ring|]. rewrite E. apply eqm_refl_eq. ring.
Qed.
(** C89: party 1 learns the product of the operands shifted by numbers it knows *)
Lemma k_C89_product : forall x y x' y', length x = 3%nat -> length y = 3%nat -> length x' = 3%nat -> length y' = 3%nat -> replicated_view1 x y = replicated_view1 x' y' ->
  nth 0 x 0 = nth 0 x' 0 /\ nth 0 y 0 = nth 0 y' 0 /\ (zsum x - nth 0 x 0) * (zsum y - nth 0 y 0) == (zsum x' - nth 0 x 0) * (zsum y' - nth 0 y 0).
Proof.
  intros x y x' y' Lx Ly Lx' Ly' E. apply three in Lx as (x0 & x1 & x2 & ->). apply three in Ly as (y0 & y1 & y2 & ->). apply three in Lx' as (a0 & a1 & a2 & ->). apply three in Ly' as (b0 & b1 & b2 & ->).
  rewrite !view1_3 in E. injection E as E1 E2 E3 E4 E5. subst. cbn [nth]. split; [reflexivity|]. split; [reflexivity|]. cbn [zsum fold_right].
  apply view1_eq in E5. replace (a0 + (a1 + (x2 + 0)) - a0) with (a1 + x2) by ring. replace (b0 + (b1 + (y2 + 0)) - b0) with (b1 + y2) by ring. replace (a0 + (a1 + (a2 + 0)) - a0) with (a1 + a2) by ring. replace (b0 + (b1 + (b2 + 0)) - b0) with (b1 + b2) by ring. exact E5.
Qed.
(** C89: so when party 1 knows the second operand, it knows the first one too, in every run where its complement to party 0's share is odd *)
Lemma k_C89_operand : forall x y x' y', length x = 3%nat -> length y = 3%nat -> length x' = 3%nat -> length y' = 3%nat -> replicated_view1 x y = replicated_view1 x' y' ->
  zsum y == zsum y' -> Z.odd (zsum y - nth 0 y 0) = true -> zsum x == zsum x'.
Proof.
  intros x y x' y' Lx Ly Lx' Ly' E Y O. destruct (k_C89_product x y x' y' Lx Ly Lx' Ly' E) as (X0 & Y0 & P). rewrite <- Y in P. apply eqm_div in P. apply eqm_div. apply (odd_cancel 64 (zsum y - nth 0 y 0)); [lia|assumption|]. replace ((zsum y - nth 0 y 0) * (zsum x - zsum x')) with ((zsum x - nth 0 x 0) * (zsum y - nth 0 y 0) - (zsum x' - nth 0 x 0) * (zsum y - nth 0 y 0)) by ring. exact P.
Qed.
Lemma pow64 : 2 ^ 64 = 4 * 2 ^ 62.
Proof. reflexivity. Qed.
Lemma pow63 : 2 ^ 63 = 2 * 2 ^ 62.
Proof. reflexivity. Qed.
(** C89: after square() it knows the number up to the sign of its distance from party 0's share and the top bit, in every run where that distance is odd *)
Lemma k_C89_square : forall x x', length x = 3%nat -> length x' = 3%nat -> replicated_square_view1 x = replicated_square_view1 x' -> Z.odd (zsum x - nth 0 x 0) = true ->
  nth 0 x 0 = nth 0 x' 0 /\ ((2 ^ 63 | zsum x' - zsum x) \/ (2 ^ 63 | zsum x' - (2 * nth 0 x 0 - zsum x))).
Proof.
  intros x x' Lx Lx' E O. apply three in Lx as (x0 & x1 & x2 & ->). apply three in Lx' as (a0 & a1 & a2 & ->). rewrite !square_view1_3 in E. injection E as E1 E2 E3. subst. cbn [nth] in *. split; [reflexivity|].
  cbn [zsum fold_right] in *. replace (a0 + (a1 + (x2 + 0)) - a0) with (a1 + x2) in O by ring.
  assert (Q : (a1 + x2) * (a1 + x2) == (a1 + a2) * (a1 + a2)). { assert (Q : x2 * x2 + 2 * x2 * a1 == a2 * a2 + 2 * a2 * a1). { unfold wadd in E3. apply wrap_eq_eqm in E3. unfold wmul in E3. rewrite !wrap_eqm in E3. exact E3. } transitivity (x2 * x2 + 2 * x2 * a1 + a1 * a1); [apply eqm_refl_eq; ring|]. rewrite Q. apply eqm_refl_eq. ring. }
  set (t := a1 + x2) in *. set (s := a1 + a2) in *.
  assert (Os : Z.odd s = true). { apply eqm_div in Q as [q Q]. assert (Z.odd (s * s) = true). { replace (s * s) with (t * t - 2 * (q * 2 ^ 63)) by (rewrite pow64 in Q; rewrite pow63; lia). rewrite Z.odd_sub, Z.odd_mul, O, Z.odd_mul. reflexivity. } rewrite Z.odd_mul in H. now destruct (Z.odd s). }
  apply Z.odd_spec in O as [u Hu]. apply Z.odd_spec in Os as [v Hv].
  assert (P : (2 ^ 62 | (u - v) * (u + v + 1))). { apply eqm_div in Q as [q Q]. exists q. rewrite Hu, Hv in Q. rewrite pow64 in Q. lia. }
  destruct (Z.odd (u - v)) eqn:D.
  - right. apply (odd_cancel 62 (u - v)) in P; [|lia|assumption]. destruct P as [q P]. exists q. rewrite pow63. unfold t, s in *. lia.
  - left. assert (D2 : Z.odd (u + v + 1) = true). { replace (u + v + 1) with ((u - v) + (1 + 2 * v)) by ring. rewrite Z.odd_add, D, Z.odd_add, Z.odd_mul. reflexivity. }
    rewrite Z.mul_comm in P. apply (odd_cancel 62 (u + v + 1)) in P; [|lia|assumption]. destruct P as [q P]. exists (- q). rewrite pow63. unfold t, s in *. lia.
Qed.
(** C89: so the shares do not hide the operands from party 1: for an operand other than the real one no shares of the other parties give the same messages *)
Lemma k_C89_hidden_refuted : exists x y, length x = 3%nat /\ length y = 3%nat /\ Forall in64 x /\ Forall in64 y /\ forall x' y', length x' = 3%nat -> length y' = 3%nat -> zsum y' == zsum y -> ~ zsum x' == zsum x -> replicated_view1 x' y' <> replicated_view1 x y.
Proof.
  exists [3; 4; 5], [10; 20; 1]. repeat split; try (repeat constructor; unfold in64, H63; lia). intros x' y' Lx Ly Y X E. apply X. symmetry. apply (k_C89_operand [3; 4; 5] [10; 20; 1] x' y'); auto. now symmetry.
Qed.

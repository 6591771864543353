(** C63: gradient functions of the structural operations. *)
Require Import List ZArith Bool Arith Lia.
From Verif Require Import Ring64 Tensor Tensor_proofs Gradfn Broadcast_claims.
Import ListNotations.
Open Scope Z_scope.

(** *** What a gradient function must return *)
Definition plus (x h : tensor) : tensor := mkT (shape x) (fun ix => at_ x ix + at_ h ix).
(** Whenever the operation succeeds on an input of shape [s], the backward function succeeds on every output gradient [g], returns a tensor of the input's shape, and this tensor is the exact gradient of x |-> <g, op x>. *)
Definition gradient_of (fwd bwd : tensor -> option tensor) (s : list nat) : Prop :=
  forall x y, shape x = s -> fwd x = Some y -> forall g, shape g = shape y -> exists g', bwd g = Some g' /\ shape g' = s /\
  forall h, shape h = s -> exists yh, fwd (plus x h) = Some yh /\ shape yh = shape y /\ inner g yh = inner g y + inner g' h.

Lemma affine_gradient s fwd bwd osh F F0 :
  (forall x, shape x = s -> fwd x = Some (mkT osh (F (at_ x)))) ->
  (forall f h ix, valid osh ix -> F (fun i => f i + h i) ix = F f ix + F0 h ix) ->
  (forall g, shape g = osh -> exists g', bwd g = Some g' /\ shape g' = s /\ forall f, sums osh (fun ix => at_ g ix * F0 f ix) = sums s (fun jx => at_ g' jx * f jx)) ->
  gradient_of fwd bwd s.
Proof.
  intros Hf Ha Hb x y Hx Hy g Hg. rewrite Hf in Hy by exact Hx. injection Hy as <-. cbn [shape] in *. destruct (Hb g Hg) as (g' & E & Sg & A). exists g'. split; [exact E|]. split; [exact Sg|]. intros h Hh. exists (mkT osh (F (fun i => at_ x i + at_ h i))). split; [rewrite Hf by exact Hx; reflexivity|]. split; [reflexivity|].
  unfold inner. cbn [at_]. rewrite Hg, Sg, <- A, <- sums_plus. apply sums_ext. intros ix V. rewrite Ha by exact V. ring.
Qed.
Lemma linear_gradient s fwd bwd osh F :
  (forall x, shape x = s -> fwd x = Some (mkT osh (F (at_ x)))) ->
  (forall f h ix, valid osh ix -> F (fun i => f i + h i) ix = F f ix + F h ix) ->
  (forall g, shape g = osh -> exists g', bwd g = Some g' /\ shape g' = s /\ forall f, sums osh (fun ix => at_ g ix * F f ix) = sums s (fun jx => at_ g' jx * f jx)) ->
  gradient_of fwd bwd s.
Proof. apply affine_gradient. Qed.
Lemma never_gradient s fwd bwd : (forall x, shape x = s -> fwd x = None) -> gradient_of fwd bwd s.
Proof. intros H x y Hx Hy. rewrite H in Hy by exact Hx. discriminate. Qed.
Lemma bij_gradient s fwd bwd osh phi psi :
  (forall x, shape x = s -> fwd x = Some (mkT osh (fun ix => at_ x (phi ix)))) ->
  (forall g, shape g = osh -> exists g', bwd g = Some g' /\ shape g' = s /\ forall jx, valid s jx -> at_ g' jx = at_ g (psi jx)) ->
  (forall ix, valid osh ix -> valid s (phi ix) /\ psi (phi ix) = ix) -> (forall jx, valid s jx -> valid osh (psi jx) /\ phi (psi jx) = jx) -> gradient_of fwd bwd s.
Proof.
  intros Hf Hb A B. apply (linear_gradient s fwd bwd osh (fun f ix => f (phi ix))); [exact Hf|reflexivity|]. intros g Hg. destruct (Hb g Hg) as (g' & E & Sg & H). exists g'. split; [exact E|]. split; [exact Sg|]. intros f. rewrite <- (sums_bij osh s phi psi _ A B). apply sums_ext. intros ix V. destruct (A ix V) as [V' R]. rewrite H, R by exact V'. reflexivity.
Qed.

(** *** Lists of positions *)
Lemma tab_length n f : length (tabulate n f) = n. Proof. unfold tabulate. now rewrite map_length, seq_length. Qed.
Lemma pos_tab n f k : (k < n)%nat -> pos k (tabulate n f) = f k.
Proof. intros H. unfold pos, tabulate. rewrite (nth_indep _ O (f O)) by (rewrite map_length, seq_length; lia). rewrite map_nth, seq_nth by lia. f_equal. Qed.
Lemma dimn_lt d n a : dimn d n = Some a -> (a < n)%nat.
Proof.
  unfold dimn. destruct ((0 <=? d) && (d <? Z.of_nat n)) eqn:A; [|destruct ((- Z.of_nat n <=? d) && (d <? 0)) eqn:B; [|discriminate]]; intros [= <-].
  - apply andb_true_iff in A as [A1 A2]. apply Z.leb_le in A1. apply Z.ltb_lt in A2. lia.
  - apply andb_true_iff in B as [A1 A2]. apply Z.leb_le in A1. apply Z.ltb_lt in A2. lia.
Qed.
Lemma dimn_of_nat d n : (d < n)%nat -> dimn (Z.of_nat d) n = Some d.
Proof. intros H. unfold dimn. destruct (Z.leb_spec 0 (Z.of_nat d)); [|lia]. destruct (Z.ltb_spec (Z.of_nat d) (Z.of_nat n)); [|lia]. cbn [andb]. now rewrite Nat2Z.id. Qed.
Lemma valid_tab n f ix : valid (tabulate n f) ix <-> length ix = n /\ forall k, (k < n)%nat -> (pos k ix < f k)%nat.
Proof. rewrite valid_pos, tab_length. split; intros [L H]; split; auto; intros k Hk; specialize (H k Hk); rewrite pos_tab in * by exact Hk; exact H. Qed.
Ltac by_pos := apply list_ext; [rewrite ?tab_length; auto|]; rewrite ?tab_length; intros ?k ?Hk; rewrite ?pos_tab by auto.

(** *** t, transpose, permute, flip *)
Lemma swapped_lt a b n k : (a < n)%nat -> (b < n)%nat -> (k < n)%nat -> (swapped a b k < n)%nat.
Proof. unfold swapped. intros. destruct (Nat.eqb k a); [|destruct (Nat.eqb k b)]; lia. Qed.
Lemma swapped_swapped a b k : swapped b a (swapped a b k) = k.
Proof. unfold swapped. destruct (Nat.eqb_spec k a) as [->|N]; [now rewrite Nat.eqb_refl|]. destruct (Nat.eqb_spec k b) as [->|M]; [destruct (Nat.eqb_spec a b); [congruence|now rewrite Nat.eqb_refl]|]. destruct (Nat.eqb_spec k b); [congruence|]. destruct (Nat.eqb_spec k a); congruence. Qed.
Lemma swapped_sym a b k : swapped a b k = swapped b a k.
Proof. unfold swapped. destruct (Nat.eqb_spec k a), (Nat.eqb_spec k b); congruence. Qed.
Lemma swapped_swapped_ a b k : swapped a b (swapped a b k) = k.
Proof. rewrite (swapped_sym a b (swapped a b k)). apply swapped_swapped. Qed.
Lemma k_transpose s d1 d2 : gradient_of (transpose d1 d2) (transpose_backward d1 d2) s.
Proof.
  destruct (dimn d1 (length s)) as [a|] eqn:Ea; [|apply never_gradient; intros x <-; unfold transpose, rank; now rewrite Ea]. destruct (dimn d2 (length s)) as [b|] eqn:Eb; [|apply never_gradient; intros x <-; unfold transpose, rank; now rewrite Ea, Eb].
  pose proof (dimn_lt _ _ _ Ea) as La. pose proof (dimn_lt _ _ _ Eb) as Lb. set (n := length s) in *.
  apply (bij_gradient s _ _ (tabulate n (fun k => pos (swapped a b k) s)) (fun ix => tabulate n (fun k => pos (swapped a b k) ix)) (fun ix => tabulate n (fun k => pos (swapped b a k) ix))).
  - intros x Hx. unfold transpose, rank. rewrite Hx. fold n. now rewrite Ea, Eb.
  - intros g Hg. unfold transpose_backward, transpose, rank. rewrite Hg, tab_length, Ea, Eb. eexists. split; [reflexivity|]. split; [|reflexivity]. cbn [shape]. by_pos. rewrite pos_tab by (apply swapped_lt; auto). now rewrite swapped_swapped.
  - intros ix V. apply valid_tab in V as [L V]. split.
    + apply valid_pos. rewrite tab_length. split; [reflexivity|]. intros k Hk. rewrite pos_tab by exact Hk. specialize (V (swapped a b k)). rewrite (swapped_swapped_ a b) in V. apply V. now apply swapped_lt.
    + by_pos. rewrite pos_tab by (apply swapped_lt; auto). now rewrite swapped_swapped.
  - intros jx V. apply valid_pos in V as [L V]. fold n in L, V. split.
    + apply valid_tab. rewrite tab_length. split; [reflexivity|]. intros k Hk. rewrite pos_tab by exact Hk. rewrite <- (swapped_sym a b). apply V. now apply swapped_lt.
    + by_pos. rewrite pos_tab by (apply swapped_lt; auto). now rewrite swapped_swapped.
Qed.
Lemma k_id s fwd bwd : (forall x, shape x = s -> fwd x = Some x) -> (forall g, shape g = s -> bwd g = Some g) -> gradient_of fwd bwd s.
Proof.
  intros Hf Hb. apply (bij_gradient s fwd bwd s (fun ix => ix) (fun ix => ix)).
  - intros x Hx. rewrite Hf by exact Hx. subst s. now destruct x.
  - intros g Hg. exists g. auto.
  - auto.
  - auto.
Qed.
Definition teq (a b : tensor) : Prop := shape a = shape b /\ forall ix, valid (shape a) ix -> at_ a ix = at_ b ix.
Lemma gradient_ext s fwd fwd' bwd bwd' : (forall x, shape x = s -> fwd x = fwd' x) -> (forall x y g g', shape x = s -> fwd' x = Some y -> shape g = shape y -> bwd' g = Some g' -> exists g2, bwd g = Some g2 /\ teq g2 g') -> gradient_of fwd' bwd' s -> gradient_of fwd bwd s.
Proof.
  intros Hf Hb H x y Hx Hy g Hg. rewrite Hf in Hy by exact Hx. destruct (H x y Hx Hy g Hg) as (g' & E & Sg & A). destruct (Hb x y g g' Hx Hy Hg E) as (g2 & E2 & S2 & T). exists g2. split; [exact E2|]. rewrite Sg in S2. split; [exact S2|]. intros h Hh. rewrite Hf by exact Hx. destruct (A h Hh) as (yh & Ey & Sy & I). exists yh. split; [exact Ey|]. split; [exact Sy|]. rewrite I. f_equal. unfold inner. rewrite S2, Sg. apply sums_ext. intros ix V. rewrite T; [reflexivity|now rewrite S2].
Qed.
Lemma k_t s : gradient_of t_ t_backward s.
Proof.
  destruct s as [|n [|m [|l s]]].
  - apply k_id; intros x Hx; unfold t_backward, t_, rank; now rewrite Hx.
  - apply k_id; intros x Hx; unfold t_backward, t_, rank; now rewrite Hx.
  - apply (gradient_ext _ _ (transpose 0 1) _ (transpose_backward 0 1)); [intros x Hx; unfold t_, rank; now rewrite Hx| |apply k_transpose].
    intros x y g g' Hx Hy Hg Hb. unfold transpose, rank in Hy. rewrite Hx in Hy. injection Hy as <-. cbn in Hg. unfold transpose_backward, transpose, rank in Hb. unfold t_backward, t_, rank. rewrite Hg in *. cbn [length] in *. unfold transpose, rank. rewrite Hg. cbn [length]. change (dimn 0 2) with (Some 0%nat) in *. change (dimn 1 2) with (Some 1%nat) in *. injection Hb as <-. eexists. split; [reflexivity|]. split; reflexivity.
  - apply never_gradient. intros x Hx. unfold t_, rank. now rewrite Hx.
Qed.

Lemma mem_in k l : mem k l = true <-> In k l.
Proof. unfold mem. rewrite existsb_exists. split; [intros (x & I & E); apply Nat.eqb_eq in E; now subst|intros I; exists k; split; [exact I|apply Nat.eqb_refl]]. Qed.
Lemma distinct_NoDup l : distinct l = true <-> NoDup l.
Proof.
  induction l as [|x l IH]; cbn [distinct]; [split; [constructor|reflexivity]|]. rewrite andb_true_iff, IH, NoDup_cons_iff, negb_true_iff. split; intros [A B]; split; auto.
  - intros I. apply mem_in in I. congruence.
  - destruct (mem x l) eqn:E; [apply mem_in in E; contradiction|reflexivity].
Qed.
Lemma index_of_in k l : In k l -> (index_of k l < length l)%nat /\ pos (index_of k l) l = k.
Proof.
  induction l as [|x l IH]; [intros []|]. cbn [index_of length]. destruct (Nat.eqb_spec x k) as [->|N]; [intros _; split; [lia|reflexivity]|]. intros [E|I]; [contradiction|]. destruct (IH I) as [A B]. split; [lia|exact B].
Qed.
Lemma index_of_pos l : forall k, NoDup l -> (k < length l)%nat -> index_of (pos k l) l = k.
Proof.
  induction l as [|x l IH]; intros k N H; cbn [length] in H; [lia|]. apply NoDup_cons_iff in N as [Nx N]. destruct k as [|k]; cbn [pos nth index_of]; [now rewrite Nat.eqb_refl|]. change (nth k l O) with (pos k l). destruct (Nat.eqb_spec x (pos k l)) as [E|E]; [exfalso; apply Nx; rewrite E; apply nth_In; lia|]. rewrite IH; auto; lia.
Qed.
Lemma dimns_lt ds n : forall l, dimns ds n = Some l -> length l = length ds /\ Forall (fun k => (k < n)%nat) l.
Proof.
  induction ds as [|d ds IH]; intros l H; cbn [dimns] in H; [injection H as <-; auto|]. destruct (dimn d n) as [k|] eqn:E; [|discriminate]. destruct (dimns ds n) as [ks|]; [|discriminate]. injection H as <-. destruct (IH ks eq_refl) as [A B]. split; [cbn; lia|]. constructor; [now apply dimn_lt in E|exact B].
Qed.
Lemma full_in n l : length l = n -> NoDup l -> Forall (fun k => (k < n)%nat) l -> forall k, (k < n)%nat -> In k l.
Proof.
  intros L N F k Hk. assert (I : incl (seq 0 n) l); [|apply I, in_seq; lia]. apply NoDup_length_incl; [exact N|rewrite seq_length; lia|]. intros x Hx. rewrite Forall_forall in F. specialize (F x Hx). apply in_seq. lia.
Qed.
Lemma dimns_nonneg ds n : forall l, dimns ds n = Some l -> Forall (fun d => 0 <= d) ds -> ds = map Z.of_nat l.
Proof.
  induction ds as [|d ds IH]; intros l H F; cbn [dimns] in H; [injection H as <-; reflexivity|]. inversion F; subst. destruct (dimn d n) as [k|] eqn:E; [|discriminate]. destruct (dimns ds n) as [ks|]; [|discriminate]. injection H as <-. cbn [map]. f_equal; [|now apply IH].
  unfold dimn in E. destruct ((0 <=? d) && (d <? Z.of_nat n)); [injection E as <-; lia|]. destruct (Z.ltb_spec d 0); [lia|]. rewrite andb_false_r in E. discriminate.
Qed.
Lemma dimns_of_nat l n : Forall (fun k => (k < n)%nat) l -> dimns (map Z.of_nat l) n = Some l.
Proof. induction 1 as [|k l Hk F IH]; [reflexivity|]. cbn [map dimns]. now rewrite dimn_of_nat, IH. Qed.
Lemma find_index k l : In k l -> find_z (Z.of_nat k) (map Z.of_nat l) = Some (Z.of_nat (index_of k l)).
Proof.
  induction l as [|x l IH]; [intros []|]. cbn [map find_z index_of]. destruct (Nat.eqb_spec x k) as [->|N]; [now rewrite Z.eqb_refl|]. intros [E|I]; [contradiction|]. destruct (Z.eqb_spec (Z.of_nat x) (Z.of_nat k)); [lia|]. rewrite IH by exact I. cbn [option_map]. f_equal. lia.
Qed.
Lemma all_some_map {A B} (f : A -> option B) (h : A -> B) l : (forall a, In a l -> f a = Some (h a)) -> all_some (map f l) = Some (map h l).
Proof. induction l as [|a l IH]; intros H; [reflexivity|]. cbn [map all_some]. rewrite H by now left. rewrite IH; [reflexivity|]. intros b I. apply H. now right. Qed.
Lemma k_permute s dims : Forall (fun d => 0 <= d) dims -> gradient_of (permute dims) (permute_backward dims) s.
Proof.
  intros P. set (n := length s). destruct (dimns dims n) as [ds|] eqn:E; [|apply never_gradient; intros x Hx; unfold permute, rank; rewrite Hx; fold n; now rewrite E]. destruct (Nat.eqb (length ds) n && distinct ds) eqn:C; [|apply never_gradient; intros x Hx; unfold permute, rank; rewrite Hx; fold n; now rewrite E, C].
  pose proof C as C'. apply andb_true_iff in C as [C1 C2]. apply Nat.eqb_eq in C1. apply distinct_NoDup in C2. destruct (dimns_lt _ _ _ E) as [Ld Fd]. pose proof (dimns_nonneg _ _ _ E P) as Ed. pose proof (full_in n ds C1 C2 Fd) as Full.
  assert (Lt : forall k, (k < n)%nat -> (pos k ds < n)%nat). { intros k Hk. rewrite Forall_forall in Fd. apply Fd. apply nth_In. lia. }
  assert (Li : forall k, (k < n)%nat -> (index_of k ds < n)%nat /\ pos (index_of k ds) ds = k). { intros k Hk. destruct (index_of_in k ds (Full k Hk)) as [A B]. split; [lia|exact B]. }
  assert (Pi : forall k, (k < n)%nat -> index_of (pos k ds) ds = k). { intros k Hk. apply index_of_pos; [exact C2|lia]. }
  assert (Inds : all_some (map (fun x => find_z (Z.of_nat x) dims) (seq 0 (length dims))) = Some (map Z.of_nat (tabulate n (fun k => index_of k ds)))).
  { unfold tabulate. rewrite map_map. rewrite <- Ld, C1. apply all_some_map. intros k Hk. apply in_seq in Hk. rewrite Ed. apply find_index. apply Full. lia. }
  assert (Fi : Forall (fun k => (k < n)%nat) (tabulate n (fun k => index_of k ds))). { unfold tabulate. apply Forall_forall. intros k Hk. apply in_map_iff in Hk as (j & <- & Hj). apply in_seq in Hj. apply Li. lia. }
  assert (Di : distinct (tabulate n (fun k => index_of k ds)) = true).
  { apply distinct_NoDup. unfold tabulate. apply NoDup_map_inv with (f := fun k => pos k ds). rewrite map_map. rewrite (map_ext_in _ (fun k => k)); [rewrite map_id; apply seq_NoDup|]. intros k Hk. apply in_seq in Hk. apply Li. lia. }
  assert (Ii : forall k, (k < n)%nat -> index_of k (tabulate n (fun k => index_of k ds)) = pos k ds).
  { intros k Hk. assert (G : pos (pos k ds) (tabulate n (fun k => index_of k ds)) = k) by (rewrite pos_tab by auto; now apply Pi). transitivity (index_of (pos (pos k ds) (tabulate n (fun k => index_of k ds))) (tabulate n (fun k => index_of k ds))); [now rewrite G|]. apply index_of_pos; [now apply distinct_NoDup|]. rewrite tab_length. auto. }
  apply (bij_gradient s _ _ (tabulate n (fun k => pos (pos k ds) s)) (fun ix => tabulate n (fun k => pos (index_of k ds) ix)) (fun jx => tabulate n (fun k => pos (pos k ds) jx))).
  - intros x Hx. unfold permute, rank. rewrite Hx. fold n. now rewrite E, C'.
  - intros g Hg. unfold permute_backward, bind, rank. rewrite Inds. unfold permute, rank. rewrite Hg, tab_length. rewrite dimns_of_nat by exact Fi. rewrite tab_length, Nat.eqb_refl, Di. cbn [andb]. eexists. split; [reflexivity|]. cbn [shape at_]. split.
    + by_pos. rewrite (pos_tab n _ k Hk). destruct (Li k Hk) as [A B]. rewrite pos_tab by exact A. now rewrite B.
    + intros jx V. f_equal. by_pos. now rewrite Ii.
  - intros ix V. apply valid_tab in V as [L V]. split.
    + apply valid_pos. rewrite tab_length. split; [reflexivity|]. intros k Hk. fold n in Hk. rewrite pos_tab by exact Hk. destruct (Li k Hk) as [A B]. specialize (V _ A). now rewrite B in V.
    + by_pos. now rewrite Pi.
  - intros jx V. apply valid_pos in V as [L V]. fold n in L, V. split.
    + apply valid_tab. rewrite tab_length. split; [reflexivity|]. intros k Hk. rewrite pos_tab by exact Hk. auto.
    + by_pos. destruct (Li k Hk) as [A B]. rewrite pos_tab by exact A. now rewrite B.
Qed.
(** with a negative dimension the backward pass raises *)
Lemma find_none k l : find_z k l = None <-> ~ In k l.
Proof.
  induction l as [|x l IH]; cbn [find_z]; [split; [intros _ []|reflexivity]|]. destruct (Z.eqb_spec x k) as [->|N]; [split; [discriminate|intros F; destruct F; now left]|]. destruct (find_z k l); cbn [option_map].
  - split; [discriminate|]. intros F. assert (E : ~ In k l) by (intros I; apply F; now right). apply IH in E. discriminate.
  - split; [|reflexivity]. intros _ [E|I]; [contradiction|]. now apply IH.
Qed.
Lemma all_some_none {A} (l : list (option A)) : In None l -> all_some l = None.
Proof. induction l as [|o l IH]; [intros []|]. intros [->|I]; [reflexivity|]. destruct o; [|reflexivity]. cbn [all_some]. now rewrite IH. Qed.
Lemma k_permute_negative dims x y g : permute dims x = Some y -> Exists (fun d => d < 0) dims -> permute_backward dims g = None.
Proof.
  intros Hp X. unfold permute in Hp. destruct (dimns dims (rank x)) as [ds|] eqn:E; [|discriminate]. destruct (Nat.eqb (length ds) (rank x) && distinct ds) eqn:C; [|discriminate]. clear Hp. destruct (dimns_lt _ _ _ E) as [Ld _]. unfold permute_backward.
  assert (K : exists k, (k < length dims)%nat /\ ~ In (Z.of_nat k) dims).
  { destruct (existsb (fun k => negb (existsb (Z.eqb (Z.of_nat k)) dims)) (seq 0 (length dims))) eqn:F.
    - apply existsb_exists in F as (k & Hk & F). apply in_seq in Hk. exists k. split; [lia|]. intros I. apply negb_true_iff in F. assert (existsb (Z.eqb (Z.of_nat k)) dims = true); [|congruence]. apply existsb_exists. exists (Z.of_nat k). split; [exact I|apply Z.eqb_refl].
    - exfalso. assert (I : incl (map Z.of_nat (seq 0 (length dims))) dims).
      { intros z Hz. apply in_map_iff in Hz as (k & <- & Hk). destruct (existsb (Z.eqb (Z.of_nat k)) dims) eqn:G; [apply existsb_exists in G as (z & Iz & G); apply Z.eqb_eq in G; now subst|]. assert (existsb (fun k => negb (existsb (Z.eqb (Z.of_nat k)) dims)) (seq 0 (length dims)) = true); [|congruence]. apply existsb_exists. exists k. now rewrite G. }
      assert (J : incl dims (map Z.of_nat (seq 0 (length dims)))). { apply NoDup_length_incl; [apply FinFun.Injective_map_NoDup; [intros a b; lia|apply seq_NoDup]|rewrite map_length, seq_length; lia|exact I]. }
      apply Exists_exists in X as (d & Id & Hd). apply J, in_map_iff in Id as (k & <- & _). lia. }
  destruct K as (k & Hk & Nk). rewrite all_some_none; [reflexivity|]. apply find_none in Nk. rewrite <- Nk. apply in_map_iff. exists k. split; [reflexivity|]. apply in_seq. lia.
Qed.
Lemma k_flip s dims : gradient_of (flip dims) (flip_backward dims) s.
Proof.
  set (n := length s). destruct (dimns dims n) as [ds|] eqn:E; [|apply never_gradient; intros x Hx; unfold flip, rank; rewrite Hx; fold n; now rewrite E]. destruct (distinct ds) eqn:C; [|apply never_gradient; intros x Hx; unfold flip, rank; rewrite Hx; fold n; now rewrite E, C].
  set (fl := fun ix => tabulate n (fun k => if mem k ds then pos k s - 1 - pos k ix else pos k ix)%nat).
  assert (I : forall ix, valid s ix -> valid s (fl ix) /\ fl (fl ix) = ix).
  { intros ix V. apply valid_pos in V as [L V]. fold n in L, V. split.
    - apply valid_pos. unfold fl. rewrite tab_length. split; [reflexivity|]. fold n. intros k Hk. rewrite pos_tab by exact Hk. specialize (V k Hk). destruct (mem k ds); lia.
    - unfold fl. by_pos. specialize (V k Hk). destruct (mem k ds); lia. }
  apply (bij_gradient s _ _ s fl fl); [| |exact I|exact I].
  - intros x Hx. unfold flip, rank. rewrite Hx. fold n. rewrite E, C. reflexivity.
  - intros g Hg. unfold flip_backward, flip, rank. rewrite Hg. fold n. rewrite E, C. eexists. split; [reflexivity|]. split; [reflexivity|]. intros jx V. reflexivity.
Qed.

(** C63, continued: selecting and reductions. *)
Require Import List ZArith Bool Arith Lia.
From Verif Require Import Ring64 Tensor Tensor_proofs Gradfn Broadcast_claims Gradfn_claims Gradfn_claims2.
Import ListNotations.
Open Scope Z_scope.

(** *** Operations along one dimension *)
Lemma along_gradient s k osh (g f : index -> Z) (F B : (nat -> Z) -> nat -> Z) m :
  (k < length s)%nat -> osh = upd k m s ->
  (forall a b, sumn m (fun i => a i * F b i) = sumn (pos k s) (fun j => B a j * b j)) ->
  (forall a b i, (forall j, (j < pos k s)%nat -> a j = b j) -> (i < m)%nat -> F a i = F b i) -> (forall a b j, (forall i, (i < m)%nat -> a i = b i) -> (j < pos k s)%nat -> B a j = B b j) ->
  sums osh (fun ix => g ix * F (fun j => f (upd k j ix)) (pos k ix)) = sums s (fun jx => B (fun i => g (upd k i jx)) (pos k jx) * f jx).
Proof.
  intros L -> A XF XB. rewrite (sums_dim k) by (rewrite upd_length; lia). rewrite (sums_dim k s) by exact L. rewrite del_upd by exact L. rewrite pos_upd, Nat.eqb_refl by exact L. apply sums_ext. intros ix V. pose proof (valid_length _ _ V) as Lx. rewrite del_length in Lx by exact L.
  transitivity (sumn m (fun i => g (ins k i ix) * F (fun j => f (ins k j ix)) i)).
  - apply sumn_ext. intros i Hi. rewrite pos_ins, Nat.eqb_refl by lia. f_equal. apply XF; [|exact Hi]. intros j _. now rewrite upd_ins by lia.
  - rewrite A. apply sumn_ext. intros j Hj. rewrite pos_ins, Nat.eqb_refl by lia. f_equal. apply XB; [|exact Hj]. intros i _. now rewrite upd_ins by lia.
Qed.

(** *** index_select *)
Lemma k_index_select s d idx : gradient_of (index_select d idx) (index_select_backward s d idx) s.
Proof.
  destruct (dimn d (length s)) as [k|] eqn:E; [|apply never_gradient; intros x Hx; unfold index_select, rank; now rewrite Hx, E]. pose proof (dimn_lt _ _ _ E) as L. destruct (forallb (fun i => Nat.ltb i (pos k s)) idx) eqn:C; [|apply never_gradient; intros x Hx; unfold index_select, rank; now rewrite Hx, E, C].
  apply (linear_gradient s _ _ (upd k (length idx) s) (fun f ix => f (upd k (pos (pos k ix) idx) ix))); [intros x Hx; unfold index_select, rank; now rewrite Hx, E, C|reflexivity|].
  intros g Hg. unfold index_select_backward, index_add_zeros. rewrite E, C, Hg, index_eqb_refl. cbn [andb]. eexists. split; [reflexivity|]. split; [reflexivity|]. intros f. cbn [at_].
  apply (along_gradient s k _ (at_ g) f (fun b i => b (pos i idx)) (fun a j => sumn (length idx) (fun i => if Nat.eqb (pos i idx) j then a i else 0)) (length idx)); [exact L|reflexivity| | |].
  - intros a b. transitivity (sumn (length idx) (fun i => sumn (pos k s) (fun j => (if Nat.eqb (pos i idx) j then a i else 0) * b j))).
    + apply sumn_ext. intros i Hi. assert (Hp : (pos i idx < pos k s)%nat) by (rewrite forallb_forall in C; apply Nat.ltb_lt, C, nth_In; exact Hi). rewrite (sumn_one _ (pos i idx)); [now rewrite Nat.eqb_refl|exact Hp|]. intros j _ N. destruct (Nat.eqb_spec (pos i idx) j); [congruence|lia].
    + rewrite sumn_swap. apply sumn_ext. intros j _. apply sumn_scale_r.
  - intros a b i H Hi. apply H. rewrite forallb_forall in C. apply Nat.ltb_lt, C, nth_In. exact Hi.
  - intros a b j H Hj. apply sumn_ext. intros i Hi. rewrite H by exact Hi. reflexivity.
Qed.
(** *** gather *)
Lemma gather_valid k s t idx ix : gather_ok k s t idx = true -> (k < length s)%nat -> valid t ix -> valid s (upd k (idx ix) ix).
Proof.
  intros G L V. unfold gather_ok in G. apply andb_true_iff in G as [G G3]. apply andb_true_iff in G as [G1 G2]. apply Nat.eqb_eq in G1. rewrite forallb_forall in G2, G3. assert (Hi : (idx ix < pos k s)%nat) by (apply Nat.ltb_lt, G3; now apply in_indices). apply valid_pos in V as [Lx V]. apply valid_pos. rewrite upd_length by lia. split; [lia|]. intros j Hj. rewrite pos_upd by lia. destruct (Nat.eqb_spec j k) as [->|N]; [exact Hi|].
  assert (Q : (Nat.eqb j k || Nat.leb (pos j t) (pos j s)) = true) by (apply G2, in_seq; lia). apply orb_true_iff in Q as [Q|Q]; [apply Nat.eqb_eq in Q; contradiction|]. apply Nat.leb_le in Q. specialize (V j ltac:(lia)). lia.
Qed.
Lemma k_gather s d t idx : gradient_of (gather d t idx) (gather_backward s d t idx) s.
Proof.
  destruct (dimn d (length s)) as [k|] eqn:E; [|apply never_gradient; intros x Hx; unfold gather, rank; now rewrite Hx, E]. pose proof (dimn_lt _ _ _ E) as L. destruct (gather_ok k s t idx) eqn:C; [|apply never_gradient; intros x Hx; unfold gather, rank; now rewrite Hx, E, C].
  apply (linear_gradient s _ _ t (fun f ix => f (upd k (idx ix) ix))); [intros x Hx; unfold gather, rank; now rewrite Hx, E, C|reflexivity|].
  intros g Hg. unfold gather_backward, scatter_add_zeros. rewrite E, C, Hg, index_eqb_refl. cbn [andb]. eexists. split; [reflexivity|]. split; [reflexivity|]. intros f. cbn [at_]. apply sums_fibre. intros ix V. now apply gather_valid with (t := t).
Qed.
(** *** take: right for distinct indices; a repeated index loses gradients *)
Lemma fold_assign (P : index -> bool) (a : index -> Z) l v : fold_left (fun v ix => if P ix then a ix else v) l v = match find P (rev l) with Some ix => a ix | None => v end.
Proof.
  revert v. induction l as [|x l IH] using rev_ind; intros v; [reflexivity|]. rewrite fold_left_app, rev_app_distr. cbn [fold_left rev app find]. destruct (P x); [reflexivity|apply IH].
Qed.
Lemma k_take s t idx : (forall ix jx, valid t ix -> valid t jx -> idx ix = idx jx -> ix = jx) -> gradient_of (take_flat t idx) (take_backward s t idx) s.
Proof.
  intros Inj. destruct (forallb (fun ix => Nat.ltb (idx ix) (product s)) (indices t)) eqn:C; [|apply never_gradient; intros x Hx; unfold take_flat; now rewrite Hx, C].
  assert (Hi : forall ix, valid t ix -> (idx ix < product s)%nat) by (intros ix V; rewrite forallb_forall in C; apply Nat.ltb_lt, C; now apply in_indices).
  apply (linear_gradient s _ _ t (fun f ix => f (unravel s (idx ix)))); [intros x Hx; unfold take_flat; now rewrite Hx, C|reflexivity|].
  intros g Hg. unfold take_backward, assign_flat. rewrite C. eexists. split; [reflexivity|]. split; [reflexivity|]. intros f. cbn [at_]. rewrite (sums_fibre s t (fun ix => unravel s (idx ix)) (at_ g) f) by (intros ix V; now apply unravel_ok, Hi). apply sums_ext. intros jx V. f_equal. rewrite fold_assign. destruct (ravel_ok s jx V) as [R1 R2].
  destruct (find (fun ix => Nat.eqb (idx ix) (ravel s jx)) (rev (indices t))) as [ix|] eqn:F.
  - apply find_some in F as [I F]. apply in_rev, in_indices in I. apply Nat.eqb_eq in F. rewrite (sums_one t ix).
    + rewrite F, R2, index_eqb_refl. reflexivity.
    + exact I.
    + intros kx Vk N. destruct (index_eqb (unravel s (idx kx)) jx) eqn:Q; [|reflexivity]. apply index_eqb_spec in Q. exfalso. apply N. apply Inj; [exact Vk|exact I|]. rewrite F, <- Q. symmetry. now apply unravel_ok, Hi.
  - apply sums_zero. intros ix Vi. destruct (index_eqb (unravel s (idx ix)) jx) eqn:Q; [|reflexivity]. apply index_eqb_spec in Q. exfalso. assert (I : In ix (rev (indices t))) by (apply in_rev; rewrite rev_involutive; now apply in_indices). pose proof (List.find_none _ _ F ix I) as K. cbn beta in K. apply Nat.eqb_neq in K. apply K. rewrite <- Q. symmetry. now apply unravel_ok, Hi.
Qed.

(** *** cumsum *)
Lemma sumn_flip n f : sumn n (fun i => f (n - 1 - i)%nat) = sumn n f.
Proof.
  induction n as [|n IH]; [reflexivity|]. rewrite sumn_head, sumn_S. replace (S n - 1 - 0)%nat with n by lia. rewrite <- IH. rewrite Z.add_comm. f_equal. apply sumn_ext. intros i Hi. f_equal. lia.
Qed.
Lemma sumn_tail n j f : (j < n)%nat -> sumn n (fun i => if Nat.leb j i then f i else 0) = sumn (n - j) (fun i => f (j + i)%nat).
Proof.
  intros H. replace n with (j + (n - j))%nat at 1 by lia. rewrite sumn_add. rewrite sumn_zero; [|intros i Hi; destruct (Nat.leb_spec j i); [lia|reflexivity]]. cbn [Z.add]. apply sumn_ext. intros i Hi. destruct (Nat.leb_spec j (j + i)); [reflexivity|lia].
Qed.
Lemma cumsum_adjoint n a b : sumn n (fun i => a i * sumn (S i) b) = sumn n (fun j => sumn (n - j) (fun i => a (j + i)%nat) * b j).
Proof.
  transitivity (sumn n (fun i => sumn n (fun j => (if Nat.leb j i then a i else 0) * b j))).
  - apply sumn_ext. intros i Hi. rewrite <- sumn_scale. replace n with (S i + (n - S i))%nat at 1 by lia. rewrite sumn_add. rewrite (sumn_zero (n - S i)); [|intros j Hj; destruct (Nat.leb_spec (S i + j) i); lia]. rewrite Z.add_0_r. apply sumn_ext. intros j Hj. destruct (Nat.leb_spec j i); [reflexivity|lia].
  - rewrite sumn_swap. apply sumn_ext. intros j Hj. rewrite sumn_scale_r. f_equal. now apply sumn_tail.
Qed.
Lemma flip_one d k s jx : dimn d (length s) = Some k -> valid s jx -> tabulate (length s) (fun l => if mem l [k] then pos l s - 1 - pos l jx else pos l jx)%nat = upd k (pos k s - 1 - pos k jx)%nat jx.
Proof.
  intros E V. pose proof (dimn_lt _ _ _ E) as L. pose proof (valid_length _ _ V) as Lx. apply list_ext; [rewrite tab_length, upd_length; lia|]. rewrite tab_length. intros l Hl. rewrite pos_tab, pos_upd by lia. cbn [mem existsb]. rewrite orb_false_r. destruct (Nat.eqb_spec l k) as [->|N]; reflexivity.
Qed.
Lemma k_cumsum s d : gradient_of (cumsum d) (cumsum_backward d) s.
Proof.
  destruct (dimn d (length s)) as [k|] eqn:E; [|apply never_gradient; intros x Hx; unfold cumsum, rank; now rewrite Hx, E]. pose proof (dimn_lt _ _ _ E) as L.
  apply (linear_gradient s _ _ s (fun f ix => sumn (S (pos k ix)) (fun i => f (upd k i ix)))); [intros x <-; unfold cumsum, rank; now rewrite E|intros; apply sumn_plus|].
  assert (F : forall y, shape y = s -> flip [d] y = Some (mkT s (fun ix => at_ y (tabulate (length s) (fun l => if mem l [k] then pos l s - 1 - pos l ix else pos l ix)%nat)))).
  { intros y <-. unfold flip, rank. cbn [dimns]. rewrite E. reflexivity. }
  assert (Cs : forall y, shape y = s -> cumsum d y = Some (mkT s (fun ix => sumn (S (pos k ix)) (fun i => at_ y (upd k i ix))))) by (intros y <-; unfold cumsum, rank; now rewrite E).
  intros g Hg. unfold cumsum_backward. rewrite F by exact Hg. cbn [bind]. rewrite Cs by reflexivity. cbn [bind]. rewrite F by reflexivity.
  eexists. split; [reflexivity|]. split; [reflexivity|]. intros f. cbn [at_ shape]. transitivity (sums s (fun jx => sumn (pos k s - pos k jx) (fun i => at_ g (upd k (pos k jx + i) jx)) * f jx)).
  - pose proof (along_gradient s k s (at_ g) f (fun b i => sumn (S i) b) (fun a j => sumn (pos k s - j) (fun i => a (j + i)%nat)) (pos k s)) as G. apply G; [exact L|symmetry; now apply upd_pos|intros; apply cumsum_adjoint| |].
    + intros a b i H Hi. apply sumn_ext. intros j Hj. apply H. lia.
    + intros a b j H Hj. apply sumn_ext. intros i Hi. apply H. lia.
  - apply sums_ext. intros jx V. f_equal. pose proof (valid_length _ _ V) as Lx. pose proof (valid_at k s jx L V) as Hj. set (n := pos k s) in *. set (j := pos k jx) in *. rewrite (flip_one d k s jx E V). fold n j. rewrite pos_upd, Nat.eqb_refl by lia. replace (S (n - 1 - j))%nat with (n - j)%nat by lia. rewrite <- (sumn_flip (n - j)). apply sumn_ext. intros i Hi. rewrite upd_upd by lia.
    rewrite (flip_one d k s (upd k i jx) E) by (apply valid_upd; auto; fold n; lia). rewrite pos_upd, Nat.eqb_refl, upd_upd by lia. fold n. f_equal. f_equal. lia.
Qed.

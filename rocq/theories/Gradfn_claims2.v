(** C63, continued: reshaping, rolling, squeezing, padding, selecting, reductions. *)
Require Import List ZArith Bool Arith Lia.
From Verif Require Import Ring64 Tensor Tensor_proofs Gradfn Broadcast_claims Gradfn_claims.
Import ListNotations.
Open Scope Z_scope.

(** *** view, reshape, flatten *)
Lemma ravel_ok s : forall ix, valid s ix -> (ravel s ix < product s)%nat /\ unravel s (ravel s ix) = ix.
Proof.
  induction s as [|n s IH]; intros [|i ix] V; cbn [valid] in V; try contradiction; [cbn; auto|]. destruct V as [Hi V]. destruct (IH ix V) as [A B]. cbn [ravel unravel product fold_right]. change (fold_right Nat.mul 1%nat s) with (product s). split; [nia|]. assert (P : (product s <> 0)%nat) by lia. f_equal.
  - symmetry. apply (Nat.div_unique _ _ _ (ravel s ix)); lia.
  - rewrite Nat.add_comm, Nat.mod_add, Nat.mod_small by lia. exact B.
Qed.
Lemma unravel_ok s : forall k, (k < product s)%nat -> valid s (unravel s k) /\ ravel s (unravel s k) = k.
Proof.
  induction s as [|n s IH]; intros k H; cbn [product fold_right] in H; [cbn; split; [exact I|lia]|]. change (fold_right Nat.mul 1%nat s) with (product s) in H. assert (P : (product s <> 0)%nat) by (intros E; rewrite E in H; lia). cbn [unravel ravel valid]. destruct (IH (k mod product s)%nat) as [A B]; [now apply Nat.mod_upper_bound|]. split; [split; [apply Nat.div_lt_upper_bound; lia|exact A]|]. rewrite B. rewrite (Nat.div_mod k (product s)) at 3 by exact P. lia.
Qed.
Lemma k_reshape s size : gradient_of (reshape size) (reshape_backward s) s.
Proof.
  destruct (Nat.eqb (product size) (product s)) eqn:E; [|apply never_gradient; intros x Hx; unfold reshape; now rewrite Hx, E]. apply Nat.eqb_eq in E.
  apply (bij_gradient s _ _ size (fun ix => unravel s (ravel size ix)) (fun jx => unravel size (ravel s jx))).
  - intros x Hx. unfold reshape. now rewrite Hx, E, Nat.eqb_refl.
  - intros g Hg. unfold reshape_backward, reshape. rewrite Hg, E, Nat.eqb_refl. eexists. split; [reflexivity|]. split; reflexivity.
  - intros ix V. destruct (ravel_ok size ix V) as [A B]. destruct (unravel_ok s (ravel size ix)) as [C D]; [lia|]. split; [exact C|]. now rewrite D.
  - intros ix V. destruct (ravel_ok s ix V) as [A B]. destruct (unravel_ok size (ravel s ix)) as [C D]; [lia|]. split; [exact C|]. now rewrite D.
Qed.
Lemma k_flatten s a b : gradient_of (flatten a b) (reshape_backward s) s.
Proof.
  destruct s as [|n s].
  - apply (gradient_ext _ _ (reshape [1%nat]) _ (reshape_backward [])); [intros x Hx; unfold flatten; now rewrite Hx| |apply k_reshape]. intros x y g g' _ _ _ E. exists g'. split; [exact E|]. split; reflexivity.
  - destruct (dimn a (length (n :: s))) as [a'|] eqn:Ea; [|apply never_gradient; intros x Hx; unfold flatten, rank; now rewrite Hx, Ea]. destruct (dimn b (length (n :: s))) as [b'|] eqn:Eb; [|apply never_gradient; intros x Hx; unfold flatten, rank; now rewrite Hx, Ea, Eb].
    destruct (Nat.leb a' b') eqn:L; [|apply never_gradient; intros x Hx; unfold flatten, rank; now rewrite Hx, Ea, Eb, L].
    apply (gradient_ext _ _ (reshape (flatten_size a' b' (n :: s))) _ (reshape_backward (n :: s))); [intros x Hx; unfold flatten, rank; now rewrite Hx, Ea, Eb, L| |apply k_reshape]. intros x y g g' _ _ _ E. exists g'. split; [exact E|]. split; reflexivity.
Qed.
(** *** roll *)
Lemma rolled_ok n sh i : (i < n)%nat -> (rolled n sh i < n)%nat /\ rolled n (- sh) (rolled n sh i) = i.
Proof.
  intros H. unfold rolled. assert (P : 0 < Z.of_nat n) by lia. pose proof (Z.mod_pos_bound (Z.of_nat i - sh) (Z.of_nat n) P). split; [lia|]. rewrite Z2Nat.id by lia. rewrite Z.sub_opp_r. rewrite Zplus_mod_idemp_l. replace (Z.of_nat i - sh + sh) with (Z.of_nat i) by ring. rewrite Z.mod_small by lia. apply Nat2Z.id.
Qed.
Lemma combine_snoc {A B} (l : list A) (m : list B) a b : length l = length m -> combine (l ++ [a]) (m ++ [b]) = combine l m ++ [(a, b)].
Proof. revert m. induction l as [|x l IH]; intros [|y m] L; cbn in *; try discriminate; [reflexivity|]. f_equal. apply IH. lia. Qed.
Lemma combine_rev {A B} (l : list A) (m : list B) : length l = length m -> combine (rev l) (rev m) = rev (combine l m).
Proof. revert m. induction l as [|x l IH]; intros [|y m] L; cbn in *; try discriminate; [reflexivity|]. rewrite combine_snoc by (rewrite !rev_length; lia). rewrite IH by lia. reflexivity. Qed.
Lemma zs_rev l : zsum (rev l) = zsum l.
Proof. induction l as [|x l IH]; [reflexivity|]. cbn [rev]. rewrite zs_app, IH. unfold zsum. cbn. lia. Qed.
Lemma total_shift_back shifts ds k : length shifts = length ds -> total_shift (rev (map Z.opp shifts)) (rev ds) k = - total_shift shifts ds k.
Proof.
  intros L. unfold total_shift. rewrite combine_rev by (rewrite map_length; exact L). rewrite map_rev, zs_rev. revert ds L. induction shifts as [|a l IH]; intros [|d ds] L; cbn in L; try discriminate; [reflexivity|]. cbn [map combine]. rewrite !zsum_cons, IH by lia. cbn [fst snd]. destruct (Nat.eqb d k); lia.
Qed.
Lemma dimns_snoc l d n : dimns (l ++ [d]) n = match dimns l n, dimn d n with Some l, Some d => Some (l ++ [d]) | _, _ => None end.
Proof. induction l as [|x l IH]; cbn [app dimns]; [destruct (dimn d n); reflexivity|]. rewrite IH. destruct (dimn x n), (dimns l n), (dimn d n); reflexivity. Qed.
Lemma dimns_rev l n : dimns (rev l) n = option_map (@rev nat) (dimns l n).
Proof. induction l as [|x l IH]; [reflexivity|]. cbn [rev dimns]. rewrite dimns_snoc, IH. destruct (dimns l n), (dimn x n); reflexivity. Qed.
Lemma k_roll s shifts dims : gradient_of (roll_dims shifts dims) (roll_backward shifts dims) s.
Proof.
  set (n := length s). destruct (dimns dims n) as [ds|] eqn:E; [|apply never_gradient; intros x Hx; unfold roll_dims, rank; rewrite Hx; fold n; now rewrite E]. destruct (Nat.eqb (length shifts) (length ds)) eqn:C; [|apply never_gradient; intros x Hx; unfold roll_dims, rank; rewrite Hx; fold n; now rewrite E, C].
  pose proof C as C'. apply Nat.eqb_eq in C'. set (ro := fun (sh : nat -> Z) ix => tabulate n (fun k => rolled (pos k s) (sh k) (pos k ix))).
  assert (I : forall sh ix, valid s ix -> valid s (ro sh ix) /\ ro (fun k => - sh k) (ro sh ix) = ix).
  { intros sh ix V. apply valid_pos in V as [L V]. fold n in L, V. split.
    - apply valid_pos. unfold ro. rewrite tab_length. split; [reflexivity|]. fold n. intros k Hk. rewrite pos_tab by exact Hk. now apply rolled_ok, V.
    - unfold ro. by_pos. now apply rolled_ok, V. }
  set (t := total_shift shifts ds). assert (J : forall ix, ro (fun k => - - t k) ix = ro t ix) by (intros ix; unfold ro; by_pos; now rewrite Z.opp_involutive).
  apply (bij_gradient s _ _ s (ro t) (ro (fun k => - t k))); [| |exact (I t)|].
  - intros x Hx. unfold roll_dims, rank. rewrite Hx. fold n. rewrite E, C. reflexivity.
  - intros g Hg. unfold roll_backward, roll_dims, rank. rewrite Hg. fold n. rewrite dimns_rev, E. cbn [option_map]. rewrite rev_length, map_length, rev_length, C. eexists. split; [reflexivity|]. split; [reflexivity|]. intros jx V. cbn [at_]. f_equal. unfold ro. by_pos. rewrite total_shift_back by exact C'. reflexivity.
  - intros jx V. destruct (I (fun k => - t k) jx V) as [A B]. split; [exact A|]. now rewrite J in B.
Qed.
Lemma k_roll_flat s shift : gradient_of (fun x => Some (roll_flat shift x)) (roll_flat_backward shift) s.
Proof.
  set (ro := fun sh ix => unravel s (rolled (product s) sh (ravel s ix))).
  assert (I : forall sh ix, valid s ix -> valid s (ro sh ix) /\ ro (- sh) (ro sh ix) = ix).
  { intros sh ix V. destruct (ravel_ok s ix V) as [A B]. destruct (rolled_ok (product s) sh (ravel s ix) A) as [C D]. destruct (unravel_ok s _ C) as [V' E]. split; [exact V'|]. unfold ro. rewrite E, D. exact B. }
  apply (bij_gradient s _ _ s (ro shift) (ro (- shift))); [| |exact (I shift)|].
  - intros x <-. reflexivity.
  - intros g <-. eexists. split; [reflexivity|]. split; reflexivity.
  - intros jx V. destruct (I (- shift) jx V) as [A B]. split; [exact A|]. now rewrite Z.opp_involutive in B.
Qed.

(** *** squeeze, unsqueeze, neg *)
Lemma k_unsqueeze s d : gradient_of (unsqueeze d) (unsqueeze_backward d) s.
Proof.
  destruct (dimn d (S (length s))) as [k|] eqn:E; [|apply never_gradient; intros x Hx; unfold unsqueeze, rank; now rewrite Hx, E]. pose proof (dimn_lt _ _ _ E) as L.
  apply (bij_gradient s _ _ (ins k 1%nat s) (del k) (ins k O)).
  - intros x Hx. unfold unsqueeze, rank. now rewrite Hx, E.
  - intros g Hg. unfold unsqueeze_backward, squeeze, rank. rewrite Hg, ins_length, E by lia. rewrite pos_ins, !Nat.eqb_refl by lia. eexists. split; [reflexivity|]. cbn [shape at_]. split; [apply del_ins; lia|reflexivity].
  - intros ix V. pose proof (valid_length _ _ V) as Lx. rewrite ins_length in Lx by lia. split.
    + apply (valid_del k) in V; [|rewrite ins_length; lia]. rewrite del_ins in V by lia. exact V.
    + apply (valid_at k) in V; [|rewrite ins_length; lia]. rewrite pos_ins, Nat.eqb_refl in V by lia. assert (E0 : pos k ix = O) by lia. rewrite <- E0. apply ins_del. lia.
  - intros jx V. pose proof (valid_length _ _ V) as Lx. split; [apply valid_ins; [lia|exact V|lia]|]. apply del_ins. lia.
Qed.
Lemma dimn_shift d n k : dimn d n = Some k -> (0 < n)%nat -> dimn d (S (n - 1)) = Some k.
Proof. intros E H. now replace (S (n - 1)) with n by lia. Qed.
Lemma k_squeeze s d : gradient_of (squeeze d) (squeeze_backward (squeeze_dims d s)) s.
Proof.
  destruct (dimn d (length s)) as [k|] eqn:E; [|apply never_gradient; intros x Hx; unfold squeeze, rank; now rewrite Hx, E]. pose proof (dimn_lt _ _ _ E) as L. unfold squeeze_dims. rewrite E. destruct (Nat.eqb (pos k s) 1) eqn:P.
  - pose proof P as P'. apply Nat.eqb_eq in P'. assert (Ld : length (del k s) = (length s - 1)%nat) by now apply del_length.
    apply (bij_gradient s _ _ (del k s) (ins k O) (del k)).
    + intros x Hx. unfold squeeze, rank. now rewrite Hx, E, P.
    + intros g Hg. unfold squeeze_backward. cbn [fold_left bind]. unfold unsqueeze, rank. rewrite Hg, Ld, (dimn_shift d _ k E) by lia. eexists. split; [reflexivity|]. cbn [shape at_]. split; [|reflexivity]. rewrite <- P'. now apply ins_del.
    + intros ix V. pose proof (valid_length _ _ V) as Lx. split; [|apply del_ins; lia]. rewrite <- (ins_del k s L), P'. apply valid_ins; [lia|exact V|lia].
    + intros jx V. pose proof (valid_length _ _ V) as Lx. split; [now apply valid_del|]. apply (valid_at k) in V; [|exact L]. assert (E0 : pos k jx = O) by lia. rewrite <- E0. apply ins_del. lia.
  - apply k_id; [intros x Hx; unfold squeeze, rank; now rewrite Hx, E, P|reflexivity].
Qed.
Fixpoint squeezed (s : list nat) (ix : index) : index := match s, ix with n :: s, i :: ix => if Nat.eqb n 1 then squeezed s ix else i :: squeezed s ix | _, _ => [] end.
Lemma ones_from s : forall a, map Z.of_nat (filter (fun k => Nat.eqb (pos (k - a) s) 1) (seq a (length s))) = match s with [] => [] | n :: s' => (if Nat.eqb n 1 then [Z.of_nat a] else []) ++ map Z.of_nat (filter (fun k => Nat.eqb (pos (k - S a) s') 1) (seq (S a) (length s'))) end.
Proof.
  destruct s as [|n s]; intros a; [reflexivity|]. cbn [length seq filter]. rewrite Nat.sub_diag. change (pos 0 (n :: s)) with n. assert (F : filter (fun k => Nat.eqb (pos (k - a) (n :: s)) 1) (seq (S a) (length s)) = filter (fun k => Nat.eqb (pos (k - S a) s) 1) (seq (S a) (length s))).
  { apply filter_ext_in. intros k Hk. apply in_seq in Hk. replace (k - a)%nat with (S (k - S a)) by lia. reflexivity. } rewrite F. destruct (Nat.eqb n 1); reflexivity.
Qed.
Lemma unsqueeze_all s : forall pre g, shape g = pre ++ filter (fun n => negb (Nat.eqb n 1)) s -> exists g', fold_left (fun g d => do g <- g; unsqueeze d g) (map Z.of_nat (filter (fun k => Nat.eqb (pos (k - length pre) s) 1) (seq (length pre) (length s)))) (Some g) = Some g' /\ shape g' = pre ++ s /\
  forall a b, length a = length pre -> length b = length s -> at_ g' (a ++ b) = at_ g (a ++ squeezed s b).
Proof.
  induction s as [|n s IH]; intros pre g Hg.
  - exists g. split; [reflexivity|]. split; [exact Hg|]. intros a [|i b] La Lb; [reflexivity|discriminate].
  - rewrite ones_from. cbn [filter] in Hg. destruct (Nat.eqb_spec n 1) as [->|N]; cbn [negb] in Hg; cbn [app fold_left bind].
    + set (g1 := mkT (ins (length pre) 1%nat (shape g)) (fun ix => at_ g (del (length pre) ix))). assert (U : unsqueeze (Z.of_nat (length pre)) g = Some g1). { unfold unsqueeze, rank. rewrite dimn_of_nat by (rewrite Hg, app_length; lia). reflexivity. }
      rewrite U. destruct (IH (pre ++ [1%nat]) g1) as (g' & E & Sg & A).
      { unfold g1. cbn [shape]. rewrite Hg. unfold ins. rewrite firstn_app, firstn_all, skipn_app, skipn_all, Nat.sub_diag. cbn [firstn skipn app]. rewrite app_nil_r, <- app_assoc. reflexivity. }
      rewrite app_length in E. cbn [length] in E. replace (length pre + 1)%nat with (S (length pre)) in E by lia. exists g'. split; [exact E|]. split; [rewrite Sg, <- app_assoc; reflexivity|]. intros a [|i b] La Lb; [discriminate|]. cbn [length] in Lb.
      replace (a ++ i :: b) with ((a ++ [i]) ++ b) by (rewrite <- app_assoc; reflexivity). rewrite A by (try rewrite !app_length; cbn; lia). unfold g1. cbn [at_ squeezed Nat.eqb]. f_equal. unfold del. rewrite <- La, <- app_assoc, firstn_app, firstn_all, Nat.sub_diag. cbn [firstn]. rewrite app_nil_r. f_equal. rewrite skipn_app, skipn_all2 by lia. replace (S (length a) - length a)%nat with 1%nat by lia. reflexivity.
    + destruct (IH (pre ++ [n]) g) as (g' & E & Sg & A); [rewrite Hg, <- app_assoc; reflexivity|]. rewrite app_length in E. cbn [length] in E. replace (length pre + 1)%nat with (S (length pre)) in E by lia. exists g'. split; [exact E|]. split; [rewrite Sg, <- app_assoc; reflexivity|]. intros a [|i b] La Lb; [discriminate|]. cbn [length] in Lb.
      replace (a ++ i :: b) with ((a ++ [i]) ++ b) by (rewrite <- app_assoc; reflexivity). rewrite A by (try rewrite !app_length; cbn; lia). cbn [squeezed]. destruct (Nat.eqb_spec n 1); [contradiction|]. rewrite <- app_assoc. reflexivity.
Qed.
Lemma squeezed_ok s : forall jx, valid s jx -> valid (filter (fun n => negb (Nat.eqb n 1)) s) (squeezed s jx) /\ unsqueezed s (squeezed s jx) = jx.
Proof.
  induction s as [|n s IH]; intros [|i jx] V; cbn [valid] in V; try contradiction; [cbn; auto|]. destruct V as [Hi V]. destruct (IH jx V) as [A B]. cbn [filter squeezed unsqueezed]. destruct (Nat.eqb_spec n 1) as [->|N]; cbn [negb]; [split; [exact A|]; f_equal; [lia|exact B]|]. split; [split; assumption|]. now f_equal.
Qed.
Lemma unsqueezed_ok s : forall ix, valid (filter (fun n => negb (Nat.eqb n 1)) s) ix -> valid s (unsqueezed s ix) /\ squeezed s (unsqueezed s ix) = ix.
Proof.
  induction s as [|n s IH]; intros ix V; cbn [filter] in V; [destruct ix; [cbn; auto|contradiction]|]. cbn [unsqueezed]. destruct (Nat.eqb_spec n 1) as [->|N]; cbn [negb] in V.
  - destruct (IH ix V) as [A B]. cbn [valid squeezed Nat.eqb]. split; [split; [lia|exact A]|exact B].
  - destruct ix as [|i ix]; [contradiction|]. destruct V as [Hi V]. destruct (IH ix V) as [A B]. cbn [valid squeezed]. destruct (Nat.eqb_spec n 1); [contradiction|]. split; [split; assumption|]. now f_equal.
Qed.
Lemma k_squeeze_all s : gradient_of (fun x => Some (squeeze_all x)) (squeeze_backward (squeeze_all_dims s)) s.
Proof.
  apply (bij_gradient s _ _ (filter (fun n => negb (Nat.eqb n 1)) s) (unsqueezed s) (squeezed s)); [| |apply unsqueezed_ok|apply squeezed_ok].
  - intros x <-. reflexivity.
  - intros g Hg. destruct (unsqueeze_all s [] g Hg) as (g' & E & Sg & A). exists g'. split; [|split; [exact Sg|]].
    + unfold squeeze_backward, squeeze_all_dims. cbn [length] in E. rewrite (filter_ext (fun k => Nat.eqb (pos k s) 1) (fun k => Nat.eqb (pos (k - 0) s) 1)); [exact E|]. intros k. now rewrite Nat.sub_0_r.
    + intros jx V. exact (A [] jx eq_refl (valid_length _ _ V)).
Qed.
Lemma k_neg s : gradient_of (fun x => Some (neg x)) neg_backward s.
Proof.
  apply (linear_gradient s _ _ s (fun f ix => - f ix)); [intros x <-; reflexivity|intros; lia|]. intros g <-. eexists. split; [reflexivity|]. split; [reflexivity|]. intros f. unfold neg. cbn [shape at_]. apply sums_ext. intros. ring.
Qed.

(** C68, C69: reductions and batch normalisation: what they are meant to do, and the lemmas. *)
Require Import List Reals ZArith Arith Bool Lia Lra.
From Verif Require Import Ring64 Tensor Tensor_proofs Rtensor Rtensor_proofs Realgrad Realgrad_claims Realloss Realloss_claims Realred Realred_proofs.
Import ListNotations.
Open Scope R_scope.

(** *** Specification *)
(** where an entry of the input goes: nowhere to choose; its index without position d, or with a 0 there; its position d *)
Definition place (m : mode) (ix : index) : index :=
  match m with All => [] | Dim d keepdim => firstn d ix ++ (if keepdim then [O] else []) ++ skipn (S d) ix | Except d => [nth d ix O] end.
Definition result_size (m : mode) (s : list nat) : list nat :=
  match m with All => [] | Dim d keepdim => firstn d s ++ (if keepdim then [1%nat] else []) ++ skipn (S d) s | Except d => [nth d s O] end.
(** the dimension exists *)
Definition reduces (m : mode) (x : rtensor) : Prop := match m with All => True | Dim d _ => (d < length (rshape x))%nat | Except d => (d < length (rshape x))%nat end.
(** sums over the entries that go to [o] *)
Definition total (m : mode) (s : list nat) (f : index -> R) (o : index) : R := rsums s (fun ix => if index_eqb (place m ix) o then f ix else 0).
Definition count (m : mode) (x : rtensor) (o : index) : R := total m (rshape x) (fun _ => 1) o.
Definition average (m : mode) (x : rtensor) (o : index) : R := total m (rshape x) (rat x) o / count m x o.
Definition deviation (m : mode) (x : rtensor) (o : index) : R := total m (rshape x) (fun ix => Rsqr (rat x ix - average m x o)) o.
(** a reduction computes [f]: the size, and the value at every place *)
Definition gives (m : mode) (x y : rtensor) (f : index -> R) : Prop := rshape y = result_size m (rshape x) /\ forall o, valid (rshape y) o -> rat y o = f o.

(** *** Specification and model *)
Lemma place_out m ix : place m ix = out m ix. Proof. now destruct m as [|d [|]|d]. Qed.
Lemma result_oshape m s : result_size m s = oshape m s. Proof. now destruct m as [|d [|]|d]. Qed.
Lemma reduces_fits m x : reduces m x -> fits m (rshape x). Proof. now destruct m as [|d [|]|d]. Qed.
Lemma total_members m s f o : fits m s -> valid (oshape m s) o -> total m s f o = rsum (map f (members m s o)).
Proof. intros F V. rewrite (group_sum m s o f F V). apply rsums_ext. intros ix _. now rewrite place_out. Qed.
Lemma rs_count {A} (l : list A) c : rsum (map (fun _ => c) l) = INR (length l) * c.
Proof. induction l as [|a l IH]; [unfold rsum; cbn; lra|]. change (c + rsum (map (fun _ : A => c) l) = INR (S (length l)) * c). rewrite IH, S_INR. lra. Qed.
Lemma count_members m x o : fits m (rshape x) -> valid (oshape m (rshape x)) o -> count m x o = INR (length (members m (rshape x) o)).
Proof. intros F V. unfold count. rewrite total_members by assumption. rewrite rs_count. lra. Qed.
Lemma average_members m x o : fits m (rshape x) -> valid (oshape m (rshape x)) o -> average m x o = rsum (map (rat x) (members m (rshape x) o)) / INR (length (members m (rshape x) o)).
Proof. intros F V. unfold average. now rewrite total_members, count_members by assumption. Qed.

(** *** Mean and variance *)
Lemma mean_at m x o : fits m (rshape x) -> valid (oshape m (rshape x)) o -> rat (mean m x) o = rsum (map (rat x) (members m (rshape x) o)) / INR (length (members m (rshape x) o)).
Proof. intros F V. cbn [mean rreduce rat]. now rewrite (divisor_length m x o F V). Qed.
(** C68: the mean is the sum of the entries divided by their number. *)
Lemma k_C68_mean_value m x : reduces m x -> gives m x (mean m x) (average m x).
Proof. intros F%reduces_fits. split; [now rewrite result_oshape|]. intros o V. rewrite mean_at, average_members by assumption. reflexivity. Qed.
(** C68: the gradient of the mean (of everything, or along a dimension) is exact. *)
Lemma k_C68_mean m x : reduces m x -> (forall d, m <> Except d) -> differentiates (mean_forward m) mean_backward x.
Proof.
  intros F%reduces_fits NE. apply (reduction_at _ _ m (fun ix => / INR (length (members m (rshape x) (out m ix)))) x F).
  - intros x' S. cbn. now rewrite S.
  - intros g Hg. cbn [mean_forward fst mean_backward]. destruct (rshape x) as [|n s] eqn:S.
    + destruct m as [|d k|d]; [|cbn in F; lia|cbn in F; lia]. split; [exact Hg|]. intros ix V. destruct ix; [|easy]. cbn. rewrite Rinv_1. ring.
    + split; [reflexivity|]. intros ix V. cbn [rmap spread rat]. rewrite <- S in *. rewrite members_length by exact F. destruct m as [|d k|d]; [unfold Rdiv; ring|unfold Rdiv; ring|destruct (NE d eq_refl)].
  - intros h Hh o V. cbn [mean_forward snd]. eapply d_ext; [intros t; symmetry; apply (mean_at m (moved x h t) o F V)|]. cbn [moved rshape]. unfold Rdiv. eapply d_val; [|eapply d_ext; [intros t; apply Rmult_comm|apply d_scal, d_members]].
    rewrite <- rs_scale. apply rs_ext. intros ix I. now rewrite (proj2 (members_valid m _ o ix F V I)).
Qed.
Definition mu (l : list index) (x : rtensor) : R := rsum (map (rat x) l) / INR (length l).
Lemma sum_dev l x : rsum (map (fun ix => rat x ix - mu l x) l) = 0.
Proof.
  rewrite rs_minus, rs_count. unfold mu. destruct l as [|a l]; [unfold rsum; cbn; lra|]. field. apply not_0_INR. discriminate.
Qed.
Lemma d_mu l x h : derivable_pt_lim (fun t => mu l (moved x h t)) 0 (mu l h).
Proof. unfold mu, Rdiv. eapply d_val; [|eapply d_ext; [intros t; apply Rmult_comm|apply d_scal, d_members]]. ring. Qed.
Lemma d_dev l x h ix : derivable_pt_lim (fun t => rat (moved x h t) ix - mu l (moved x h t)) 0 (rat h ix - mu l h).
Proof. apply d_minus; [apply d_line|apply d_mu]. Qed.
Lemma mu_0 l x h : mu l (moved x h 0) = mu l x. Proof. unfold mu. f_equal. apply rs_ext. intros. apply moved_0. Qed.
Lemma d_var l x h : derivable_pt_lim (fun t => rsum (map (fun ix => Rsqr (rat (moved x h t) ix - mu l (moved x h t))) l)) 0 (rsum (map (fun ix => 2 * (rat x ix - mu l x) * rat h ix) l)).
Proof.
  eapply d_val; [|apply (d_sum l (fun ix t => Rsqr (rat (moved x h t) ix - mu l (moved x h t))) (fun ix => 2 * (rat x ix - mu l x) * rat h ix - 2 * mu l h * (rat x ix - mu l x)))].
  - rewrite rs_minus, rs_scale, sum_dev. ring.
  - intros ix _. unfold Rsqr. eapply d_val; [|apply d_mult; apply d_dev]. cbn beta. rewrite moved_0, mu_0. ring.
Qed.
Lemma var_at m u x o : fits m (rshape x) -> valid (oshape m (rshape x)) o -> let l := members m (rshape x) o in
  rat (var m u x) o = rsum (map (fun ix => Rsqr (rat x ix - mu l x)) l) * / (if Nat.leb (if u then length l else length l - 1) 1 then 1 else INR (if u then length l else length l - 1)).
Proof.
  intros F V l. cbn [var rreduce rat rmap rmap2 rshape]. assert (E : forall d, map (fun ix => (rat x ix - rat (spread m (rshape x) (mean m x)) ix) * (rat x ix - rat (spread m (rshape x) (mean m x)) ix)) l = map (fun ix => Rsqr (rat x ix - mu l x)) l -> (if Nat.leb d 1 then rsum (map (fun ix => (rat x ix - rat (spread m (rshape x) (mean m x)) ix) * (rat x ix - rat (spread m (rshape x) (mean m x)) ix)) l) else rsum (map (fun ix => (rat x ix - rat (spread m (rshape x) (mean m x)) ix) * (rat x ix - rat (spread m (rshape x) (mean m x)) ix)) l) / INR d) = rsum (map (fun ix => Rsqr (rat x ix - mu l x)) l) * / (if Nat.leb d 1 then 1 else INR d)).
  { intros d ->. destruct (Nat.leb d 1); [rewrite Rinv_1; ring|reflexivity]. }
  rewrite (divisor_length m x o F V). apply E. apply map_ext_in. intros ix I. cbn [spread rat]. rewrite (proj2 (members_valid m _ o ix F V I)), mean_at by assumption. reflexivity.
Qed.
Lemma deviation_members m x o : fits m (rshape x) -> valid (oshape m (rshape x)) o -> deviation m x o = rsum (map (fun ix => Rsqr (rat x ix - mu (members m (rshape x) o) x)) (members m (rshape x) o)).
Proof. intros F V. unfold deviation. rewrite total_members, average_members by assumption. reflexivity. Qed.
Lemma inv_small n : (n <= 1)%nat -> forall l : list index, length l = n -> forall f, rsum (map f l) * / 1 = rsum (map f l) / INR n.
Proof. intros H l L f. destruct n as [|[|n]]; [destruct l; [unfold rsum; cbn; lra|discriminate]|cbn; lra|lia]. Qed.
(** C68: [var(unbiased=True)] is the mean square deviation (divided by the number of entries). *)
Lemma k_C68_var_true m x : reduces m x -> gives m x (var m true x) (fun o => deviation m x o / count m x o).
Proof.
  intros F%reduces_fits. split; [now rewrite result_oshape|]. intros o V. pose proof (var_at m true x o F V) as E. cbv zeta in E. rewrite E, deviation_members, count_members by assumption. clear E.
  destruct (Nat.leb_spec (length (members m (rshape x) o)) 1); [now apply inv_small|reflexivity].
Qed.
(** C68: [var()] (unbiased=False) divides by one less (at least two entries). *)
Lemma k_C68_var_false m x : reduces m x -> (forall o, valid (result_size m (rshape x)) o -> 2 <= count m x o) -> gives m x (var m false x) (fun o => deviation m x o / (count m x o - 1)).
Proof.
  intros F%reduces_fits N. split; [now rewrite result_oshape|]. intros o V. specialize (N o). rewrite result_oshape in N. specialize (N V). pose proof (var_at m false x o F V) as E. cbv zeta in E. rewrite E, deviation_members by assumption. rewrite count_members in * by assumption. clear E.
  set (l := members m (rshape x) o) in *. apply (INR_le 2) in N. replace (INR (length l) - 1) with (INR (length l - 1)) by (rewrite minus_INR by lia; reflexivity).
  destruct (Nat.leb_spec (length l - 1) 1) as [L|L]; [|reflexivity]. replace (length l - 1)%nat with 1%nat by lia. cbn. lra.
Qed.
(** C68: so the flag is the wrong way round: with unbiased=True the result is never the unbiased estimate, unless all entries are equal. *)
Lemma k_C68_var_refuted m x o : reduces m x -> valid (result_size m (rshape x)) o -> 2 <= count m x o -> deviation m x o <> 0 ->
  rat (var m true x) o <> deviation m x o / (count m x o - 1) /\ rat (var m false x) o = deviation m x o / (count m x o - 1).
Proof.
  intros F V N D. pose proof (reduces_fits m x F) as F'. rewrite result_oshape in V. split.
  - rewrite (proj2 (k_C68_var_true m x F) o V). intros E. apply (Rmult_eq_compat_l (count m x o * (count m x o - 1))) in E. unfold Rdiv in E. apply D. replace (count m x o * (count m x o - 1) * (deviation m x o * / count m x o)) with ((count m x o - 1) * deviation m x o) in E by (field; lra).
    replace (count m x o * (count m x o - 1) * (deviation m x o * / (count m x o - 1))) with (count m x o * deviation m x o) in E by (field; lra). lra.
  - pose proof (var_at m false x o F' V) as E. cbv zeta in E. rewrite E, deviation_members by assumption. rewrite count_members in * by assumption. clear E.
    set (l := members m (rshape x) o) in *. apply (INR_le 2) in N. replace (INR (length l) - 1) with (INR (length l - 1)) by (rewrite minus_INR by lia; reflexivity).
    destruct (Nat.leb_spec (length l - 1) 1) as [L|L]; [|reflexivity]. replace (length l - 1)%nat with 1%nat by lia. cbn. lra.
Qed.
(** C68: the gradient of the variance is exact for either flag. *)
Lemma k_C68_var m u x : reduces m x -> differentiates (var_forward m u) var_backward x.
Proof.
  intros F%reduces_fits. set (dv := fun o => let n := length (members m (rshape x) o) in if u then n else (n - 1)%nat).
  apply (reduction_at _ _ m (fun ix => 2 * (rat x ix - mu (members m (rshape x) (out m ix)) x) * / (if Nat.leb (dv (out m ix)) 1 then 1 else INR (dv (out m ix)))) x F).
  - intros x' S. cbn. now rewrite S.
  - intros g Hg. cbn [var_forward fst var_backward]. split; [now destruct (Nat.eqb _ 0)|]. intros ix V. destruct (out_valid m _ ix F V) as [W I]. rewrite (divisor_length m x (out m ix) F W).
    change (if u then length (members m (rshape x) (out m ix)) else (length (members m (rshape x) (out m ix)) - 1)%nat) with (dv (out m ix)).
    assert (M : rat (spread m (rshape x) (mean m x)) ix = mu (members m (rshape x) (out m ix)) x) by (cbn [spread rat]; now rewrite mean_at).
    destruct (Nat.eqb_spec (dv (out m ix)) 0) as [E|E]; cbn [rmul rmap rmap2 rat]; rewrite M; cbn [spread rat].
    + rewrite E. cbn. rewrite Rinv_1. ring.
    + destruct (Nat.leb_spec (dv (out m ix)) 1) as [L|L]; [replace (dv (out m ix)) with 1%nat by lia; cbn; rewrite Rinv_1; lra|unfold Rdiv; ring].
  - intros h Hh o V. cbn [var_forward snd]. eapply d_ext; [intros t; symmetry; apply (var_at m u (moved x h t) o F V)|]. cbn [moved rshape]. cbv zeta. eapply d_val; [|eapply d_ext; [intros t; apply Rmult_comm|apply d_scal, d_var]].
    rewrite <- rs_scale. apply rs_ext. intros ix I. rewrite (proj2 (members_valid m _ o ix F V I)). fold (dv o). ring.
Qed.

(** *** Maxima *)
(** the argmax protocol returns the position of a largest value (C32) *)
Definition picks (pick : list R -> nat) : Prop := forall l, l <> [] -> (pick l < length l)%nat /\ forall v, In v l -> v <= nth (pick l) l 0.
(** entry [a] is the largest of those that go to the same place; strictly so *)
Definition largest (m : mode) (x : rtensor) (a : index) : Prop := forall ix, valid (rshape x) ix -> place m ix = place m a -> rat x ix <= rat x a.
Definition strictly_largest (m : mode) (x : rtensor) (a : index) : Prop := forall ix, valid (rshape x) ix -> place m ix = place m a -> ix <> a -> rat x ix < rat x a.
(** every group has a strictly largest entry *)
Definition unique_maxima (m : mode) (x : rtensor) : Prop := forall ix, valid (rshape x) ix -> exists a, valid (rshape x) a /\ place m a = place m ix /\ strictly_largest m x a.
Definition best (pick : list R -> nat) (m : mode) (x : rtensor) (o : index) : index := nth (pick (map (rat x) (members m (rshape x) o))) (members m (rshape x) o) [].
Lemma best_in pick m x o : picks pick -> members m (rshape x) o <> [] -> In (best pick m x o) (members m (rshape x) o) /\ forall ix, In ix (members m (rshape x) o) -> rat x ix <= rat x (best pick m x o).
Proof.
  intros P N. unfold best. set (l := members m (rshape x) o) in *. destruct (P (map (rat x) l)) as [B U]; [now destruct l|]. rewrite map_length in B. split; [now apply nth_In|].
  intros ix I. apply (in_map (rat x)), U in I. rewrite (nth_indep _ 0 (rat x [])), map_nth in I by (now rewrite map_length). exact I.
Qed.
Lemma max_at pick m x o : picks pick -> fits m (rshape x) -> valid (oshape m (rshape x)) o -> members m (rshape x) o <> [] -> rat (snd (max_forward pick m x)) o = rat x (best pick m x o).
Proof.
  intros P F V N. cbn [max_forward snd rreduce rat rmul rmap2 rshape]. destruct (best_in pick m x o P N) as [B _].
  rewrite (rs_one (fun ix => rat x ix * rat (one_hot pick m x) ix) _ (best pick m x o)); [|now apply members_NoDup|exact B|].
  - cbn [one_hot rat]. rewrite (proj2 (members_valid m _ o _ F V B)). unfold best. rewrite index_eqb_refl. ring.
  - intros ix I E. cbn [one_hot rat]. rewrite (proj2 (members_valid m _ o _ F V I)). fold (best pick m x o). destruct (index_eqb (best pick m x o) ix) eqn:Q; [|ring]. apply index_eqb_spec in Q. now destruct E.
Qed.
(** C68: the maximum of every non-empty group is the value of a largest entry. *)
Lemma k_C68_max_value pick m x ix : picks pick -> reduces m x -> valid (rshape x) ix ->
  rshape (snd (max_forward pick m x)) = result_size m (rshape x) /\
  exists a, valid (rshape x) a /\ place m a = place m ix /\ largest m x a /\ rat (snd (max_forward pick m x)) (place m ix) = rat x a.
Proof.
  intros P F%reduces_fits V. split; [now rewrite result_oshape|]. destruct (out_valid m _ ix F V) as [W I]. assert (N := members_ne m _ ix F V). destruct (best_in pick m x _ P N) as [B U].
  exists (best pick m x (out m ix)). destruct (members_valid m _ _ _ F W B) as [VB PB]. rewrite !place_out. split; [exact VB|]. split; [exact PB|]. split; [|now apply max_at].
  intros jx VJ E. rewrite !place_out, PB in E. apply U. rewrite <- E. now apply out_valid.
Qed.
Lemma locally_below (l : list index) x h a : (forall ix, In ix l -> ix <> a -> rat x ix < rat x a) ->
  exists delta, 0 < delta /\ forall t, Rabs t < delta -> forall ix, In ix l -> ix <> a -> rat (moved x h t) ix < rat (moved x h t) a.
Proof.
  induction l as [|b l IH]; intros H; [exists 1; split; [lra|easy]|]. destruct IH as [e [E IH]]; [intros; apply H; [now right|assumption]|].
  destruct (list_eq_dec Nat.eq_dec b a) as [Q|Q].
  - exists e. split; [exact E|]. intros t T ix [->|I] N; [contradiction|now apply IH].
  - specialize (H b (or_introl eq_refl) Q). set (D := Rabs (rat h b - rat h a) + 1). assert (DP : 0 < D) by (unfold D; pose proof (Rabs_pos (rat h b - rat h a)); lra).
    exists (Rmin e ((rat x a - rat x b) / D)). split; [apply Rmin_pos; [exact E|apply Rdiv_lt_0_compat; lra]|]. intros t T ix [->|I] N.
    + apply Rlt_le_trans with (r2 := Rmin e ((rat x a - rat x ix) / D)) (r3 := (rat x a - rat x ix) / D) in T; [|apply Rmin_r]. cbn [moved rat].
      apply (Rmult_lt_compat_r D) in T; [|exact DP]. unfold Rdiv in T. rewrite Rmult_assoc, Rinv_l, Rmult_1_r in T by lra.
      assert (t * (rat h ix - rat h a) <= Rabs t * D). { eapply Rle_trans; [apply Rle_abs|]. rewrite Rabs_mult. apply Rmult_le_compat_l; [apply Rabs_pos|]. unfold D. lra. } lra.
    + apply IH; [|exact I|exact N]. eapply Rlt_le_trans; [exact T|apply Rmin_l].
Qed.
(** C68: where every group has a strictly largest entry, the gradient of the maximum is exact. *)
Lemma k_C68_max pick m x : picks pick -> reduces m x -> unique_maxima m x -> (forall o, valid (result_size m (rshape x)) o -> exists ix, valid (rshape x) ix /\ place m ix = o) ->
  differentiates (max_forward pick m) max_backward x.
Proof.
  intros P F%reduces_fits UM NE. apply (reduction_at _ _ m (fun ix => if index_eqb (best pick m x (out m ix)) ix then 1 else 0) x F).
  - intros x' S. cbn. now rewrite S.
  - intros g Hg. cbn [max_forward fst max_backward]. cbn [one_hot rshape]. destruct (rshape x) as [|n s] eqn:S.
    + destruct m as [|d k|d]; [|cbn in F; lia|cbn in F; lia]. split; [exact Hg|]. intros ix V. destruct ix; [|easy]. unfold best. rewrite S. cbn [members indices map out]. destruct (P [rat x []]) as [B _]; [easy|]. cbn [length] in B. replace (pick [rat x []]) with O by lia. cbn. ring.
    + split; [reflexivity|]. intros ix V. rewrite <- S in *. cbn [rmul rmap2 spread rat one_hot]. unfold best. reflexivity.
  - intros h Hh o V. destruct (NE o) as [i0 [V0 P0]]; [now rewrite result_oshape|]. rewrite place_out in P0. assert (N := members_ne m _ i0 F V0). rewrite P0 in N.
    destruct (UM i0 V0) as [a [VA [PA SA]]]. rewrite !place_out, P0 in PA.
    assert (Ia : In a (members m (rshape x) o)) by (rewrite <- PA; now apply out_valid).
    assert (LT : forall ix, In ix (members m (rshape x) o) -> ix <> a -> rat x ix < rat x a).
    { intros ix I NQ. destruct (members_valid m _ o ix F V I) as [VI OI]. apply SA; [exact VI| |exact NQ]. now rewrite !place_out, OI, PA. }
    destruct (locally_below _ x h a LT) as [e [E LB]].
    assert (BA : forall t, Rabs t < e -> best pick m (moved x h t) o = a).
    { intros t T. destruct (best_in pick m (moved x h t) o P N) as [B U]. destruct (list_eq_dec Nat.eq_dec (best pick m (moved x h t) o) a) as [Q|Q]; [exact Q|].
      specialize (LB t T _ B Q). specialize (U a Ia). lra. }
    eapply d_val; [|apply (d_near (fun t => rat (moved x h t) a) _ 0 (rat h a) e E); [|apply d_line]].
    + assert (B0 : best pick m x o = a). { destruct (best_in pick m x o P N) as [B U]. destruct (list_eq_dec Nat.eq_dec (best pick m x o) a) as [Q|Q]; [exact Q|]. specialize (LT _ B Q). specialize (U a Ia). lra. }
      symmetry. rewrite (rs_one _ _ a); [|now apply members_NoDup|exact Ia|].
      * rewrite PA, B0, index_eqb_refl. ring.
      * intros ix I NQ. rewrite (proj2 (members_valid m _ o ix F V I)), B0. destruct (index_eqb a ix) eqn:Q; [apply index_eqb_spec in Q; now destruct NQ|ring].
    + intros t T. rewrite Rminus_0_r in T. rewrite max_at; [now rewrite BA|exact P|exact F|exact V|exact N].
Qed.
(** C68: with ties the gradient is a subgradient (of the convex function x -> sum of g times the maxima, g >= 0). *)
Lemma k_C68_max_ties pick m x y g : picks pick -> reduces m x -> rshape y = rshape x -> rshape g = result_size m (rshape x) -> entries (fun v => 0 <= v) g ->
  (forall o, valid (result_size m (rshape x)) o -> exists ix, valid (rshape x) ix /\ place m ix = o) ->
  rinner g (snd (max_forward pick m x)) + rinner (max_backward (fst (max_forward pick m x)) g) (rmap2 Rminus y x) <= rinner g (snd (max_forward pick m y)).
Proof.
  intros P F%reduces_fits Hy Hg NN NE. rewrite result_oshape in Hg.
  assert (B : rinner (max_backward (fst (max_forward pick m x)) g) (rmap2 Rminus y x) = rsums (oshape m (rshape x)) (fun o => rat g o * (rat y (best pick m x o) - rat x (best pick m x o)))).
  { transitivity (rsums (rshape x) (fun ix => rat g (out m ix) * (if index_eqb (best pick m x (out m ix)) ix then 1 else 0) * (rat y ix - rat x ix))).
    - cbn [max_forward fst max_backward]. cbn [one_hot rshape]. destruct (rshape x) as [|n s] eqn:S.
      + destruct m as [|d k|d]; [|cbn in F; lia|cbn in F; lia]. unfold rinner. rewrite Hg. cbn [oshape]. rewrite !rsums_nil. cbn [rmap2 rat]. unfold best. rewrite S. cbn [members indices map out]. destruct (P [rat x []]) as [B _]; [easy|]. cbn [length] in B. replace (pick [rat x []]) with O by lia. cbn. ring.
      + unfold rinner. cbn [rmul rmap2 rshape spread rat one_hot]. unfold best. rewrite S. reflexivity.
    - rewrite <- (exchange m (rshape x) (fun o ix => rat g o * (if index_eqb (best pick m x o) ix then 1 else 0) * (rat y ix - rat x ix)) F). apply rsums_ext. intros o V. destruct (NE o) as [i0 [V0 P0]]; [now rewrite result_oshape|]. rewrite place_out in P0.
      assert (N := members_ne m _ i0 F V0). rewrite P0 in N. destruct (best_in pick m x o P N) as [B _]. rewrite (rs_one _ _ (best pick m x o)); [rewrite index_eqb_refl; ring|now apply members_NoDup|exact B|].
      intros ix _ NQ. destruct (index_eqb (best pick m x o) ix) eqn:Q; [apply index_eqb_spec in Q; now destruct NQ|ring]. }
  rewrite B. unfold rinner. rewrite Hg, <- rsums_plus. unfold rsums.
  assert (LE : forall (A : Type) (l : list A) f k, (forall a, In a l -> f a <= k a) -> rsum (map f l) <= rsum (map k l)).
  { intros A l f k H. induction l as [|a l IH]; [apply Rle_refl|]. change (f a + rsum (map f l) <= k a + rsum (map k l)). apply Rplus_le_compat; [apply H; now left|]. apply IH. intros. apply H. now right. }
  apply LE. intros o V. apply in_indices in V. destruct (NE o) as [i0 [V0 P0]]; [now rewrite result_oshape|]. rewrite place_out in P0. assert (N := members_ne m _ i0 F V0). rewrite P0 in N.
  rewrite (max_at pick m x o P F V N). rewrite max_at; [|exact P|now rewrite Hy|now rewrite Hy|now rewrite Hy].
  assert (N' : members m (rshape y) o <> []) by now rewrite Hy. destruct (best_in pick m y o P N') as [_ U]. destruct (best_in pick m x o P N) as [BI _]. rewrite Hy in U. specialize (U _ BI).
  assert (0 <= rat g o) by (apply NN; now rewrite Hg). nra.
Qed.
(** Minima: the maximum of the negated entries. *)
Lemma min_as_max pick m x : fst (min_forward pick m x) = fst (max_forward pick m (rmap Ropp x)) /\ rshape (snd (min_forward pick m x)) = oshape m (rshape x) /\
  forall o, rat (snd (min_forward pick m x)) o = - rat (snd (max_forward pick m (rmap Ropp x))) o.
Proof.
  split; [reflexivity|]. split; [reflexivity|]. intros o. cbn [min_forward max_forward snd rreduce rat rmul rmap2 rmap rshape]. set (l := members m (rshape x) o). rewrite <- (Rmult_1_l (rsum (map _ l))) at 1.
  replace (- rsum (map (fun ix => - rat x ix * rat (one_hot pick m (rmap Ropp x)) ix) l)) with (-1 * rsum (map (fun ix => - rat x ix * rat (one_hot pick m (rmap Ropp x)) ix) l)) by ring.
  rewrite <- !rs_scale. apply rs_ext. intros ix _. ring.
Qed.
(** C68: the minimum of every non-empty group is the value of a smallest entry. *)
Lemma k_C68_min_value pick m x ix : picks pick -> reduces m x -> valid (rshape x) ix ->
  rshape (snd (min_forward pick m x)) = result_size m (rshape x) /\
  exists a, valid (rshape x) a /\ place m a = place m ix /\ (forall jx, valid (rshape x) jx -> place m jx = place m a -> rat x a <= rat x jx) /\ rat (snd (min_forward pick m x)) (place m ix) = rat x a.
Proof.
  intros P F V. destruct (min_as_max pick m x) as [_ [S E]]. split; [now rewrite result_oshape|]. assert (F' : reduces m (rmap Ropp x)) by now destruct m.
  destruct (k_C68_max_value pick m (rmap Ropp x) ix P F' V) as [_ [a [VA [PA [LA XA]]]]]. exists a. split; [exact VA|]. split; [exact PA|]. split.
  - intros jx VJ PJ. specialize (LA jx VJ PJ). cbn in LA. lra.
  - rewrite E, XA. cbn. ring.
Qed.
(** C68: where every group has a strictly smallest entry, the gradient of the minimum is exact. *)
Lemma k_C68_min pick m x : picks pick -> reduces m x -> unique_maxima m (rmap Ropp x) -> (forall o, valid (result_size m (rshape x)) o -> exists ix, valid (rshape x) ix /\ place m ix = o) ->
  differentiates (min_forward pick m) min_backward x.
Proof.
  intros P F UM NE. assert (F' : reduces m (rmap Ropp x)) by now destruct m. pose proof (k_C68_max pick m (rmap Ropp x) P F' UM NE) as D. intros g Hg. destruct (min_as_max pick m x) as [ES [S E]].
  destruct (D g Hg) as [SB DB]. rewrite ES. split; [exact SB|]. intros h Hh. split; [reflexivity|]. specialize (DB (rmap Ropp h) Hh) as [_ DB].
  eapply d_val; [|eapply (d_ext (fun t => - rinner g (snd (max_forward pick m (moved (rmap Ropp x) (rmap Ropp h) t))))); [|apply d_opp, DB]].
  - unfold rinner, min_backward. replace (- rsums _ _) with (-1 * rsums (rshape (max_backward (fst (max_forward pick m (rmap Ropp x))) g)) (fun ix => rat (max_backward (fst (max_forward pick m (rmap Ropp x))) g) ix * rat (rmap Ropp h) ix)) by ring. rewrite <- rsums_scale. apply rsums_ext. intros ix _. cbn [rmap rat]. ring.
  - intros t. replace (moved (rmap Ropp x) (rmap Ropp h) t) with (rmap Ropp (moved x h t)) by (apply tensor_ext; [reflexivity|intros ix; cbn; ring]). unfold rinner.
    replace (- rsums _ _) with (-1 * rsums (rshape g) (fun ix => rat g ix * rat (snd (max_forward pick m (rmap Ropp (moved x h t)))) ix)) by ring. rewrite <- rsums_scale. apply rsums_ext. intros ix _. rewrite (proj2 (proj2 (min_as_max pick m (moved x h t))) ix). ring.
Qed.

(** *** Norms *)
Lemma d_root v : 0 < v -> derivable_pt_lim sqrt v (/ (2 * sqrt v)). Proof. apply derivable_pt_lim_sqrt. Qed.
Definition squares (m : mode) (x : rtensor) (o : index) : R := total m (rshape x) (fun ix => Rsqr (rat x ix)) o.
Lemma norm2_at m x o : fits m (rshape x) -> valid (oshape m (rshape x)) o -> rat (snd (norm2_forward m x)) o = sqrt (rsum (map (fun ix => Rsqr (rat x ix)) (members m (rshape x) o))).
Proof. reflexivity. Qed.
Lemma d_squares l x h : derivable_pt_lim (fun t => rsum (map (fun ix => Rsqr (rat (moved x h t) ix)) l)) 0 (rsum (map (fun ix => 2 * rat x ix * rat h ix) l)).
Proof. apply (d_sum l (fun ix t => Rsqr (rat (moved x h t) ix))). intros ix _. unfold Rsqr. eapply d_val; [|apply d_mult; apply d_line]. cbn [moved rat]. ring. Qed.
Lemma squares_0 l x h : rsum (map (fun ix => Rsqr (rat (moved x h 0) ix)) l) = rsum (map (fun ix => Rsqr (rat x ix)) l). Proof. apply rs_ext. intros. now rewrite moved_0. Qed.
Lemma norm2_gen m x : fits m (rshape x) -> (forall o, valid (result_size m (rshape x)) o -> 0 < squares m x o) ->
  gives m x (snd (norm2_forward m x)) (fun o => sqrt (squares m x o)) /\ differentiates (norm2_forward m) norm2_backward x.
Proof.
  intros F POS. split.
  - split; [now rewrite result_oshape|]. intros o V. unfold squares. rewrite total_members by assumption. reflexivity.
  - apply (reduction_at _ _ m (fun ix => rat x ix * / rat (snd (norm2_forward m x)) (out m ix)) x F).
    + intros x' S. cbn. now rewrite S.
    + intros g Hg. split; [reflexivity|]. intros ix V. reflexivity.
    + intros h Hh o V. specialize (POS o). rewrite result_oshape in POS. specialize (POS V). unfold squares in POS. rewrite total_members in POS by assumption.
      eapply d_ext; [intros t; symmetry; apply (norm2_at m (moved x h t) o F V)|]. cbn [moved rshape]. eapply d_val; [|apply (d_comp (fun t => rsum (map (fun ix => Rsqr (rat (moved x h t) ix)) (members m (rshape x) o))) sqrt); [apply d_squares|]; rewrite squares_0; apply d_root, POS].
      rewrite <- rs_scale. apply rs_ext. intros ix I. rewrite (proj2 (members_valid m _ o ix F V I)), norm2_at by assumption. field. apply Rgt_not_eq, sqrt_lt_R0, POS.
Qed.
(** C68: the 2-norm, of everything or along a kept dimension, where it is not zero. *)
Lemma k_C68_norm2 m x : reduces m x -> (m = All \/ exists d, m = Dim d true) -> (forall o, valid (result_size m (rshape x)) o -> 0 < squares m x o) ->
  gives m x (snd (norm2_forward m x)) (fun o => sqrt (squares m x o)) /\ differentiates (norm2_forward m) norm2_backward x.
Proof. intros F%reduces_fits _. now apply norm2_gen. Qed.
Definition absolutes (m : mode) (x : rtensor) (o : index) : R := total m (rshape x) (fun ix => Rabs (rat x ix)) o.
Lemma times_sign v : v * sign v = Rabs v.
Proof. unfold sign. destruct (Rlt_dec v 0); [rewrite ltz_neg, Rabs_left by lra; lra|rewrite ltz_pos, Rabs_right by lra; lra]. Qed.
(** C68: the 1-norm, where no entry is zero. *)
Lemma k_C68_norm1 m x : reduces m x -> (m = All \/ exists d, m = Dim d true) -> entries (fun v => v <> 0) x ->
  gives m x (snd (norm1_forward m x)) (absolutes m x) /\ differentiates (norm1_forward m) normp_backward x.
Proof.
  intros F%reduces_fits _ NZ. split.
  - split; [now rewrite result_oshape|]. intros o V. unfold absolutes. rewrite total_members by assumption. cbn [norm1_forward snd rreduce rmap rat]. apply rs_ext. intros ix _. apply times_sign.
  - apply (reduction_at _ _ m (fun ix => sign (rat x ix)) x F).
    + intros x' S. cbn. now rewrite S.
    + intros g Hg. split; [reflexivity|]. intros ix V. transitivity (rat g (out m ix) * (1 * sign (rat x ix))); [reflexivity|ring].
    + intros h Hh o V. apply (d_ext (fun t => rsum (map (fun ix => rat (moved x h t) ix * sign (rat (moved x h t) ix)) (members m (rshape x) o)))); [reflexivity|]. apply (d_sum _ (fun ix t => rat (moved x h t) ix * sign (rat (moved x h t) ix))). intros ix I. destruct (members_valid m _ o ix F V I) as [VI _].
      apply (d_comp (fun t => rat (moved x h t) ix) (fun v => v * sign v)); [apply d_line|]. rewrite moved_0. apply d_abs, NZ, VI.
Qed.
(** exponents [pos_pow] handles exactly, together with the one below *)
Definition exact_exponent (e : exponent) : Prop := match e with Whole p => (2 < p)%Z /\ pow_exact p /\ pow_exact (p - 1) | Fractional q => 1 < q end.
Lemma exact_gt_1 e : exact_exponent e -> 1 < exp_value e. Proof. destruct e as [p|q]; cbn; [intros [H _]; apply IZR_lt; lia|easy]. Qed.
Lemma pos_pow_exact e v : exact_exponent e -> 0 < v -> pos_pow e v = Rpower v (exp_value e) /\ pos_pow (exp_pred e) v = Rpower v (exp_value e - 1).
Proof.
  destruct e as [p|q]; cbn [exact_exponent exp_pred pos_pow exp_value].
  - intros [_ [A B]] V. apply effectiveZ_exact in A. apply effectiveZ_exact in B. rewrite !powi_effective, A, B, <- minus_IZR, !powerRZ_Rpower by exact V. split; reflexivity.
  - intros _ _. unfold Rpower. split; f_equal; ring.
Qed.
Definition powers (e : R) (m : mode) (x : rtensor) (o : index) : R := total m (rshape x) (fun ix => Rpower (Rabs (rat x ix)) e) o.
Lemma d_pos_pow e v : exact_exponent e -> v <> 0 -> derivable_pt_lim (fun t => pos_pow e (t * sign t)) v (exp_value e * Rpower (Rabs v) (exp_value e - 1) * sign v).
Proof.
  intros E N. apply (d_comp (fun t => t * sign t) (pos_pow e)); [now apply d_abs|]. rewrite times_sign. assert (P := Rabs_pos_lt v N).
  apply (d_locally (fun t => Rpower t (exp_value e)) _ (Rabs v) _ 0 (Rabs v + 1)); [exact P|lra| |apply derivable_pt_lim_power, P]. intros t [T _]. symmetry. now apply pos_pow_exact.
Qed.
Lemma Rpower_pos a b : 0 < Rpower a b. Proof. apply exp_pos. Qed.
(** C68: the p-norm for a fractional p > 1 or p = 3, 4, where no entry is zero. *)
Lemma k_C68_normp e m x : exact_exponent e -> reduces m x -> (m = All \/ exists d, m = Dim d true) -> entries (fun v => v <> 0) x ->
  (forall o, valid (result_size m (rshape x)) o -> exists ix, valid (rshape x) ix /\ place m ix = o) ->
  gives m x (snd (normp_forward e m x)) (fun o => Rpower (powers (exp_value e) m x o) (1 / exp_value e)) /\ differentiates (normp_forward e m) normp_backward x.
Proof.
  intros E F%reduces_fits _ NZ NE. pose proof (exact_gt_1 e E) as G. set (p := exp_value e) in *.
  assert (Q : forall y, rshape y = rshape x -> forall o, rat (snd (normp_forward e m y)) o = Rpower (rsum (map (fun ix => pos_pow e (rat y ix * sign (rat y ix))) (members m (rshape x) o))) (1 / p)).
  { intros y Hy o. cbn [normp_forward snd rreduce rmap rat rshape]. rewrite Hy. unfold Rpower. f_equal. apply Rmult_comm. }
  assert (EQ : forall o, valid (oshape m (rshape x)) o -> rsum (map (fun ix => pos_pow e (rat x ix * sign (rat x ix))) (members m (rshape x) o)) = rsum (map (fun ix => Rpower (Rabs (rat x ix)) p) (members m (rshape x) o))).
  { intros o V. apply rs_ext. intros ix I. destruct (members_valid m _ o ix F V I) as [VI _]. rewrite times_sign. apply (pos_pow_exact e); [exact E|]. apply Rabs_pos_lt, NZ, VI. }
  assert (PS : forall o, valid (oshape m (rshape x)) o -> 0 < rsum (map (fun ix => Rpower (Rabs (rat x ix)) p) (members m (rshape x) o))).
  { intros o V. apply rs_pos; [intros; apply Rpower_pos|]. destruct (NE o) as [ix [VI PI]]; [now rewrite result_oshape|]. rewrite place_out in PI. subst o. now apply members_ne. }
  split.
  - split; [now rewrite result_oshape|]. intros o V. change (valid (oshape m (rshape x)) o) in V. unfold powers. rewrite total_members by assumption. rewrite Q, EQ by (reflexivity || assumption). reflexivity.
  - apply (reduction_at _ _ m (fun ix => Rpower (Rabs (rat x ix) / rat (snd (normp_forward e m x)) (out m ix)) (p - 1) * sign (rat x ix)) x F).
    + intros x' S. cbn. now rewrite S.
    + intros g Hg. split; [reflexivity|]. intros ix V. transitivity (rat g (out m ix) * (pos_pow (exp_pred e) (rat x ix * sign (rat x ix) / rat (snd (normp_forward e m x)) (out m ix)) * sign (rat x ix))); [reflexivity|]. rewrite times_sign. f_equal. f_equal.
      apply (pos_pow_exact e); [exact E|]. apply Rdiv_lt_0_compat; [apply Rabs_pos_lt, NZ, V|]. rewrite Q by reflexivity. apply Rpower_pos.
    + intros h Hh o V. specialize (PS o V). eapply d_ext; [intros t; symmetry; apply (Q (moved x h t) eq_refl o)|].
      eapply d_val; [|apply (d_comp (fun t => rsum (map (fun ix => pos_pow e (rat (moved x h t) ix * sign (rat (moved x h t) ix))) (members m (rshape x) o))) (fun S => Rpower S (1 / p)) 0 (rsum (map (fun ix => p * Rpower (Rabs (rat x ix)) (p - 1) * sign (rat x ix) * rat h ix) (members m (rshape x) o))) (1 / p * Rpower (rsum (map (fun ix => Rpower (Rabs (rat x ix)) p) (members m (rshape x) o))) (1 / p - 1)))].
      * rewrite <- rs_scale. apply rs_ext. intros ix I. destruct (members_valid m _ o ix F V I) as [VI OI]. rewrite OI, Q, EQ by (reflexivity || assumption). set (S := rsum (map (fun ix0 => Rpower (Rabs (rat x ix0)) p) (members m (rshape x) o))) in *.
        change (Rabs (rat x ix) / Rpower S (1 / p)) with (Rabs (rat x ix) * / Rpower S (1 / p)). rewrite <- Rpower_mult_distr; [|apply Rabs_pos_lt, NZ, VI|apply Rinv_0_lt_compat, Rpower_pos]. rewrite <- Rpower_Ropp, !Rpower_mult. replace (- (1 / p) * (p - 1)) with (1 / p - 1) by (field; lra). field. lra.
      * apply (d_sum _ (fun ix t => pos_pow e (rat (moved x h t) ix * sign (rat (moved x h t) ix)))). intros ix I. destruct (members_valid m _ o ix F V I) as [VI _]. apply (d_comp (fun t => rat (moved x h t) ix) (fun v => pos_pow e (v * sign v))); [apply d_line|]. rewrite moved_0. apply d_pos_pow; [exact E|apply NZ, VI].
      * rewrite (rs_ext _ (fun ix => pos_pow e (rat x ix * sign (rat x ix)))) by (intros; now rewrite moved_0). rewrite EQ by exact V. apply derivable_pt_lim_power, PS.
Qed.
(** C68: for other whole exponents it is not a norm: the 5-norm of a single number v > 0 other than 1 is not v. *)
Lemma k_C68_norm5_refuted v : 0 < v -> v <> 1 -> rat (snd (normp_forward (Whole 5) All (scalar v))) [] <> v.
Proof.
  intros P N. assert (E : rat (snd (normp_forward (Whole 5) All (scalar v))) [] = Rpower (Rpower v 6) (1 / 5)).
  { cbn [normp_forward snd rreduce rmap rat scalar rshape members indices map exp_value pos_pow]. unfold rsum. cbn [fold_right]. rewrite Rplus_0_r, times_sign, Rabs_right, powi_effective by lra. change (effectiveZ 5) with 6%Z. rewrite powerRZ_Rpower by exact P. unfold Rpower. f_equal. apply Rmult_comm. }
  rewrite E, Rpower_mult. intros Q. assert (L := f_equal ln Q). unfold Rpower in L. rewrite ln_exp in L. assert (ln v = 0) by lra. apply N. rewrite <- (exp_ln v P), H. apply exp_0.
Qed.
(** Norms along a dimension that is not kept. *)
Lemma bshape_rev_app a : forall b, bshape_rev (a ++ b) a = Some (a ++ b).
Proof. induction a as [|n a IH]; intros b; [cbn; now destruct b|]. cbn [app bshape_rev]. now rewrite IH, Nat.eqb_refl. Qed.
Lemma bshape_rev_app' a : forall b, bshape_rev a (a ++ b) = Some (a ++ b).
Proof. induction a as [|n a IH]; intros b; [reflexivity|]. cbn [app bshape_rev]. now rewrite IH, Nat.eqb_refl. Qed.
Lemma bshape_tail n s : bshape (n :: s) s = Some (n :: s) /\ bshape s (n :: s) = Some (n :: s).
Proof. unfold bshape. cbn [rev]. rewrite bshape_rev_app, bshape_rev_app', rev_app_distr. cbn [rev app]. rewrite rev_involutive. split; reflexivity. Qed.
Lemma clamp_valid s : forall ix, valid s ix -> clamp s ix = ix.
Proof. induction s as [|n s IH]; intros [|i ix] V; cbn in *; try tauto. destruct V as [A V]. rewrite <- (IH ix V) at 2. unfold clamp. f_equal. destruct (Nat.eqb_spec n 1); lia. Qed.
Lemma bindex_valid s ix : valid s ix -> bindex s ix = ix.
Proof. intros V. unfold bindex. rewrite (valid_length _ _ V), Nat.sub_diag. now apply clamp_valid. Qed.
Lemma bindex_tail n s i ix : valid (n :: s) (i :: ix) -> bindex s (i :: ix) = ix.
Proof. intros [_ V]. unfold bindex. cbn [length]. rewrite (valid_length _ _ V). replace (S (length s) - length s)%nat with 1%nat by lia. cbn [skipn]. now apply clamp_valid. Qed.
Definition norm2_nokeep (saved : rtensor * rtensor * mode) (g : rtensor) : rtensor := match norm2_backward_nokeep saved g with Some d => d | None => mkR [] (fun _ => 0) end.
(** C68: without keepdim the gradient is exact along dimension 0. *)
Lemma k_C68_norm2_first x : rshape x <> [] -> (forall o, valid (result_size (Dim 0 false) (rshape x)) o -> 0 < squares (Dim 0 false) x o) ->
  (forall g, rshape g = result_size (Dim 0 false) (rshape x) -> norm2_backward_nokeep (fst (norm2_forward (Dim 0 false) x)) g <> None) /\
  differentiates (norm2_forward (Dim 0 false)) norm2_nokeep x.
Proof.
  intros NE POS. destruct (rshape x) as [|n s] eqn:S; [congruence|].
  assert (K : forall g, rshape g = s -> exists d, norm2_backward_nokeep (fst (norm2_forward (Dim 0 false) x)) g = Some d /\ rshape d = rshape x /\ forall ix, valid (rshape x) ix -> rat d ix = rat (norm2_backward (fst (norm2_forward (Dim 0 false) x)) g) ix).
  { intros g Hg. cbn [norm2_forward fst norm2_backward_nokeep]. unfold rbroadcast. cbn [rreduce rshape oshape rmap]. rewrite S. change (del 0 (n :: s)) with s. destruct (bshape_tail n s) as [-> _]. cbn [rshape]. rewrite Hg. destruct (bshape_tail n s) as [_ ->].
    eexists. split; [reflexivity|]. split; [reflexivity|]. intros [|i ix] V; [easy|]. cbn [rat]. rewrite (bindex_valid (n :: s) (i :: ix) V), (bindex_valid (n :: s) (i :: ix) V), (bindex_tail n s i ix V). reflexivity. }
  split.
  - intros g Hg. destruct (K g Hg) as [d [E _]]. now rewrite E.
  - assert (F : fits (Dim 0 false) (rshape x)) by (rewrite S; cbn; lia). rewrite <- S in POS. destruct (norm2_gen (Dim 0 false) x F POS) as [_ D]. intros g Hg. destruct (D g Hg) as [SB DB]. assert (Hg' : rshape g = s) by (rewrite Hg; cbn [norm2_forward snd rreduce rshape oshape rmap]; now rewrite S).
    destruct (K g Hg') as [d [E [SD VD]]]. unfold norm2_nokeep. rewrite E. split; [exact SD|]. intros h Hh. destruct (DB h Hh) as [A B]. split; [exact A|]. eapply d_val; [|exact B]. unfold rinner. rewrite SD, SB. apply rsums_ext. intros ix V. now rewrite VD.
Qed.
(** C68: along dimension 1 of a matrix (not kept) the backward pass raises unless the sizes broadcast... *)
Lemma k_C68_norm2_raises_refuted n k x g : rshape x = [n; k] -> rshape g = [n] -> n <> k -> n <> 1%nat -> k <> 1%nat -> norm2_backward_nokeep (fst (norm2_forward (Dim 1 false) x)) g = None.
Proof.
  intros S Hg N N1 K1. cbn [norm2_forward fst norm2_backward_nokeep]. unfold rbroadcast. cbn [rreduce rshape oshape rmap]. rewrite S. unfold bshape. cbn. destruct (Nat.eqb_spec k n); [congruence|]. destruct (Nat.eqb_spec k 1); [congruence|]. destruct (Nat.eqb_spec n 1); [congruence|reflexivity].
Qed.
(** C68: ... and for square matrices it returns a wrong gradient. *)
Lemma k_C68_norm2_square_refuted : exists x g h d l, rshape x = [2; 2]%nat /\ rshape g = [2]%nat /\ rshape h = [2; 2]%nat /\ entries (fun v => 0 < v) x /\
  norm2_backward_nokeep (fst (norm2_forward (Dim 1 false) x)) g = Some d /\ rshape d = rshape x /\
  derivable_pt_lim (fun t => rinner g (snd (norm2_forward (Dim 1 false) (moved x h t)))) 0 l /\ l <> rinner d h.
Proof.
  set (x := mkR [2; 2]%nat (fun ix => match ix with [O; O] => 3 | [O; _] => 4 | [_; O] => 6 | _ => 8 end)). set (g := mkR [2]%nat (fun ix => match ix with [O] => 1 | _ => 0 end)). set (h := mkR [2; 2]%nat (fun ix => match ix with [O; S O] => 1 | _ => 0 end)).
  assert (F : fits (Dim 1 false) (rshape x)) by (cbn; lia).
  assert (PV : entries (fun v => 0 < v) x). { intros ix V. destruct ix as [|[|[|i]] [|[|[|j]] [|? ?]]]; cbn in V; try lia; cbn; lra. }
  assert (POS : forall o, valid (result_size (Dim 1 false) (rshape x)) o -> 0 < squares (Dim 1 false) x o).
  { intros o V. unfold squares. rewrite total_members by (exact F || exact V). apply rs_pos; [|discriminate]. intros ix I. destruct (members_valid (Dim 1 false) _ o ix F V I) as [VI _]. apply Rsqr_pos_lt, Rgt_not_eq, (PV ix VI). }
  destruct (norm2_gen (Dim 1 false) x F POS) as [_ D]. destruct (D g eq_refl) as [SB DB]. destruct (DB h eq_refl) as [_ DD].
  eexists x, g, h, _, _. split; [reflexivity|]. split; [reflexivity|]. split; [reflexivity|]. split; [exact PV|]. split; [reflexivity|]. split; [reflexivity|]. split; [exact DD|].
  unfold rinner. unfold norm2_forward, norm2_backward, rsums, rsum, rreduce, rmul, rmap2, rmap, spread. cbn. unfold rsum. cbn. replace (3 * 3 + (4 * 4 + 0)) with (5 * 5) by ring. rewrite sqrt_square by lra. intros E. lra.
Qed.

(** *** Cosine similarity *)
Definition products (m : mode) (x y : rtensor) (o : index) : R := total m (rshape x) (fun ix => rat x ix * rat y ix) o.
Lemma d_inv_sqrt v : 0 < v -> derivable_pt_lim inv_sqrt v (- (inv_sqrt v * inv_sqrt v * inv_sqrt v) / 2).
Proof.
  intros P. unfold inv_sqrt. assert (Q := sqrt_lt_R0 v P). eapply d_val; [|apply (d_inv sqrt v (/ (2 * sqrt v))); [lra|apply d_root, P]]. field. lra.
Qed.
Lemma d_dot l x y h k : derivable_pt_lim (fun t => rsum (map (fun ix => rat (moved x h t) ix * rat (moved y k t) ix) l)) 0 (rsum (map (fun ix => rat y ix * rat h ix + rat x ix * rat k ix) l)).
Proof. apply (d_sum l (fun ix t => rat (moved x h t) ix * rat (moved y k t) ix)). intros ix _. eapply d_val; [|apply d_mult; apply d_line]. cbn [moved rat]. ring. Qed.
(** C68: the cosine similarity along a dimension of size other than 1 (counted from the front), where both norms are not zero. *)
Lemma k_C68_cosine d x y : (d < length (rshape x))%nat -> rshape y = rshape x ->
  (forall o, valid (result_size (Dim d false) (rshape x)) o -> 0 < squares (Dim d false) x o /\ 0 < squares (Dim d false) y o) ->
  gives (Dim d false) x (snd (cosine_forward d x y)) (fun o => products (Dim d false) x y o / (sqrt (squares (Dim d false) x o) * sqrt (squares (Dim d false) y o))) /\
  differentiates2 (cosine_forward d) cosine_backward x y.
Proof.
  intros F Hy POS. set (m := Dim d false) in *. change (fits m (rshape x)) in F.
  assert (POS' : forall o, valid (oshape m (rshape x)) o -> 0 < rsum (map (fun ix => Rsqr (rat x ix)) (members m (rshape x) o)) /\ 0 < rsum (map (fun ix => Rsqr (rat y ix)) (members m (rshape x) o))).
  { intros o V. destruct (POS o) as [A B]; [now rewrite result_oshape|]. unfold squares in A, B. rewrite Hy in B. rewrite total_members in A, B by assumption. split; assumption. }
  split.
  - split; [now rewrite result_oshape|]. intros o V. change (valid (oshape m (rshape x)) o) in V. unfold products, squares. rewrite Hy, !total_members by assumption. destruct (POS' o V) as [A B].
    cbn [cosine_forward snd rmul rmap2 dot inv_norm rreduce rat rmap rshape]. fold m. rewrite Hy. unfold inv_sqrt. field. split; apply Rgt_not_eq, sqrt_lt_R0; assumption.
  - set (nx := fun o => inv_sqrt (rsum (map (fun ix => Rsqr (rat x ix)) (members m (rshape x) o)))). set (ny := fun o => inv_sqrt (rsum (map (fun ix => Rsqr (rat y ix)) (members m (rshape x) o)))). set (dt := fun o => rsum (map (fun ix => rat x ix * rat y ix) (members m (rshape x) o))).
    apply (reduction_at2 _ _ m (fun ix => let o := out m ix in (rat y ix - dt o * (rat x ix * Rsqr (nx o))) * (nx o * ny o)) (fun ix => let o := out m ix in (rat x ix - dt o * (rat y ix * Rsqr (ny o))) * (nx o * ny o)) x y F Hy).
    + intros x' y' S _. cbn. now rewrite S.
    + intros g Hg. split; [exact Hy|]. split; [reflexivity|]. intros ix V. cbn [cosine_forward fst snd cosine_backward rmul rmap2 dot inv_norm rreduce rat rmap rshape spread]. fold m. rewrite Hy. fold (dt (out m ix)) (nx (out m ix)) (ny (out m ix)). cbv zeta. split; ring.
    + intros h k Hh Hk o V. destruct (POS' o V) as [A B]. set (l := members m (rshape x) o) in *.
      apply (d_ext (fun t => rsum (map (fun ix => rat (moved x h t) ix * rat (moved y k t) ix) l) * (inv_sqrt (rsum (map (fun ix => Rsqr (rat (moved x h t) ix)) l)) * inv_sqrt (rsum (map (fun ix => Rsqr (rat (moved y k t) ix)) l))))).
      { intros t. cbn [cosine_forward snd rmul rmap2 dot inv_norm rreduce rat rmap rshape moved]. fold m. rewrite Hy. reflexivity. }
      eapply d_val; [|apply d_mult; [apply d_dot|apply d_mult; (apply (d_comp (fun t => rsum (map (fun ix => Rsqr (rat (moved _ _ t) ix)) l)) inv_sqrt); [apply d_squares|rewrite squares_0; apply d_inv_sqrt; assumption])]].
      cbn beta. rewrite !squares_0. rewrite (rs_ext (fun ix => rat (moved x h 0) ix * rat (moved y k 0) ix) (fun ix => rat x ix * rat y ix)) by (intros; now rewrite !moved_0). fold (nx o) (ny o) (dt o).
      transitivity (rsum (map (fun ix => (nx o * ny o) * (rat y ix * rat h ix + rat x ix * rat k ix) - (dt o * nx o * nx o * (nx o * ny o) * (rat x ix * rat h ix) + dt o * ny o * ny o * (nx o * ny o) * (rat y ix * rat k ix))) l)).
      2: { apply rs_ext. intros ix I. cbv zeta. rewrite (proj2 (members_valid m _ o ix F V I)). unfold Rsqr. ring. }
      rewrite rs_minus, rs_plus, !rs_scale. rewrite (rs_ext (fun ix => 2 * rat x ix * rat h ix) (fun ix => 2 * (rat x ix * rat h ix))), (rs_ext (fun ix => 2 * rat y ix * rat k ix) (fun ix => 2 * (rat y ix * rat k ix))) by (intros; ring). rewrite !rs_scale. rewrite !rs_plus, !rs_scale. subst nx ny dt l. cbn beta. field.
Qed.
(** C68: ... along a dimension of size 1, where no entry is zero. *)
Lemma k_C68_cosine_size1 d x y : (d < length (rshape x))%nat -> rshape y = rshape x -> pos d (rshape x) = 1%nat -> entries (fun v => v <> 0) x -> entries (fun v => v <> 0) y ->
  gives (Dim d false) x (snd (cosine1_forward d x y)) (fun o => products (Dim d false) x y o / (sqrt (squares (Dim d false) x o) * sqrt (squares (Dim d false) y o))) /\
  differentiates2 (cosine1_forward d) (cosine1_backward d (rshape x)) x y.
Proof.
  intros F Hy S1 NX NY. set (m := Dim d false) in *. change (fits m (rshape x)) in F.
  assert (M : forall o, members m (rshape x) o = [ins d O o]) by (intros o; unfold m; cbn [members]; now rewrite S1).
  split.
  - split; [now rewrite result_oshape|]. intros o V. change (valid (oshape m (rshape x)) o) in V. unfold products, squares. rewrite Hy, !total_members, M by assumption. cbn [cosine1_forward snd rreduce rat rmap rmul rmap2 rshape]. fold m. rewrite M. cbn [map]. unfold rsum. cbn [fold_right]. rewrite !Rplus_0_r.
    assert (I : In (ins d O o) (members m (rshape x) o)) by (rewrite M; now left). destruct (members_valid m _ o _ F V I) as [VI _]. specialize (NX _ VI). assert (VY : valid (rshape y) (ins d O o)) by now rewrite Hy. specialize (NY _ VY).
    set (a := rat x (ins d O o)) in *. set (b := rat y (ins d O o)) in *. rewrite !sqrt_Rsqr_abs, <- Rabs_mult, <- times_sign. unfold sign. assert (a * b <> 0) by (now apply Rmult_integral_contrapositive_currified). destruct (Rlt_dec (a * b) 0); [rewrite ltz_neg by lra|rewrite ltz_pos by lra]; field; lra.
  - apply (reduction_at2 _ _ m (fun _ => 0) (fun _ => 0) x y F Hy).
    + intros x' y' S _. cbn. now rewrite S.
    + intros g Hg. split; [reflexivity|]. split; [reflexivity|]. intros ix V. cbn. split; ring.
    + intros h k Hh Hk o V. rewrite rs_zero by (intros; ring). apply (d_ext (fun t => rsum (map (fun ix => sign (rat (moved x h t) ix * rat (moved y k t) ix)) (members m (rshape x) o)))); [reflexivity|].
      eapply d_val; [|apply (d_sum _ (fun ix t => sign (rat (moved x h t) ix * rat (moved y k t) ix)) (fun _ => 0))]; [apply rs_zero; reflexivity|]. intros ix I. destruct (members_valid m _ o _ F V I) as [VI _]. assert (VY : valid (rshape y) ix) by now rewrite Hy.
      eapply d_val; [|apply (d_comp (fun t => rat (moved x h t) ix * rat (moved y k t) ix) sign); [apply d_mult; apply d_line|]]; [|rewrite !moved_0; apply d_sign; apply Rmult_integral_contrapositive_currified; [apply NX, VI|apply NY, VY]]. ring.
Qed.
(** C68: with dim = -1 (PyTorch: the last dimension) the result is wrong: for x = y = (1, 2) it is 5/4 instead of 1. *)
Lemma k_C68_cosine_negative_refuted : exists x y, rshape x = [2]%nat /\ rshape y = [2]%nat /\ products All x y [] / (sqrt (squares All x []) * sqrt (squares All y [])) = 1 /\ cosine_last_forward x y = 5 / 4.
Proof.
  set (x := mkR [2]%nat (fun ix => match ix with [O] => 1 | _ => 2 end)). exists x, x. split; [reflexivity|]. split; [reflexivity|]. split.
  - unfold products, squares, total, rsums, rsum. cbn. unfold Rsqr. replace (1 * 1 + (2 * 2 + 0)) with 5 by ring. rewrite sqrt_sqrt by lra. lra.
  - unfold cosine_last_forward, size, rsumn, rsum. cbn. unfold inv_sqrt, Rsqr. replace (1 * 1 + 1 * 1) with 2 by ring. replace (2 * 2 + 2 * 2) with (4 * 2) by ring. rewrite (sqrt_mult 4 2) by lra. replace 4 with (2 * 2) by ring. rewrite sqrt_square by lra. assert (P : 0 < sqrt 2) by (apply sqrt_lt_R0; lra).
    replace ((1 * 1 + (2 * 2 + 0)) * (/ sqrt 2 * (/ (2 * sqrt 2) * 1))) with (5 / (2 * (sqrt 2 * sqrt 2))) by (field; lra). rewrite sqrt_sqrt by lra. lra.
Qed.

(** C68: ... and of two vectors of two entries whose result is finite in both, it agrees with PyTorch only when they are orthogonal or entries on a diagonal have the same magnitude. *)
Lemma k_C68_cosine_negative x y : rshape x = [2]%nat -> rshape y = [2]%nat ->
  let a := rat x [0%nat] in let b := rat x [1%nat] in let c := rat y [0%nat] in let d := rat y [1%nat] in
  0 < a * a + b * b -> 0 < c * c + d * d -> 0 < a * a + c * c -> 0 < b * b + d * d ->
  (cosine_last_forward x y = products All x y [] / (sqrt (squares All x []) * sqrt (squares All y [])) <-> a * c + b * d = 0 \/ Rabs a = Rabs d \/ Rabs b = Rabs c).
Proof.
  intros Sx Sy a b c d P1 P2 P3 P4. unfold products, squares, total, rsums, rsum, cosine_last_forward, size, rsumn, rsum. rewrite Sx, Sy. cbn. fold a b c d. unfold inv_sqrt, Rsqr. rewrite !Rplus_0_r, Rmult_1_r.
  rewrite <- Rinv_mult, <- !sqrt_mult by lra. set (u := (a * a + c * c) * (b * b + d * d)). set (v := (a * a + b * b) * (c * c + d * d)).
  assert (U : 0 < u) by (apply Rmult_lt_0_compat; lra). assert (V : 0 < v) by (apply Rmult_lt_0_compat; lra).
  assert (D : u - v = (a * a - d * d) * (b * b - c * c)) by (unfold u, v; ring).
  assert (Ab : forall s t, s * s - t * t = 0 <-> Rabs s = Rabs t). { intros s t. split; [intros H; apply Rsqr_eq_abs_0; unfold Rsqr; lra|intros H; apply Rsqr_eq_asb_1 in H; unfold Rsqr in H; lra]. }
  rewrite <- !Ab. pose proof (sqrt_lt_R0 u U). pose proof (sqrt_lt_R0 v V). split.
  - intros H1. unfold Rdiv in H1. destruct (Req_dec (a * c + b * d) 0) as [Z|Z]; [now left|right]. apply Rmult_eq_reg_l in H1; [|exact Z]. apply (f_equal Rinv) in H1. rewrite !Rinv_inv in H1. apply sqrt_inj in H1; [|lra|lra]. apply Rmult_integral. lra.
  - intros [Z|Z]; [rewrite Z; unfold Rdiv; lra|]. assert (E : u = v). { destruct Z as [Z|Z]; rewrite Z in D; lra. } rewrite E. reflexivity.
Qed.

(** *** Batch normalisation *)
Definition per_channel (s : list nat) (w : rtensor) : Prop := rshape w = [nth 1 s O].
(** the output for given statistics *)
Definition normalised (eps : R) (mu v : index -> R) (x weight bias : rtensor) (ix : index) : R := let c := [nth 1 ix O] in (rat x ix - mu c) / sqrt (v c + eps) * rat weight c + rat bias c.
(** The backward pass differentiates in the input, the weight and the bias. *)
Definition differentiates3 {C} (forward : rtensor -> rtensor -> rtensor -> C * rtensor) (backward : C -> rtensor -> rtensor * rtensor * rtensor) (x w b : rtensor) : Prop :=
  forall g, rshape g = rshape (snd (forward x w b)) ->
    let d := backward (fst (forward x w b)) g in
    rshape (fst (fst d)) = rshape x /\ rshape (snd (fst d)) = rshape w /\ rshape (snd d) = rshape b /\
    forall h k j, rshape h = rshape x -> rshape k = rshape w -> rshape j = rshape b ->
      (forall t, rshape (snd (forward (moved x h t) (moved w k t) (moved b j t))) = rshape (snd (forward x w b))) /\
      derivable_pt_lim (fun t => rinner g (snd (forward (moved x h t) (moved w k t) (moved b j t)))) 0 (rinner (fst (fst d)) h + rinner (snd (fst d)) k + rinner (snd d) j).
Definition vr (l : list index) (x : rtensor) : R := rsum (map (fun ix => Rsqr (rat x ix - mu l x)) l) * / INR (length l).
Lemma bn_group (l : list index) (gw h dev : index -> R) inv : l <> [] -> let N := INR (length l) in
  rsum (map (fun ix => gw ix * ((h ix - rsum (map h l) / N) * inv + dev ix * (- (inv * inv * inv) / 2 * (/ N * rsum (map (fun j => 2 * dev j * h j) l))))) l) =
  rsum (map (fun ix => (gw ix * inv + rsum (map gw l) * (inv / - N) + dev ix * inv * rsum (map (fun j => dev j * inv * gw j) l) * (inv / - N)) * h ix) l).
Proof.
  intros NE N. assert (NN : N <> 0) by (apply not_0_INR; now destruct l). set (H := rsum (map h l)). set (G := rsum (map gw l)). set (DH := rsum (map (fun j => dev j * h j) l)). set (DG := rsum (map (fun j => dev j * gw j) l)). set (GH := rsum (map (fun j => gw j * h j) l)).
  rewrite (rs_ext (fun j => 2 * dev j * h j) (fun j => 2 * (dev j * h j))) by (intros; ring). rewrite rs_scale. fold DH.
  rewrite (rs_ext (fun j => dev j * inv * gw j) (fun j => inv * (dev j * gw j))) by (intros; ring). rewrite rs_scale. fold DG.
  transitivity (inv * GH - inv * H / N * G - inv * inv * inv / N * DH * DG).
  - unfold GH, G at 1, DG. rewrite <- !rs_scale, <- !rs_minus. apply rs_ext. intros ix _. field. exact NN.
  - unfold GH, H at 1, DH at 1. replace (inv * rsum (map (fun j => gw j * h j) l) - inv * rsum (map h l) / N * G - inv * inv * inv / N * rsum (map (fun j => dev j * h j) l) * DG) with (inv * rsum (map (fun j => gw j * h j) l) - (inv / N * G) * rsum (map h l) - (inv * inv * inv / N * DG) * rsum (map (fun j => dev j * h j) l)) by (field; exact NN).
    rewrite <- !rs_scale, <- !rs_minus. apply rs_ext. intros ix _. field. exact NN.
Qed.
Lemma channel_fits s : (1 < length s)%nat -> fits channel s. Proof. exact (fun H => H). Qed.
Lemma var_channel x o : fits channel (rshape x) -> valid (oshape channel (rshape x)) o -> members channel (rshape x) o <> [] -> rat (var channel true x) o = vr (members channel (rshape x) o) x.
Proof.
  intros F V N. pose proof (var_at channel true x o F V) as E. cbv zeta in E. rewrite E. unfold vr. f_equal. f_equal. destruct (Nat.leb_spec (length (members channel (rshape x) o)) 1) as [L|L]; [|reflexivity]. destruct (members channel (rshape x) o) as [|a [|b l]]; [congruence|reflexivity|cbn in L; lia].
Qed.
Lemma bn_train_at eps x w b ix : fits channel (rshape x) -> valid (rshape x) ix -> let l := members channel (rshape x) (out channel ix) in
  rat (snd (bn_train_forward eps x w b)) ix = (rat x ix - mu l x) * inv_sqrt (vr l x + eps) * rat w (out channel ix) + rat b (out channel ix).
Proof.
  intros F V l. destruct (out_valid channel _ ix F V) as [W I]. cbn [bn_train_forward moments snd]. unfold bn_norm, bn_output. cbn [rmap2 rmul rmap spread rat snd]. rewrite var_channel, mean_at by (try assumption; now apply members_ne). reflexivity.
Qed.
Lemma d_vr l x h : derivable_pt_lim (fun t => vr l (moved x h t)) 0 (/ INR (length l) * rsum (map (fun ix => 2 * (rat x ix - mu l x) * rat h ix) l)).
Proof. unfold vr. eapply d_ext; [intros t; apply Rmult_comm|]. apply d_scal, d_var. Qed.
Lemma vr_0 l x h : vr l (moved x h 0) = vr l x. Proof. unfold vr. rewrite mu_0. f_equal. apply rs_ext. intros. now rewrite moved_0. Qed.
(** C69: batch normalisation in training: the value, from the mean and the (biased) variance of each channel of the batch. *)
Lemma k_C69_train_value eps x w b ix : (1 < length (rshape x))%nat -> valid (rshape x) ix -> 0 < deviation (Except 1) x [nth 1 ix O] / count (Except 1) x [nth 1 ix O] + eps ->
  rshape (snd (bn_train_forward eps x w b)) = rshape x /\
  rat (snd (bn_train_forward eps x w b)) ix = normalised eps (average (Except 1) x) (fun c => deviation (Except 1) x c / count (Except 1) x c) x w b ix.
Proof.
  intros F V P. split; [reflexivity|]. destruct (out_valid channel _ ix F V) as [W I]. pose proof (bn_train_at eps x w b ix F V) as E. cbv zeta in E. rewrite E. unfold normalised. change [nth 1 ix O] with (out channel ix) in *. fold channel in *.
  rewrite average_members, deviation_members, count_members in * by assumption. unfold inv_sqrt, vr, mu. reflexivity.
Qed.
(** C69: ... and the gradients for the input, the weight and the bias, including the terms through mean and variance. *)
Lemma k_C69_train eps x w b : (1 < length (rshape x))%nat -> per_channel (rshape x) w -> per_channel (rshape x) b ->
  (forall ix, valid (rshape x) ix -> 0 < deviation (Except 1) x [nth 1 ix O] / count (Except 1) x [nth 1 ix O] + eps) ->
  differentiates3 (bn_train_forward eps) (bn_backward true) x w b.
Proof.
  intros F Hw Hb POS. change (fits channel (rshape x)) in F. set (mem := members channel (rshape x)). set (s := rshape x) in *.
  assert (PV : forall ix, valid s ix -> 0 < vr (mem (out channel ix)) x + eps).
  { intros ix V. specialize (POS ix V). destruct (out_valid channel s ix F V) as [W _]. change [nth 1 ix O] with (out channel ix) in POS. fold channel in POS. rewrite deviation_members, count_members in POS by assumption. exact POS. }
  intros g Hg. change (rshape g = s) in Hg. set (inv := fun o => inv_sqrt (vr (mem o) x + eps)). set (xn := fun ix => (rat x ix - mu (mem (out channel ix)) x) * inv (out channel ix)).
  set (N := INR (product (del 1 s))).
  assert (NL : forall o, INR (length (mem o)) = N) by (intros o; unfold mem; rewrite members_length by exact F; reflexivity).
  assert (XN : forall ix, valid s ix -> rat (fst (fst (fst (bn_train_forward eps x w b)))) ix = xn ix).
  { intros ix V. destruct (out_valid channel s ix F V) as [W I]. cbn [bn_train_forward moments fst]. unfold bn_norm. cbn [rmap2 rmul rmap spread rat fst snd]. rewrite var_channel, mean_at by (try assumption; now apply members_ne). reflexivity. }
  assert (INV : forall ix, valid s ix -> rat (snd (fst (bn_train_forward eps x w b))) (out channel ix) = inv (out channel ix)).
  { intros ix V. destruct (out_valid channel s ix F V) as [W I]. cbn [bn_train_forward moments fst snd]. unfold bn_norm. cbn [rmap fst snd rat]. rewrite var_channel by (try assumption; now apply members_ne). reflexivity. }
  assert (Wt : snd (fst (fst (bn_train_forward eps x w b))) = w) by reflexivity. assert (SX : rshape (fst (fst (fst (bn_train_forward eps x w b)))) = s) by reflexivity.
  destruct (fst (bn_train_forward eps x w b)) as [[xt wt] it] eqn:EQ. cbn [fst snd] in XN, INV, Wt, SX. subst wt. cbv zeta.
  split; [exact Hg|]. split; [cbn [bn_backward fst snd rreduce rshape rmul rmap2]; rewrite Hg; symmetry; exact Hw|]. split; [cbn [bn_backward fst snd rreduce rshape]; rewrite Hg; symmetry; exact Hb|].
  intros h k j Hh Hk Hj. split; [reflexivity|].
  (* the three inner products as one sum *)
  set (gw := fun ix => rat g ix * rat w (out channel ix)).
  set (dx := fun o ix => gw ix * inv o + rsum (map gw (mem o)) * (inv o / - N) + (rat x ix - mu (mem o) x) * inv o * rsum (map (fun jx => (rat x jx - mu (mem o) x) * inv o * gw jx) (mem o)) * (inv o / - N)).
  assert (DX : forall ix, valid s ix -> rat (fst (fst (bn_backward true (xt, w, it) g))) ix = dx (out channel ix) ix).
  { intros ix V. destruct (out_valid channel s ix F V) as [W I]. unfold bn_backward. cbn [fst snd rmap2 rmul rmap spread rat rreduce rshape]. rewrite Hg, SX. fold mem. rewrite XN, INV by exact V. fold N. unfold dx, xn.
    rewrite (rs_ext (fun jx => rat xt jx * (rat g jx * rat w (out channel jx))) (fun jx => (rat x jx - mu (mem (out channel ix)) x) * inv (out channel ix) * gw jx)); [reflexivity|].
    intros jx J. destruct (members_valid channel s _ jx F W J) as [VJ OJ]. rewrite XN by exact VJ. unfold xn, gw. rewrite OJ. reflexivity. }
  assert (RHS : rinner (fst (fst (bn_backward true (xt, w, it) g))) h + rinner (snd (fst (bn_backward true (xt, w, it) g))) k + rinner (snd (bn_backward true (xt, w, it) g)) j =
    rsums s (fun ix => dx (out channel ix) ix * rat h ix) + rsums s (fun ix => rat g ix * xn ix * rat k (out channel ix)) + rsums s (fun ix => rat g ix * rat j (out channel ix))).
  { f_equal; [f_equal|].
    - unfold rinner. change (rshape (fst (fst (bn_backward true (xt, w, it) g)))) with (rshape g). rewrite Hg. apply rsums_ext. intros ix V. now rewrite DX.
    - unfold rinner, bn_backward. cbn [fst snd rreduce rshape rmul rmap2 rat]. rewrite Hg. rewrite <- (exchange channel s (fun o ix => rat g ix * xn ix * rat k o) F). apply rsums_ext. intros o V. rewrite Rmult_comm, <- rs_scale. apply rs_ext. intros ix I. destruct (members_valid channel s o ix F V I) as [VI _]. rewrite XN by exact VI. ring.
    - unfold rinner, bn_backward. cbn [fst snd rreduce rshape rmul rmap2 rat]. rewrite Hg. rewrite <- (exchange channel s (fun o ix => rat g ix * rat j o) F). apply rsums_ext. intros o V. rewrite Rmult_comm, <- rs_scale. apply rs_ext. intros ix I. ring. }
  rewrite RHS. clear RHS DX.
  (* the sum over the batch, entry by entry *)
  set (xd := fun ix => let o := out channel ix in (rat h ix - rsum (map (rat h) (mem o)) / N) * inv o + (rat x ix - mu (mem o) x) * (- (inv o * inv o * inv o) / 2 * (/ N * rsum (map (fun jx => 2 * (rat x jx - mu (mem o) x) * rat h jx) (mem o))))).
  unfold rinner. rewrite Hg. eapply d_ext; [intros t; symmetry; apply rsums_ext; intros ix V; rewrite (bn_train_at eps (moved x h t) (moved w k t) (moved b j t) ix F V); reflexivity|].
  cbn beta. change (rshape (moved x h ?t)) with s. eapply d_val; [|apply (d_rsums s (fun ix t => rat g ix * ((rat (moved x h t) ix - mu (mem (out channel ix)) (moved x h t)) * inv_sqrt (vr (mem (out channel ix)) (moved x h t) + eps) * rat (moved w k t) (out channel ix) + rat (moved b j t) (out channel ix)))
    (fun ix => rat g ix * (xd ix * rat w (out channel ix) + xn ix * rat k (out channel ix) + rat j (out channel ix))))].
  - rewrite (rsums_ext s _ (fun ix => gw ix * xd ix + rat g ix * xn ix * rat k (out channel ix) + rat g ix * rat j (out channel ix))) by (intros; unfold gw; ring). rewrite !rsums_plus. f_equal. f_equal.
    rewrite <- (exchange channel s (fun o ix => dx o ix * rat h ix) F). unfold xd. cbv zeta. rewrite <- (exchange channel s (fun o ix => gw ix * ((rat h ix - rsum (map (rat h) (mem o)) / N) * inv o + (rat x ix - mu (mem o) x) * (- (inv o * inv o * inv o) / 2 * (/ N * rsum (map (fun jx => 2 * (rat x jx - mu (mem o) x) * rat h jx) (mem o)))))) F).
    apply rsums_ext. intros o V. fold mem. destruct (mem o) as [|a l] eqn:M; [reflexivity|]. rewrite <- M. rewrite <- (NL o). pose proof (bn_group (mem o) gw (rat h) (fun ix => rat x ix - mu (mem o) x) (inv o)) as B. cbv zeta in B. rewrite B by (rewrite M; discriminate). unfold dx. rewrite <- (NL o). reflexivity.
  - intros ix V. apply d_scal. eapply d_val; [|apply d_plus; [apply d_mult; [apply d_mult; [apply d_dev|apply (d_comp (fun t => vr (mem (out channel ix)) (moved x h t) + eps) inv_sqrt); [apply d_plus; [apply d_vr|apply d_const]|rewrite vr_0; apply d_inv_sqrt, PV, V]]|apply d_line]|apply d_line]].
    cbn beta. rewrite vr_0, mu_0, moved_0. fold (inv (out channel ix)). unfold xd, xn. rewrite !NL. unfold mu at 1. rewrite NL. cbn [moved rat]. ring.
Qed.
(** C69: in evaluation mode the running statistics take the place of those of the batch, and the gradients are exact with these held constant. *)
Lemma k_C69_eval eps mean variance x w b : (1 < length (rshape x))%nat -> per_channel (rshape x) w -> per_channel (rshape x) b ->
  (forall ix, valid (rshape x) ix -> rat (snd (bn_eval_forward eps mean variance x w b)) ix = normalised eps (rat mean) (rat variance) x w b ix) /\
  differentiates3 (bn_eval_forward eps mean variance) (bn_backward false) x w b.
Proof.
  intros F Hw Hb. change (fits channel (rshape x)) in F. split; [reflexivity|]. intros g Hg. change (rshape g = rshape x) in Hg. set (s := rshape x) in *. cbv zeta.
  split; [exact Hg|]. split; [cbn [bn_backward bn_eval_forward bn_norm fst snd rreduce rshape rmul rmap2]; rewrite Hg; symmetry; exact Hw|]. split; [cbn [bn_backward bn_eval_forward bn_norm fst snd rreduce rshape]; rewrite Hg; symmetry; exact Hb|].
  intros h k j Hh Hk Hj. split; [reflexivity|]. set (inv := fun ix => inv_sqrt (rat variance (out channel ix) + eps)). set (xn := fun ix => (rat x ix - rat mean (out channel ix)) * inv ix).
  unfold rinner. change (rshape (fst (fst (bn_backward false (fst (bn_eval_forward eps mean variance x w b)) g)))) with (rshape g).
  eapply d_val; [|apply (d_ext (fun t => rsums (rshape g) (fun ix => rat g ix * ((rat (moved x h t) ix - rat mean (out channel ix)) * inv ix * rat (moved w k t) (out channel ix) + rat (moved b j t) (out channel ix)))));
    [reflexivity|apply (d_rsums (rshape g) (fun ix t => rat g ix * ((rat (moved x h t) ix - rat mean (out channel ix)) * inv ix * rat (moved w k t) (out channel ix) + rat (moved b j t) (out channel ix)))
      (fun ix => rat g ix * rat w (out channel ix) * inv ix * rat h ix + rat g ix * xn ix * rat k (out channel ix) + rat g ix * rat j (out channel ix)))]].
  - rewrite !rsums_plus. apply (f_equal2 Rplus); [apply (f_equal2 Rplus)|].
    + apply rsums_ext. intros ix V. reflexivity.
    + rewrite Hg, <- (exchange channel s (fun o ix => rat g ix * xn ix * rat k o) F). cbn [bn_backward bn_eval_forward bn_norm fst snd rreduce rshape rmul rmap2 rat]. rewrite Hg. apply rsums_ext. intros o V. rewrite (Rmult_comm _ (rat k o)), <- rs_scale. apply rs_ext. intros ix I. destruct (members_valid channel s o ix F V I) as [VI OI]. cbn [spread rmap rat]. unfold xn, inv. rewrite OI. ring.
    + rewrite Hg, <- (exchange channel s (fun o ix => rat g ix * rat j o) F). cbn [bn_backward bn_eval_forward bn_norm fst snd rreduce rshape rmul rmap2 rat]. rewrite Hg. apply rsums_ext. intros o V. rewrite (Rmult_comm _ (rat j o)), <- rs_scale. apply rs_ext. intros ix I. ring.
  - intros ix V. eapply d_val; [|apply d_scal, d_plus; [apply d_mult; [eapply d_ext; [intros t; apply Rmult_comm|apply d_scal, d_minus; [apply d_line|apply d_const]]|apply d_line]|apply d_line]]. cbn [moved rat]. unfold xn. ring.
Qed.
(** C69: the running statistics move by momentum towards those of the batch; the variance is the biased one. *)
Lemma k_C69_running momentum x r o : (1 < length (rshape x))%nat -> rshape r = [nth 1 (rshape x) O] -> valid (rshape r) o ->
  rat (bn_running momentum r (fst (moments x))) o = (1 - momentum) * rat r o + momentum * average (Except 1) x o /\
  rat (bn_running momentum r (snd (moments x))) o = (1 - momentum) * rat r o + momentum * (deviation (Except 1) x o / count (Except 1) x o).
Proof.
  intros F Hr V. rewrite Hr in V. cbn [moments fst snd bn_running rmap2 rat]. unfold channel. rewrite (proj2 (k_C68_mean_value (Except 1) x F) o V), (proj2 (k_C68_var_true (Except 1) x F) o V). split; ring.
Qed.
(** C69: PyTorch uses the unbiased variance there; the results differ whenever the entries of a channel do. *)
Lemma k_C69_running_refuted momentum x r o : (1 < length (rshape x))%nat -> rshape r = [nth 1 (rshape x) O] -> valid (rshape r) o -> momentum <> 0 -> 2 <= count (Except 1) x o -> deviation (Except 1) x o <> 0 ->
  rat (bn_running momentum r (snd (moments x))) o <> (1 - momentum) * rat r o + momentum * (deviation (Except 1) x o / (count (Except 1) x o - 1)).
Proof.
  intros F Hr V M N D E. rewrite (proj2 (k_C69_running momentum x r o F Hr V)) in E. rewrite Hr in V. apply (proj1 (k_C68_var_refuted (Except 1) x o F V N D)). rewrite (proj2 (k_C68_var_true (Except 1) x F) o V). apply (Rmult_eq_reg_l momentum); [lra|exact M].
Qed.

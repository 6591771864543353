(** Lemmas about groups of entries (Realred.v). *)
Require Import List Reals ZArith Arith Bool Lia Lra Permutation FunctionalExtensionality.
From Verif Require Import Ring64 Tensor Tensor_proofs Rtensor Rtensor_proofs Realgrad Realgrad_claims Realloss Realloss_claims Realred.
Import ListNotations.
Open Scope R_scope.

Lemma rs_perm a b : Permutation a b -> rsum a = rsum b. Proof. unfold rsum. induction 1; cbn [fold_right]; lra. Qed.
Lemma rs_one {A} (f : A -> R) l a : NoDup l -> In a l -> (forall x, In x l -> x <> a -> f x = 0) -> rsum (map f l) = f a.
Proof.
  induction l as [|x l IH]; [easy|]. intros N I Z. inversion N as [|? ? Nx Nl]; subst. change (f x + rsum (map f l) = f a). destruct I as [->|I].
  - rewrite (rs_zero f l); [lra|]. intros y Iy. apply Z; [now right|]. intros ->. contradiction.
  - rewrite IH; [|assumption|exact I|intros y Iy; apply Z; now right]. rewrite (Z x); [lra|now left|]. intros ->. contradiction.
Qed.
Lemma rsums_one s jx f : valid s jx -> (forall ix, valid s ix -> ix <> jx -> f ix = 0) -> rsums s f = f jx.
Proof. intros V H. apply (rs_one f); [apply NoDup_indices|now apply in_indices|]. intros ix I. apply in_indices in I. auto. Qed.
Lemma NoDup_flat {A B} (h : A -> list B) (k : B -> A) l : NoDup l -> (forall a, In a l -> NoDup (h a) /\ forall b, In b (h a) -> k b = a) -> NoDup (flat_map h l).
Proof.
  induction l as [|a l IH]; intros N H; [constructor|]. inversion N as [|? ? Na Nl]; subst. cbn [flat_map]. apply NoDup_app'.
  - apply H. now left.
  - apply IH; [exact Nl|]. intros b I. apply H. now right.
  - intros x I J. apply in_flat_map in J as [b [Ib J]]. destruct (H a (or_introl eq_refl)) as [_ Ha]. destruct (H b (or_intror Ib)) as [_ Hb]. rewrite <- (Ha x I), (Hb x J) in Na. contradiction.
Qed.

Definition fits (m : mode) (s : list nat) : Prop := match m with All => True | Dim d _ | Except d => (d < length s)%nat end.
Lemma del_len_lt d (s : list nat) : (d < length s)%nat -> (d <= length (del d s))%nat. Proof. intros H. rewrite del_length; lia. Qed.
Lemma valid_kept d s o : (d < length s)%nat -> valid (upd d 1%nat s) o -> length o = length s /\ pos d o = O /\ forall i, (i < pos d s)%nat -> valid s (upd d i o).
Proof.
  intros H V. pose proof (proj1 (valid_pos _ _) V) as [L P]. rewrite upd_length in L, P by exact H. split; [exact L|]. split.
  - specialize (P d H). rewrite pos_upd, Nat.eqb_refl in P by exact H. lia.
  - intros i I. apply valid_pos. rewrite upd_length by lia. split; [exact L|]. intros k K. rewrite pos_upd by lia. specialize (P k K). rewrite pos_upd in P by exact H. destruct (Nat.eqb_spec k d); [now subst|exact P].
Qed.
Lemma members_valid m s o ix : fits m s -> valid (oshape m s) o -> In ix (members m s o) -> valid s ix /\ out m ix = o.
Proof.
  destruct m as [|d [|]|d]; cbn [fits oshape members out]; intros F V I.
  - apply in_indices in I. destruct o; [split; [exact I|reflexivity]|easy].
  - apply in_map_iff in I as [i [<- I]]. apply in_seq in I. destruct (valid_kept d s o F V) as [L [P W]]. split; [apply W; lia|]. rewrite upd_upd by lia. rewrite <- P. apply upd_pos. lia.
  - apply in_map_iff in I as [i [<- I]]. apply in_seq in I. pose proof (valid_length _ _ V) as L. pose proof (del_len_lt d s F) as G. split.
    + rewrite <- (ins_del d s F) at 1. apply valid_ins; [exact G|exact V|lia].
    + apply del_ins. lia.
  - apply in_map_iff in I as [jx [<- I]]. apply in_indices in I. pose proof (valid_length _ _ I) as L. pose proof (del_len_lt d s F) as G. destruct o as [|c [|? ?]]; cbn in V; try tauto. cbn [pos nth]. split.
    + rewrite <- (ins_del d s F) at 1. apply valid_ins; [exact G|exact I|]. tauto.
    + rewrite pos_ins, Nat.eqb_refl by lia. reflexivity.
Qed.
Lemma out_valid m s ix : fits m s -> valid s ix -> valid (oshape m s) (out m ix) /\ In ix (members m s (out m ix)).
Proof.
  destruct m as [|d [|]|d]; cbn [fits oshape members out]; intros F V; pose proof (valid_length _ _ V) as L.
  - split; [exact I|now apply in_indices].
  - split.
    + apply valid_pos. rewrite !upd_length by lia. split; [exact L|]. intros k K. rewrite !pos_upd by lia. destruct (Nat.eqb_spec k d); [lia|]. now apply valid_at.
    + apply in_map_iff. exists (pos d ix). rewrite upd_upd, upd_pos by lia. split; [reflexivity|]. apply in_seq. pose proof (valid_at d s ix F V). lia.
  - split; [now apply valid_del|]. apply in_map_iff. exists (pos d ix). rewrite ins_del by lia. split; [reflexivity|]. apply in_seq. pose proof (valid_at d s ix F V). lia.
  - split; [cbn; split; [now apply valid_at|exact I]|]. apply in_map_iff. exists (del d ix). cbn [pos nth]. split; [apply ins_del; lia|]. apply in_indices. now apply valid_del.
Qed.
Lemma members_NoDup m s o : fits m s -> valid (oshape m s) o -> NoDup (members m s o).
Proof.
  destruct m as [|d [|]|d]; cbn [fits oshape members]; intros F V.
  - apply NoDup_indices.
  - destruct (valid_kept d s o F V) as [L _]. apply FinFun.Injective_map_NoDup; [|apply seq_NoDup]. intros i j E. apply (f_equal (pos d)) in E. now rewrite !pos_upd, !Nat.eqb_refl in E by lia.
  - pose proof (valid_length _ _ V) as L. pose proof (del_len_lt d s F) as G. apply FinFun.Injective_map_NoDup; [|apply seq_NoDup]. intros i j E. apply (f_equal (pos d)) in E. now rewrite !pos_ins, !Nat.eqb_refl in E by lia.
  - pose proof (del_len_lt d s F) as G. assert (N := NoDup_indices (del d s)). assert (A : forall jx, In jx (indices (del d s)) -> (d <= length jx)%nat) by (intros jx I; apply in_indices, valid_length in I; lia).
    induction (indices (del d s)) as [|jx l IH]; [constructor|]. cbn [map]. inversion N as [|? ? Nj Nl]; subst. constructor; [|apply IH; [exact Nl|intros; apply A; now right]].
    intros I. apply in_map_iff in I as [kx [E I]]. apply (f_equal (del d)) in E. rewrite !del_ins in E; [subst; contradiction|apply A; now left|apply A; now right].
Qed.
(** Summing over the groups is summing over all entries. *)
Lemma exchange m s (f : index -> index -> R) : fits m s -> rsums (oshape m s) (fun o => rsum (map (f o) (members m s o))) = rsums s (fun ix => f (out m ix) ix).
Proof.
  intros F. unfold rsums at 2. rewrite (rs_perm _ (map (fun ix => f (out m ix) ix) (flat_map (members m s) (indices (oshape m s))))).
  - rewrite rs_flat. apply rs_ext. intros o I. apply in_indices in I. apply rs_ext. intros ix J. now rewrite (proj2 (members_valid m s o ix F I J)).
  - apply Permutation_map, NoDup_Permutation; [apply NoDup_indices|apply (NoDup_flat _ (out m)); [apply NoDup_indices|]|].
    + intros o I. apply in_indices in I. split; [now apply members_NoDup|]. intros ix J. now apply (members_valid m s o).
    + intros ix. rewrite in_indices, in_flat_map. split.
      * intros V. destruct (out_valid m s ix F V) as [W J]. exists (out m ix). split; [now apply in_indices|exact J].
      * intros [o [I J]]. apply in_indices in I. now apply (members_valid m s o).
Qed.
Lemma group_sum m s o (f : index -> R) : fits m s -> valid (oshape m s) o -> rsum (map f (members m s o)) = rsums s (fun ix => if index_eqb (out m ix) o then f ix else 0).
Proof.
  intros F V. rewrite <- (exchange m s (fun o' ix => if index_eqb o' o then f ix else 0) F). rewrite (rsums_one _ o); [now rewrite index_eqb_refl|exact V|].
  intros o' _ N. apply rs_zero. intros ix _. destruct (index_eqb o' o) eqn:E; [|reflexivity]. now apply index_eqb_spec in E.
Qed.
Lemma product_del d : forall s, (d < length s)%nat -> product s = (pos d s * product (del d s))%nat.
Proof. unfold product. induction d as [|d IH]; intros [|n s] H; cbn in *; try lia. rewrite (IH s) by lia. change (firstn d s ++ match s with [] => [] | _ :: l => skipn d l end) with (del d s). unfold pos. lia. Qed.
Lemma product_upd d : forall s, (d < length s)%nat -> product (upd d 1%nat s) = product (del d s).
Proof. unfold product. induction d as [|d IH]; intros [|n s] H; cbn in *; try lia. apply (f_equal (Nat.mul n)). apply (IH s). lia. Qed.
Lemma valid_product s ix : valid s ix -> (0 < product s)%nat.
Proof. unfold product. revert ix. induction s as [|n s IH]; intros [|i ix] V; cbn in *; try tauto; [lia|]. destruct V as [A V]. specialize (IH ix V). nia. Qed.
Lemma members_length m s o : fits m s -> length (members m s o) = match m with All => product s | Dim d _ => pos d s | Except d => product (del d s) end.
Proof. destruct m as [|d [|]|d]; cbn [members]; intros F; rewrite ?map_length, ?seq_length, ?indices_length; reflexivity. Qed.
Lemma divisor_length m x o : fits m (rshape x) -> valid (oshape m (rshape x)) o -> divisor m x = length (members m (rshape x) o).
Proof.
  intros F V. rewrite members_length by exact F. unfold divisor, nelement. pose proof (valid_product _ _ V) as P. destruct m as [|d [|]|d]; cbn [fits oshape] in *.
  - now rewrite Nat.div_1_r.
  - rewrite product_upd in * by exact F. rewrite (product_del d) by exact F. apply Nat.div_mul. lia.
  - rewrite (product_del d) by exact F. apply Nat.div_mul. lia.
  - rewrite (product_del d) by exact F. unfold product at 2. cbn [fold_right]. rewrite Nat.mul_1_r, Nat.mul_comm. apply Nat.div_mul. unfold product in P. cbn in P. lia.
Qed.
Lemma members_ne m s ix : fits m s -> valid s ix -> members m s (out m ix) <> []. Proof. intros F V E. destruct (out_valid m s ix F V) as [_ I]. now rewrite E in I. Qed.
Lemma tensor_ext (x y : rtensor) : rshape x = rshape y -> (forall ix, rat x ix = rat y ix) -> x = y.
Proof. destruct x, y. cbn. intros -> E. f_equal. apply functional_extensionality, E. Qed.

(** *** The general lemmas for reductions *)
Lemma reduction_at {C} (forward : rtensor -> C * rtensor) backward m (D : index -> R) x : fits m (rshape x) ->
  (forall x', rshape x' = rshape x -> rshape (snd (forward x')) = oshape m (rshape x)) ->
  (forall g, rshape g = oshape m (rshape x) -> rshape (backward (fst (forward x)) g) = rshape x /\ forall ix, valid (rshape x) ix -> rat (backward (fst (forward x)) g) ix = rat g (out m ix) * D ix) ->
  (forall h, rshape h = rshape x -> forall o, valid (oshape m (rshape x)) o ->
     derivable_pt_lim (fun t => rat (snd (forward (moved x h t))) o) 0 (rsum (map (fun ix => D ix * rat h ix) (members m (rshape x) o)))) ->
  differentiates forward backward x.
Proof.
  intros F S B V g Hg. rewrite S in Hg by reflexivity. destruct (B g Hg) as [SB VB]. split; [exact SB|]. intros h Hh. split; [intros t; now rewrite !S|].
  unfold rinner. rewrite Hg, SB. eapply d_val; [|apply (d_rsums (oshape m (rshape x)) (fun o t => rat g o * rat (snd (forward (moved x h t))) o) (fun o => rat g o * rsum (map (fun ix => D ix * rat h ix) (members m (rshape x) o))))].
  - rewrite (rsums_ext (oshape m (rshape x)) _ (fun o => rsum (map (fun ix => rat g o * (D ix * rat h ix)) (members m (rshape x) o)))) by (intros; now rewrite rs_scale).
    rewrite (exchange m (rshape x) (fun o ix => rat g o * (D ix * rat h ix)) F). apply rsums_ext. intros ix W. rewrite VB by exact W. ring.
  - intros o W. apply d_scal. now apply V.
Qed.
Lemma reduction_at2 {C} (forward : rtensor -> rtensor -> C * rtensor) backward m (D E : index -> R) x y : fits m (rshape x) -> rshape y = rshape x ->
  (forall x' y', rshape x' = rshape x -> rshape y' = rshape x -> rshape (snd (forward x' y')) = oshape m (rshape x)) ->
  (forall g, rshape g = oshape m (rshape x) -> let d := backward (fst (forward x y)) g in
     rshape (fst d) = rshape x /\ rshape (snd d) = rshape x /\ forall ix, valid (rshape x) ix -> rat (fst d) ix = rat g (out m ix) * D ix /\ rat (snd d) ix = rat g (out m ix) * E ix) ->
  (forall h k, rshape h = rshape x -> rshape k = rshape x -> forall o, valid (oshape m (rshape x)) o ->
     derivable_pt_lim (fun t => rat (snd (forward (moved x h t) (moved y k t))) o) 0 (rsum (map (fun ix => D ix * rat h ix + E ix * rat k ix) (members m (rshape x) o)))) ->
  differentiates2 forward backward x y.
Proof.
  intros F Hy S B V g Hg. rewrite S in Hg by (reflexivity || exact Hy). destruct (B g Hg) as [SB [SC VB]]. cbv zeta. split; [exact SB|]. split; [congruence|]. intros h k Hh Hk. split; [intros t; rewrite !S by (reflexivity || exact Hy); reflexivity|].
  unfold rinner. rewrite Hg, SB, SC. rewrite <- rsums_plus. eapply d_val; [|apply (d_rsums (oshape m (rshape x)) (fun o t => rat g o * rat (snd (forward (moved x h t) (moved y k t))) o) (fun o => rat g o * rsum (map (fun ix => D ix * rat h ix + E ix * rat k ix) (members m (rshape x) o))))].
  - rewrite (rsums_ext (oshape m (rshape x)) _ (fun o => rsum (map (fun ix => rat g o * (D ix * rat h ix + E ix * rat k ix)) (members m (rshape x) o)))) by (intros; now rewrite rs_scale).
    rewrite (exchange m (rshape x) (fun o ix => rat g o * (D ix * rat h ix + E ix * rat k ix)) F). apply rsums_ext. intros ix W. destruct (VB ix W) as [-> ->]. ring.
  - intros o W. apply d_scal. apply V; [exact Hh|congruence|exact W].
Qed.
Lemma d_members (l : list index) x h : derivable_pt_lim (fun t => rsum (map (rat (moved x h t)) l)) 0 (rsum (map (rat h) l)).
Proof. apply (d_sum l (fun ix t => rat (moved x h t) ix)). intros ix _. apply d_line. Qed.

(** C63, continued: operations on a list of tensors (cat, stack). *)
Require Import List ZArith Bool Arith Lia.
From Verif Require Import Ring64 Tensor Tensor_proofs Gradfn Broadcast_claims Gradfn_claims Gradfn_claims2 Gradfn_claims3 Gradfn_claims4 Gradfn_claims5.
Import ListNotations.
Open Scope Z_scope.

Fixpoint inners (gs hs : list tensor) : Z := match gs, hs with g :: gs, h :: hs => inner g h + inners gs hs | _, _ => 0 end.
Fixpoint pluses (xs hs : list tensor) : list tensor := match xs, hs with x :: xs, h :: hs => plus x h :: pluses xs hs | _, _ => [] end.
Definition same_shapes (xs ys : list tensor) : Prop := map shape xs = map shape ys.
(** the gradient of an operation on a list: one tensor per input, of the shape of that input, giving the change of every weighted sum of the output *)
Definition gradients_of (fwd : list tensor -> option tensor) (bwd : list tensor -> tensor -> option (list tensor)) : Prop :=
  forall xs y, fwd xs = Some y -> forall g, shape g = shape y -> exists gs, bwd xs g = Some gs /\ same_shapes gs xs /\
  forall hs, same_shapes hs xs -> exists yh, fwd (pluses xs hs) = Some yh /\ shape yh = shape y /\ inner g yh = inner g y + inners gs hs.

Lemma pluses_shapes xs : forall hs, same_shapes hs xs -> map shape (pluses xs hs) = map shape xs.
Proof. induction xs as [|x xs IH]; intros [|h hs] H; try discriminate; [reflexivity|]. injection H as H1 H2. cbn. now rewrite IH. Qed.
Lemma sums_split_dim d n m s f : (d < length s)%nat -> sums (upd d (n + m) s) f = sums (upd d n s) f + sums (upd d m s) (fun ix => f (upd d (pos d ix + n)%nat ix)).
Proof.
  intros H. rewrite (sums_dim d (upd d (n + m) s)), (sums_dim d (upd d n s)), (sums_dim d (upd d m s)) by (rewrite upd_length; lia). rewrite !del_upd by exact H. rewrite !pos_upd, !Nat.eqb_refl, <- sums_plus by exact H. apply sums_ext. intros ix V. pose proof (valid_length _ _ V) as Lx. rewrite del_length in Lx by exact H. rewrite sumn_add. f_equal. apply sumn_ext. intros i _. rewrite pos_ins, Nat.eqb_refl, upd_ins by lia. f_equal. f_equal. lia.
Qed.
Definition total (d : nat) (xs : list tensor) : nat := fold_right Nat.add O (map (fun y => pos d (shape y)) xs).
Lemma cat_split d s G : (d < length s)%nat -> forall xs start gsh, (forall y, In y xs -> shape y = upd d (pos d (shape y)) s) -> length gsh = length s -> del d gsh = del d s ->
  sums (upd d (total d xs) s) (fun ix => G (upd d (pos d ix + start)%nat ix) * cat_at d xs ix) = inners (split_from d start (map (fun y => pos d (shape y)) xs) (mkT gsh G)) xs
  /\ map shape (split_from d start (map (fun y => pos d (shape y)) xs) (mkT gsh G)) = map shape xs.
Proof.
  intros Hd. induction xs as [|x xs IH]; intros start gsh Hs Lg Dg.
  - split; [|reflexivity]. cbn [inners map split_from]. apply sums_zero. intros ix _. cbn [cat_at]. ring.
  - set (n := pos d (shape x)). destruct (IH (start + n)%nat gsh) as [I1 I2]; [intros y Hy; apply Hs; now right|exact Lg|exact Dg|].
    assert (U : forall v, upd d v gsh = upd d v s). { intros v. rewrite !upd_as_ins by lia. now rewrite Dg. }
    cbn [map split_from inners]. fold n. split.
    + unfold total. cbn [map fold_right]. fold n. fold (total d xs). rewrite sums_split_dim by exact Hd. f_equal.
      * unfold inner. cbn [shape at_]. rewrite U. apply sums_ext. intros ix V. cbn [cat_at]. fold n. pose proof (valid_at d (upd d n s) ix ltac:(rewrite upd_length; lia) V) as B. rewrite pos_upd, Nat.eqb_refl in B by exact Hd. destruct (Nat.ltb_spec (pos d ix) n); [reflexivity|lia].
      * rewrite <- I1. apply sums_ext. intros ix V. pose proof (valid_length _ _ V) as Lx. rewrite upd_length in Lx by exact Hd. cbn [cat_at]. fold n. rewrite pos_upd, Nat.eqb_refl by lia. destruct (Nat.ltb_spec (pos d ix + n) n); [lia|]. rewrite !upd_upd by lia. replace (pos d ix + n - n)%nat with (pos d ix) by lia. rewrite (upd_pos d ix) by lia. replace (pos d ix + n + start)%nat with (pos d ix + (start + n))%nat by lia. reflexivity.
    + rewrite I2. f_equal. cbn [shape]. rewrite U. symmetry. apply Hs. now left.
Qed.
Lemma cat_at_plus d : forall xs hs ix, same_shapes hs xs -> cat_at d (pluses xs hs) ix = cat_at d xs ix + cat_at d hs ix.
Proof.
  induction xs as [|x xs IH]; intros [|h hs] ix H; try discriminate; [reflexivity|]. injection H as H1 H2. cbn [pluses cat_at]. change (shape (plus x h)) with (shape x). rewrite H1. destruct (Nat.ltb (pos d ix) (pos d (shape x))); [reflexivity|]. now apply IH.
Qed.
Lemma cat_shape_only d xs ys y : cat d xs = Some y -> map shape ys = map shape xs -> exists k, dimn d (rank y) = Some k /\ cat d ys = Some (mkT (shape y) (cat_at k ys)) /\ cat d xs = Some (mkT (shape y) (cat_at k xs)) /\ shape y = upd k (total k xs) (shape y)
  /\ (forall z, In z xs -> rank z = rank y /\ shape z = upd k (pos k (shape z)) (shape y)).
Proof.
  intros H E. destruct xs as [|x xs]; [discriminate|]. destruct ys as [|z ys]; [discriminate|]. cbn [cat] in *. injection E as E1 E2. destruct (dimn d (rank x)) as [k|] eqn:D; [|discriminate]. pose proof (dimn_lt _ _ _ D) as Lk. unfold rank in Lk.
  destruct (forallb (fun y => Nat.eqb (rank y) (rank x) && index_eqb (del k (shape y)) (del k (shape x))) (x :: xs)) eqn:C; [|discriminate]. injection H as <-. cbn [shape]. exists k.
  assert (R : rank z = rank x) by (unfold rank; now rewrite E1). assert (P : map (fun y => pos k (shape y)) (z :: ys) = map (fun y => pos k (shape y)) (x :: xs)).
  { rewrite <- (map_map shape (pos k) (z :: ys)), <- (map_map shape (pos k) (x :: xs)). cbn [map]. now rewrite E1, E2. }
  split; [unfold rank; cbn [shape]; rewrite upd_length by exact Lk; exact D|]. rewrite R, D. split; [|split; [reflexivity|split]].
  - replace (forallb (fun y => Nat.eqb (rank y) (rank x) && index_eqb (del k (shape y)) (del k (shape z))) (z :: ys)) with true.
    + rewrite P, E1. reflexivity.
    + symmetry. apply forallb_forall. intros w Hw. rewrite forallb_forall in C. assert (I : In (shape w) (map shape (x :: xs))) by (cbn [map]; rewrite <- E1, <- E2; apply (in_map shape (z :: ys)); exact Hw). apply in_map_iff in I as (w' & Ew & Hw'). specialize (C w' Hw'). unfold rank in *. rewrite <- Ew, E1. exact C.
  - unfold total. rewrite upd_upd by exact Lk. reflexivity.
  - intros w Hw. rewrite forallb_forall in C. specialize (C w Hw). apply andb_true_iff in C as [C1 C2]. apply Nat.eqb_eq in C1. apply index_eqb_spec in C2. unfold rank in *. cbn [shape]. rewrite upd_length by exact Lk. split; [exact C1|]. rewrite upd_upd by exact Lk. rewrite (upd_as_ins k _ (shape x)), <- C2, <- upd_as_ins by lia. symmetry. apply upd_pos. lia.
Qed.
Lemma k_cat d : gradients_of (cat d) (cat_backward d).
Proof.
  intros xs y Hy g Hg. destruct (cat_shape_only d xs xs y Hy eq_refl) as (k & D & _ & E & T & S). pose proof (dimn_lt _ _ _ D) as Lk. unfold rank in Lk.
  assert (All : all_some (map (fun x => option_map (fun k => pos k (shape x)) (dimn d (rank x))) xs) = Some (map (fun y => pos k (shape y)) xs)).
  { assert (A : forall l, (forall z, In z l -> rank z = rank y) -> all_some (map (fun x => option_map (fun k => pos k (shape x)) (dimn d (rank x))) l) = Some (map (fun y => pos k (shape y)) l)).
    { induction l as [|z l IHl]; intros Hl; [reflexivity|]. cbn [map all_some]. rewrite (Hl z) by now left. rewrite D. cbn [option_map]. rewrite IHl by (intros w Hw; apply Hl; now right). reflexivity. }
    apply A. intros z Hz. now apply S. }
  unfold cat_backward. rewrite All. cbn [bind]. unfold split. unfold rank. rewrite Hg. fold (rank y). rewrite D. fold (total k xs). replace (Nat.eqb (total k xs) (pos k (shape y))) with true by (symmetry; apply Nat.eqb_eq; rewrite T at 1; rewrite pos_upd, Nat.eqb_refl by exact Lk; reflexivity).
  destruct (cat_split k (shape y) (at_ g) Lk xs 0 (shape g)) as [A B]; [intros z Hz; now apply S|now rewrite Hg|now rewrite Hg|]. replace (mkT (shape g) (at_ g)) with g in * by now destruct g.
  eexists. split; [reflexivity|]. split; [exact B|]. intros hs Hh. destruct (cat_shape_only d xs (pluses xs hs) y Hy (pluses_shapes xs hs Hh)) as (k' & D' & E' & _). rewrite D in D'. injection D' as <-.
  eexists. split; [exact E'|]. split; [reflexivity|]. rewrite Hy in E. injection E as E.
  destruct (cat_split k (shape y) (at_ g) Lk hs 0 (shape g)) as [A' B'].
  { intros z Hz. assert (I : In (shape z) (map shape xs)) by (rewrite <- Hh; now apply in_map). apply in_map_iff in I as (w & Ew & Hw). destruct (S w Hw) as [_ Q]. rewrite <- Ew. exact Q. } { now rewrite Hg. } { now rewrite Hg. }
  replace (mkT (shape g) (at_ g)) with g in * by now destruct g.
  assert (P : map (fun y => pos k (shape y)) hs = map (fun y => pos k (shape y)) xs). { rewrite <- (map_map shape (pos k) hs), <- (map_map shape (pos k) xs). now rewrite Hh. }
  rewrite P in A'. rewrite <- A'. unfold total. rewrite P. fold (total k xs). rewrite <- T. unfold inner. rewrite Hg, <- sums_plus. apply sums_ext. intros ix V. cbn [at_]. rewrite E. cbn [at_]. rewrite cat_at_plus by exact Hh. pose proof (valid_length _ _ V) as Lx. rewrite Nat.add_0_r, upd_pos by lia. ring.
Qed.

Lemma inners_seq (H : nat -> tensor) x0 : forall xs a, inners (map H (seq a (length xs))) xs = sumn (length xs) (fun i => inner (H (a + i)%nat) (nth i xs x0)).
Proof.
  induction xs as [|x xs IH]; intros a; [reflexivity|]. cbn [length seq map inners]. rewrite sumn_head, IH. rewrite Nat.add_0_r. f_equal. apply sumn_ext. intros i _. cbn [nth]. do 2 f_equal. lia.
Qed.
Lemma nth_pluses i : forall xs hs a b, same_shapes hs xs -> (i < length xs)%nat -> nth i (pluses xs hs) a = plus (nth i xs b) (nth i hs b).
Proof. induction i as [|i IH]; intros [|x xs] [|h hs] a b H L; try discriminate; cbn in L; try lia; [reflexivity|]. injection H as H1 H2. cbn [nth pluses]. apply IH; [exact H2|lia]. Qed.
Lemma stack_shape_only d xs ys y : stack d xs = Some y -> map shape ys = map shape xs -> exists k s, dimn d (rank y) = Some k /\ (k <= length s)%nat /\ shape y = ins k (length xs) s /\ (forall z, In z xs -> shape z = s)
  /\ exists y', stack d ys = Some y' /\ shape y' = shape y /\ forall z0 ix, valid (shape y) ix -> at_ y' ix = at_ (nth (pos k ix) ys z0) (del k ix).
Proof.
  intros H E. destruct xs as [|x xs]; [discriminate|]. destruct ys as [|z ys]; [discriminate|]. cbn [stack] in *. assert (Ln : length (z :: ys) = length (x :: xs)) by (rewrite <- (map_length shape), E; apply map_length). injection E as E1 E2. destruct (dimn d (S (rank x))) as [k|] eqn:D; [|discriminate]. pose proof (dimn_lt _ _ _ D) as Lk. unfold rank in Lk.
  destruct (forallb (fun y => index_eqb (shape y) (shape x)) (x :: xs)) eqn:C; [|discriminate]. injection H as <-. cbn [shape]. exists k, (shape x). rewrite forallb_forall in C.
  split; [unfold rank; cbn [shape]; rewrite ins_length by lia; exact D|]. split; [lia|]. split; [reflexivity|]. split; [intros w Hw; apply index_eqb_spec; now apply C|].
  assert (R : rank z = rank x) by (unfold rank; now rewrite E1). rewrite R, D. replace (forallb (fun y => index_eqb (shape y) (shape z)) (z :: ys)) with true.
  - eexists. split; [reflexivity|]. rewrite Ln, E1. split; [reflexivity|]. intros z0 ix V. cbn [at_]. f_equal. apply nth_indep. rewrite Ln. pose proof (valid_at k (ins k (length (x :: xs)) (shape x)) ix ltac:(rewrite ins_length; lia) V) as B. rewrite pos_ins, Nat.eqb_refl in B by lia. exact B.
  - symmetry. apply forallb_forall. intros w Hw. assert (I : In (shape w) (map shape (x :: xs))) by (cbn [map]; rewrite <- E1, <- E2; apply (in_map shape (z :: ys)); exact Hw). apply in_map_iff in I as (w' & Ew & Hw'). rewrite <- Ew, E1. now apply C.
Qed.
Lemma k_stack d : gradients_of (stack d) (fun _ => stack_backward d).
Proof.
  intros xs y Hy g Hg. destruct (stack_shape_only d xs xs y Hy eq_refl) as (k & s & D & Lk & Sy & Ss & y1 & E1 & _ & A1). rewrite Hy in E1. injection E1 as <-.
  unfold stack_backward, unbind. unfold rank. rewrite Hg. fold (rank y). rewrite D, Sy. rewrite del_ins by lia. rewrite pos_ins, Nat.eqb_refl by lia. eexists. split; [reflexivity|]. split.
  - unfold same_shapes. rewrite map_map. cbn [shape]. clear - Ss. assert (G : forall a, map (fun _ : nat => s) (seq a (length xs)) = map shape xs). { induction xs as [|x xs IH]; intros a; [reflexivity|]. cbn [length seq map]. rewrite IH by (intros z Hz; apply Ss; now right). now rewrite (Ss x) by now left. } apply G.
  - intros hs Hh. destruct (stack_shape_only d xs (pluses xs hs) y Hy (pluses_shapes xs hs Hh)) as (k' & s' & D' & _ & Sy' & Ss' & yh & Eh & Sh & Ah). rewrite D in D'. injection D' as <-. exists yh. split; [exact Eh|]. split; [congruence|].
    assert (Lh : length hs = length xs) by (rewrite <- (map_length shape), Hh; apply map_length). rewrite <- Lh, (inners_seq _ y). rewrite Lh. unfold inner at 1 2. rewrite Hg.
    transitivity (sums (shape y) (fun ix => at_ g ix * at_ y ix) + sums (shape y) (fun ix => at_ g ix * at_ (nth (pos k ix) hs y) (del k ix))).
    + rewrite <- sums_plus. apply sums_ext. intros ix V. rewrite (Ah y ix V), (A1 y ix V). rewrite (nth_pluses _ xs hs y y Hh). { cbn [at_ plus]. ring. } pose proof (valid_at k (shape y) ix ltac:(rewrite Sy, ins_length; lia) V) as B. rewrite Sy, pos_ins, Nat.eqb_refl in B by lia. exact B.
    + f_equal. rewrite (sums_dim k) by (rewrite Sy, ins_length; lia). rewrite Sy, del_ins, pos_ins, Nat.eqb_refl by lia. rewrite sums_sumn. apply sumn_ext. intros i Hi. unfold inner. cbn [shape at_]. apply sums_ext. intros ix V. pose proof (valid_length _ _ V) as Lx. rewrite pos_ins, Nat.eqb_refl, del_ins by lia. reflexivity.
Qed.

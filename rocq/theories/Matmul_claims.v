(** C64: gradients of matrix products. *)
Require Import List ZArith Bool Arith Lia.
From Verif Require Import Ring64 Tensor Tensor_proofs Gradfn Broadcast_claims Gradfn_claims Gradfn_claims2 Gradfn_claims3 Gradfn_claims4 Gradfn_claims5 Matmul.
Import ListNotations.
Open Scope Z_scope.

(** *** Splitting off the last two dimensions *)
Lemma valid_app s t ix jx : length ix = length s -> valid (s ++ t) (ix ++ jx) <-> valid s ix /\ valid t jx.
Proof. revert ix. induction s as [|n s IH]; intros [|i ix] L; try discriminate; cbn [app valid]; [tauto|]. injection L as L. rewrite IH by exact L. tauto. Qed.
Lemma clamp_app s t a b : length a = length s -> clamp (s ++ t) (a ++ b) = clamp s a ++ clamp t b.
Proof. revert a. induction s as [|n s IH]; intros [|i a] L; try discriminate; [reflexivity|]. injection L as L. unfold clamp in *. cbn [app combine map fst snd]. now rewrite IH. Qed.
Lemma bindex_app s u a b : length b = length u -> (length s <= length a)%nat -> valid u b -> bindex (s ++ u) (a ++ b) = bindex s a ++ b.
Proof.
  intros L La V. unfold bindex. rewrite !app_length, skipn_app. replace (length a + length b - (length s + length u))%nat with (length a - length s)%nat by lia. replace (length a - length s - length a)%nat with O by lia. cbn [skipn]. rewrite clamp_app by (rewrite skipn_length; lia). now rewrite (clamp_valid u b V).
Qed.
Lemma broadcasts_app s t u : broadcasts s t -> broadcasts (s ++ u) (t ++ u).
Proof.
  intros [L H]. split; [rewrite !app_length; lia|]. rewrite !app_length. intros d Hd. unfold pos in *. destruct (Nat.ltb_spec d (length s)) as [A|A].
  - rewrite app_nth1 by exact A. rewrite app_nth1 by lia. replace (length t + length u - (length s + length u) + d)%nat with (length t - length s + d)%nat by lia. auto.
  - left. rewrite !app_nth2 by lia. f_equal. lia.
Qed.
Lemma nonempty_app s t u : (length s <= length t)%nat -> nonempty s t -> nonempty (s ++ u) (t ++ u).
Proof.
  intros L H d Hd E. rewrite !app_length in *. unfold nonempty, pos in *. destruct (Nat.ltb_spec d (length s)) as [A|A].
  - rewrite app_nth1 in E by exact A. rewrite app_nth1 by lia. replace (length t + length u - (length s + length u) + d)%nat with (length t - length s + d)%nat by lia. auto.
  - rewrite app_nth2 in E by lia. rewrite app_nth2 by lia. replace (length t + length u - (length s + length u) + d - length t)%nat with (d - length s)%nat by lia. lia.
Qed.
Lemma nonempty_refl s : nonempty s s.
Proof. intros d Hd E. replace (length s - length s + d)%nat with d by lia. lia. Qed.
Lemma sums2 n m f : sums [n; m] f = sumn n (fun i => sumn m (fun j => f [i; j])).
Proof. rewrite sums_cons. apply sumn_ext. intros i _. rewrite sums_cons. apply sumn_ext. intros j _. now rewrite sums_nil. Qed.
Lemma sums1 n f : sums [n] f = sumn n (fun i => f [i]).
Proof. rewrite sums_cons. apply sumn_ext. intros i _. now rewrite sums_nil. Qed.
Lemma sums_app2 t n m f : sums (t ++ [n; m]) f = sums t (fun b => sumn n (fun i => sumn m (fun j => f (b ++ [i; j])))).
Proof. rewrite sums_app. apply sums_ext. intros b _. apply sums2. Qed.
Definition transposed (s : list nat) (n m : nat) (x xt : tensor) : Prop := shape xt = s ++ [m; n] /\ forall b i j, length b = length s -> at_ xt (b ++ [j; i]) = at_ x (b ++ [i; j]).
Lemma pos_app1 d a b : (d < length a)%nat -> pos d (a ++ b) = pos d a. Proof. apply app_nth1. Qed.
Lemma pos_app2 d a b : (length a <= d)%nat -> pos d (a ++ b) = pos (d - length a) b. Proof. apply app_nth2. Qed.
Lemma transpose_last s n m x : shape x = s ++ [n; m] -> exists xt, transpose (-2) (-1) x = Some xt /\ transposed s n m x xt.
Proof.
  intros Hx. assert (R : rank x = S (S (length s))) by (unfold rank; rewrite Hx, app_length; cbn [length]; lia). unfold transpose. rewrite R.
  assert (D1 : dimn (-2) (S (S (length s))) = Some (length s)). { unfold dimn. destruct (Z.leb_spec 0 (-2)); [lia|]. destruct (Z.leb_spec (- Z.of_nat (S (S (length s)))) (-2)); [|lia]. cbn [andb]. destruct (Z.ltb_spec (-2) 0); [|lia]. f_equal. lia. }
  assert (D2 : dimn (-1) (S (S (length s))) = Some (S (length s))). { unfold dimn. destruct (Z.leb_spec 0 (-1)); [lia|]. destruct (Z.leb_spec (- Z.of_nat (S (S (length s)))) (-1)); [|lia]. cbn [andb]. destruct (Z.ltb_spec (-1) 0); [|lia]. f_equal. lia. }
  rewrite D1, D2. eexists. split; [reflexivity|].
  assert (Q : forall b (i j : nat), length b = length s -> tabulate (S (S (length s))) (fun k => pos (swapped (length s) (S (length s)) k) (b ++ [i; j])) = b ++ [j; i]).
  { intros b i j Lb. apply list_ext; [rewrite tab_length, app_length; cbn [length]; lia|]. rewrite tab_length. intros k Hk. rewrite pos_tab by exact Hk. unfold swapped. destruct (Nat.eqb_spec k (length s)) as [->|N]; [|destruct (Nat.eqb_spec k (S (length s))) as [->|M]].
    - rewrite !pos_app2 by lia. rewrite Lb. replace (S (length s) - length s)%nat with 1%nat by lia. now rewrite Nat.sub_diag.
    - rewrite !pos_app2 by lia. rewrite Lb. replace (S (length s) - length s)%nat with 1%nat by lia. now rewrite Nat.sub_diag.
    - now rewrite !pos_app1 by lia. }
  split; [cbn [shape]; rewrite Hx; now apply Q|]. intros b i j Lb. cbn [at_]. now rewrite Q.
Qed.
Lemma mm_closed bx by_ t n k m x y : shape x = bx ++ [n; k] -> shape y = by_ ++ [k; m] -> bshape bx by_ = Some t ->
  exists z, mm x y = Some z /\ shape z = t ++ [n; m] /\ forall b i j, length b = length t -> at_ z (b ++ [i; j]) = sumn k (fun l => at_ x (bindex bx b ++ [i; l]) * at_ y (bindex by_ b ++ [l; j])).
Proof.
  intros Hx Hy B. unfold mm. rewrite Hx, Hy, !rev_app_distr. cbn [rev app]. rewrite Nat.eqb_refl, !rev_involutive, B. cbn [bind]. eexists. split; [reflexivity|]. split; [reflexivity|]. intros b i j L. cbn [at_]. rewrite <- L, firstn_app, Nat.sub_diag, firstn_all. cbn [firstn]. rewrite app_nil_r. rewrite !pos_app2 by lia. rewrite Nat.sub_diag. replace (S (length b) - length b)%nat with 1%nat by lia. reflexivity.
Qed.
Lemma matmul_mm x y : (2 <= rank x)%nat -> (2 <= rank y)%nat -> matmul x y = mm x y.
Proof. intros A B. unfold matmul. destruct (Nat.eqb_spec (rank x) 0), (Nat.eqb_spec (rank y) 0), (Nat.eqb_spec (rank x) 1), (Nat.eqb_spec (rank y) 1); try lia. cbn [orb bind]. now destruct (mm x y). Qed.
Lemma rank_app2 x s (a b : nat) : shape x = s ++ [a; b] -> (2 <= rank x)%nat. Proof. intros H. unfold rank. rewrite H, app_length. cbn [length]. lia. Qed.

(** *** Two matrices, or batches of matrices *)
Section Batched.
  Variables (bx by_ t : list nat) (n k m : nat).
  Hypothesis (HB : bshape bx by_ = Some t).
  Lemma B1 : broadcasts bx t. Proof. exact (proj1 (bshape_ok _ _ _ HB)). Qed.
  Lemma B2 : broadcasts by_ t. Proof. exact (proj2 (bshape_ok _ _ _ HB)). Qed.
  (** both products of the backward function *)
  Lemma both_products x y g : shape x = bx ++ [n; k] -> shape y = by_ ++ [k; m] -> shape g = t ++ [n; m] ->
    exists gx gy, (do yt <- transpose (-2) (-1) y; matmul g yt) = Some gx /\ (do xt <- transpose (-2) (-1) x; matmul xt g) = Some gy /\ shape gx = t ++ [n; k] /\ shape gy = t ++ [k; m] /\
    (forall b i l, valid t b -> at_ gx (b ++ [i; l]) = sumn m (fun j => at_ g (b ++ [i; j]) * at_ y (bindex by_ b ++ [l; j]))) /\
    (forall b l j, valid t b -> at_ gy (b ++ [l; j]) = sumn n (fun i => at_ x (bindex bx b ++ [i; l]) * at_ g (b ++ [i; j]))).
  Proof.
    intros Hx Hy Hg. destruct (transpose_last _ _ _ _ Hx) as (xt & Ex & Sx & Ax). destruct (transpose_last _ _ _ _ Hy) as (yt & Ey & Sy & Ay). rewrite Ex, Ey. cbn [bind].
    rewrite !matmul_mm by (eapply rank_app2; eassumption).
    destruct (mm_closed t by_ t n m k g yt Hg Sy (proj2 (bshape_id _ _ B2))) as (gx & E1 & S1 & A1). destruct (mm_closed bx t t k n m xt g Sx Hg (proj1 (bshape_id _ _ B1))) as (gy & E2 & S2 & A2).
    exists gx, gy. repeat split; auto.
    - intros b i l V. pose proof (valid_length _ _ V) as L. rewrite A1 by exact L. apply sumn_ext. intros j _. rewrite bindex_id by exact V. rewrite Ay; [reflexivity|]. unfold bindex. rewrite clamp_length; [reflexivity|]. rewrite skipn_length. destruct B2. lia.
    - intros b l j V. pose proof (valid_length _ _ V) as L. rewrite A2 by exact L. apply sumn_ext. intros i _. rewrite (bindex_id t b) by exact V. rewrite Ax; [reflexivity|]. unfold bindex. rewrite clamp_length; [reflexivity|]. rewrite skipn_length. destruct B1. lia.
  Qed.
  Definition product_at (f h : index -> Z) (b : index) (i j : nat) : Z := sumn k (fun l => f (bindex bx b ++ [i; l]) * h (bindex by_ b ++ [l; j])).
  Lemma left_adjoint (g f h : index -> Z) (gx : index -> Z) : (forall b i l, valid t b -> gx (b ++ [i; l]) = sumn m (fun j => g (b ++ [i; j]) * h (bindex by_ b ++ [l; j]))) ->
    sums t (fun b => sumn n (fun i => sumn m (fun j => g (b ++ [i; j]) * product_at f h b i j))) = sums (t ++ [n; k]) (fun ix => gx ix * f (bindex (bx ++ [n; k]) ix)).
  Proof.
    intros A. rewrite sums_app2. apply sums_ext. intros b V. apply sumn_ext. intros i Hi. transitivity (sumn m (fun j => sumn k (fun l => g (b ++ [i; j]) * h (bindex by_ b ++ [l; j]) * f (bindex bx b ++ [i; l])))).
    - apply sumn_ext. intros j _. unfold product_at. rewrite <- sumn_scale. apply sumn_ext. intros l _. ring.
    - rewrite sumn_swap. apply sumn_ext. intros l Hl. rewrite A by exact V. rewrite bindex_app; [now rewrite sumn_scale_r|reflexivity| |cbn; auto]. rewrite (valid_length _ _ V). apply B1.
  Qed.
  Lemma right_adjoint (g f h : index -> Z) (gy : index -> Z) : (forall b l j, valid t b -> gy (b ++ [l; j]) = sumn n (fun i => f (bindex bx b ++ [i; l]) * g (b ++ [i; j]))) ->
    sums t (fun b => sumn n (fun i => sumn m (fun j => g (b ++ [i; j]) * product_at f h b i j))) = sums (t ++ [k; m]) (fun ix => gy ix * h (bindex (by_ ++ [k; m]) ix)).
  Proof.
    intros A. rewrite sums_app2. apply sums_ext. intros b V. transitivity (sumn k (fun l => sumn m (fun j => sumn n (fun i => f (bindex bx b ++ [i; l]) * g (b ++ [i; j]) * h (bindex by_ b ++ [l; j]))))).
    - rewrite sumn_swap. transitivity (sumn m (fun j => sumn k (fun l => sumn n (fun i => f (bindex bx b ++ [i; l]) * g (b ++ [i; j]) * h (bindex by_ b ++ [l; j]))))); [|apply sumn_swap]. apply sumn_ext. intros j _. rewrite sumn_swap. apply sumn_ext. intros i _. unfold product_at. rewrite <- sumn_scale. apply sumn_ext. intros l _. ring.
    - apply sumn_ext. intros l Hl. apply sumn_ext. intros j Hj. rewrite A by exact V. rewrite bindex_app; [now rewrite sumn_scale_r|reflexivity| |cbn; auto]. rewrite (valid_length _ _ V). apply B2.
  Qed.
  Lemma batched_backward x y g : shape x = bx ++ [n; k] -> shape y = by_ ++ [k; m] -> shape g = t ++ [n; m] -> nonempty bx t -> nonempty by_ t ->
    exists gx gy, matmul_backward x y g = Some (gx, gy) /\ shape gx = shape x /\ shape gy = shape y /\
    (forall f, sums (t ++ [n; m]) (fun ix => at_ g ix * product_at f (at_ y) (firstn (length t) ix) (pos (length t) ix) (pos (S (length t)) ix)) = sums (shape x) (fun ix => at_ gx ix * f ix)) /\
    (forall h, sums (t ++ [n; m]) (fun ix => at_ g ix * product_at (at_ x) h (firstn (length t) ix) (pos (length t) ix) (pos (S (length t)) ix)) = sums (shape y) (fun ix => at_ gy ix * h ix)).
  Proof.
    intros Hx Hy Hg N1 N2. destruct (both_products x y g Hx Hy Hg) as (gx & gy & E1 & E2 & S1 & S2 & A1 & A2).
    pose proof (rank_app2 _ _ _ _ Hx) as R1. pose proof (rank_app2 _ _ _ _ Hy) as R2. unfold matmul_backward. destruct (Nat.ltb_spec (rank x) 2); [lia|]. destruct (Nat.ltb_spec (rank y) 2); [lia|]. cbn [bind].
    destruct (transpose (-2) (-1) y) as [yt|]; [|discriminate]. destruct (transpose (-2) (-1) x) as [xt|]; [|discriminate]. cbn [bind] in *. rewrite E1. cbn [bind]. rewrite E2. cbn [bind].
    destruct (inverse_broadcast_ok (bx ++ [n; k]) (t ++ [n; k]) gx (broadcasts_app _ _ _ B1) (nonempty_app _ _ _ (proj1 B1) N1) S1) as (gx' & F1 & T1 & I1).
    destruct (inverse_broadcast_ok (by_ ++ [k; m]) (t ++ [k; m]) gy (broadcasts_app _ _ _ B2) (nonempty_app _ _ _ (proj1 B2) N2) S2) as (gy' & F2 & T2 & I2).
    rewrite Hx, Hy, F1, F2. cbn [bind]. exists gx', gy'. split; [reflexivity|]. split; [exact T1|]. split; [exact T2|].
    assert (Q : forall f h, sums (t ++ [n; m]) (fun ix => at_ g ix * product_at f h (firstn (length t) ix) (pos (length t) ix) (pos (S (length t)) ix)) = sums t (fun b => sumn n (fun i => sumn m (fun j => at_ g (b ++ [i; j]) * product_at f h b i j)))).
    { intros f h. rewrite sums_app2. apply sums_ext. intros b V. apply sumn_ext. intros i _. apply sumn_ext. intros j _. rewrite <- (valid_length _ _ V), firstn_app, Nat.sub_diag, firstn_all. cbn [firstn]. rewrite app_nil_r, !pos_app2 by lia. rewrite Nat.sub_diag. replace (S (length b) - length b)%nat with 1%nat by lia. reflexivity. }
    split; intros f; rewrite Q.
    - rewrite <- I1. apply left_adjoint. exact A1.
    - rewrite <- I2. apply right_adjoint. exact A2.
  Qed.
End Batched.

(** the leading dimensions of a shape *)
Definition batch (s : list nat) : list nat := firstn (length s - 2) s.
Lemma batch_split s : (2 <= length s)%nat -> exists n k, s = batch s ++ [n; k].
Proof.
  intros H. unfold batch. pose proof (firstn_skipn (length s - 2) s) as E. pose proof (skipn_length (length s - 2) s) as L. destruct (skipn (length s - 2) s) as [|n [|k [|l r]]]; cbn [length] in L; try lia. exists n, k. now rewrite E.
Qed.
Lemma mm_none bx by_ n k k' m x y : shape x = bx ++ [n; k] -> shape y = by_ ++ [k'; m] -> k <> k' \/ bshape bx by_ = None -> mm x y = None.
Proof. intros Hx Hy H. unfold mm. rewrite Hx, Hy, !rev_app_distr. cbn [rev app]. rewrite !rev_involutive. destruct (Nat.eqb_spec k k') as [->|N]; [|reflexivity]. destruct H as [H| ->]; [congruence|reflexivity]. Qed.
Lemma mm_exact bx by_ t n k m x y : shape x = bx ++ [n; k] -> shape y = by_ ++ [k; m] -> bshape bx by_ = Some t ->
  mm x y = Some (mkT (t ++ [n; m]) (fun ix => product_at bx by_ k (at_ x) (at_ y) (firstn (length t) ix) (pos (length t) ix) (pos (S (length t)) ix))).
Proof. intros Hx Hy B. unfold mm. rewrite Hx, Hy, !rev_app_distr. cbn [rev app]. rewrite Nat.eqb_refl, !rev_involutive, B. reflexivity. Qed.
Lemma product_plus_l bx by_ k f f' h b i j : product_at bx by_ k (fun ix => f ix + f' ix) h b i j = product_at bx by_ k f h b i j + product_at bx by_ k f' h b i j.
Proof. unfold product_at. rewrite <- sumn_plus. apply sumn_ext. intros. ring. Qed.
Lemma product_plus_r bx by_ k f h h' b i j : product_at bx by_ k f (fun ix => h ix + h' ix) b i j = product_at bx by_ k f h b i j + product_at bx by_ k f h' b i j.
Proof. unfold product_at. rewrite <- sumn_plus. apply sumn_ext. intros. ring. Qed.
Definition batches_nonempty (s u : list nat) : Prop := forall t, bshape (batch s) (batch u) = Some t -> nonempty (batch s) t /\ nonempty (batch u) t.
Lemma k_matmul x0 y0 : (2 <= rank x0)%nat -> (2 <= rank y0)%nat -> batches_nonempty (shape x0) (shape y0) ->
  gradient_of (fun x => matmul x y0) (fun g => option_map fst (matmul_backward x0 y0 g)) (shape x0) /\ gradient_of (fun y => matmul x0 y) (fun g => option_map snd (matmul_backward x0 y0 g)) (shape y0).
Proof.
  intros R1 R2 N. unfold batches_nonempty in N. destruct (batch_split _ R1) as (n & k & Hx). destruct (batch_split _ R2) as (k' & m & Hy). set (bx := batch (shape x0)) in *. set (by_ := batch (shape y0)) in *.
  assert (Mm : forall x y, shape x = shape x0 -> shape y = shape y0 -> matmul x y = mm x y). { intros x y E1 E2. apply matmul_mm; unfold rank; [rewrite E1|rewrite E2]; assumption. }
  destruct (Nat.eq_dec k k') as [<-|Nk].
  2: { split; apply never_gradient; intros z Hz; rewrite Mm by auto; apply (mm_none bx by_ n k k' m); auto; congruence. }
  destruct (bshape bx by_) as [t|] eqn:B.
  2: { split; apply never_gradient; intros z Hz; rewrite Mm by auto; apply (mm_none bx by_ n k k m); auto; congruence. }
  destruct (N t eq_refl) as [N1 N2]. pose proof (fun g Hg => batched_backward bx by_ t n k m B x0 y0 g Hx Hy Hg N1 N2) as BB. split.
  - apply (linear_gradient _ _ _ (t ++ [n; m]) (fun f ix => product_at bx by_ k f (at_ y0) (firstn (length t) ix) (pos (length t) ix) (pos (S (length t)) ix))).
    + intros x Ex. rewrite Mm by auto. apply mm_exact; congruence.
    + intros. apply product_plus_l.
    + intros g Hg. destruct (BB g Hg) as (gx & gy & E & S1 & S2 & A1 & A2). exists gx. rewrite E. split; [reflexivity|]. split; [exact S1|exact A1].
  - apply (linear_gradient _ _ _ (t ++ [n; m]) (fun f ix => product_at bx by_ k (at_ x0) f (firstn (length t) ix) (pos (length t) ix) (pos (S (length t)) ix))).
    + intros y Ey. rewrite Mm by auto. apply mm_exact; congruence.
    + intros. apply product_plus_r.
    + intros g Hg. destruct (BB g Hg) as (gx & gy & E & S1 & S2 & A1 & A2). exists gy. rewrite E. split; [reflexivity|]. split; [exact S2|exact A2].
Qed.

(** *** Vectors *)
Lemma squeeze_row k f : exists g, squeeze_vector (mkT [1; k]%nat f) = Some g /\ shape g = [k] /\ forall i, (i < k)%nat -> at_ g [i] = f [0; i]%nat.
Proof. unfold squeeze_vector, squeeze_all, rank. cbn [shape filter negb Nat.eqb unsqueezed at_]. destruct (Nat.eqb_spec k 1) as [->|N]; cbn; eexists; (split; [reflexivity|]); (split; [reflexivity|]); intros i Hi; cbn; [|reflexivity]. f_equal. f_equal. f_equal. lia. Qed.
Lemma squeeze_column k f : exists g, squeeze_vector (mkT [k; 1]%nat f) = Some g /\ shape g = [k] /\ forall i, (i < k)%nat -> at_ g [i] = f [i; 0]%nat.
Proof. unfold squeeze_vector, squeeze_all, rank. cbn [shape filter negb Nat.eqb unsqueezed at_]. destruct (Nat.eqb_spec k 1) as [->|N]; cbn; eexists; (split; [reflexivity|]); (split; [reflexivity|]); intros i Hi; cbn; [|reflexivity]. f_equal. f_equal. lia. Qed.
Lemma inverse_broadcast_same s g : shape g = s -> exists g', inverse_broadcast g s = Some g' /\ shape g' = s /\ forall f, sums s (fun ix => at_ g ix * f ix) = sums s (fun jx => at_ g' jx * f jx).
Proof. intros H. destruct (inverse_broadcast_ok s s g (broadcasts_refl s) (nonempty_refl s) H) as (g' & E & S & A). exists g'. split; [exact E|]. split; [exact S|]. intros f. rewrite <- A. apply sums_ext. intros ix V. now rewrite bindex_id. Qed.
Lemma mm22 n k m f h : mm (mkT [n; k] f) (mkT [k; m] h) = Some (mkT [n; m] (fun ix => sumn k (fun l => f [pos 0 ix; l] * h [l; pos 1 ix]))).
Proof. unfold mm. cbn [shape rev app]. rewrite Nat.eqb_refl. cbn. reflexivity. Qed.
Lemma unsq0 s f : unsqueeze 0 (mkT s f) = Some (mkT (1%nat :: s) (fun ix => f (tl ix))).
Proof. unfold unsqueeze, dimn, rank. cbn [shape]. replace (0 <? Z.of_nat (S (length s))) with true by (symmetry; apply Z.ltb_lt; lia). cbn. do 2 f_equal. Qed.
Lemma unsq1 k s f : unsqueeze 1 (mkT (k :: s) f) = Some (mkT (k :: 1%nat :: s) (fun ix => f (del 1 ix))).
Proof. unfold unsqueeze, dimn, rank. cbn [shape length]. replace (1 <? Z.of_nat (S (S (length s)))) with true by (symmetry; apply Z.ltb_lt; lia). reflexivity. Qed.
Lemma transpose2 n m f : transpose (-2) (-1) (mkT [n; m] f) = Some (mkT [m; n] (fun ix => f [pos 1 ix; pos 0 ix])).
Proof. reflexivity. Qed.
Ltac open_up := unfold matmul; cbn [rank shape length Nat.eqb orb]; rewrite ?unsq0, ?unsq1; cbn [bind]; rewrite ?unsq0, ?unsq1; cbn [bind]; unfold mm; cbn [shape at_ rev app].
Lemma matmul_vv k f h : exists z, matmul (mkT [k] f) (mkT [k] h) = Some z /\ shape z = [] /\ at_ z [] = sumn k (fun l => f [l] * h [l]).
Proof. open_up. rewrite Nat.eqb_refl. cbn -[sumn Z.mul]. eexists. split; [reflexivity|]. split; [reflexivity|]. reflexivity. Qed.
Lemma matmul_vm k m f h : exists z, matmul (mkT [k] f) (mkT [k; m] h) = Some z /\ shape z = [m] /\ forall j, at_ z [j] = sumn k (fun l => f [l] * h [l; j]).
Proof. open_up. rewrite Nat.eqb_refl. cbn -[sumn Z.mul]. eexists. split; [reflexivity|]. split; [reflexivity|]. reflexivity. Qed.
Lemma matmul_mv n k f h : exists z, matmul (mkT [n; k] f) (mkT [k] h) = Some z /\ shape z = [n] /\ forall i, at_ z [i] = sumn k (fun l => f [i; l] * h [l]).
Proof. open_up. rewrite Nat.eqb_refl. cbn -[sumn Z.mul]. eexists. split; [reflexivity|]. split; [reflexivity|]. reflexivity. Qed.
Lemma matmul_v_none k k' f h r : k <> k' -> matmul (mkT [k] f) (mkT (k' :: match r with Some m => [m] | None => [] end) h) = None.
Proof. intros N. destruct r as [m|]; open_up; (destruct (Nat.eqb_spec k k'); [congruence|reflexivity]). Qed.
Lemma matmul_mv_none n k k' f h : k <> k' -> matmul (mkT [n; k] f) (mkT [k'] h) = None.
Proof. intros N. open_up. destruct (Nat.eqb_spec k k'); [congruence|reflexivity]. Qed.
Lemma matmul22 n k m f h : matmul (mkT [n; k] f) (mkT [k; m] h) = Some (mkT [n; m] (fun ix => sumn k (fun l => f [pos 0 ix; l] * h [l; pos 1 ix]))).
Proof. rewrite matmul_mm by (cbn; lia). apply mm22. Qed.
(** the backward function on vectors, with the sizes spelled out *)
Ltac start := unfold matmul_backward; cbn [rank shape length Nat.ltb Nat.leb]; rewrite ?unsq0, ?unsq1; cbn [bind]; rewrite ?unsq0, ?unsq1; cbn [bind]; rewrite ?unsq1; cbn [bind]; rewrite ?transpose2; cbn [bind].
Lemma backward_vv k f h gf : exists gx gy, matmul_backward (mkT [k] f) (mkT [k] h) (mkT [] gf) = Some (gx, gy) /\ shape gx = [k] /\ shape gy = [k] /\
  (forall u, sums [k] (fun ix => at_ gx ix * u ix) = gf [] * sumn k (fun l => u [l] * h [l])) /\ (forall u, sums [k] (fun ix => at_ gy ix * u ix) = gf [] * sumn k (fun l => f [l] * u [l])).
Proof.
  start. rewrite (matmul22 1 1 k). cbn [bind]. rewrite (matmul22 k 1 1). cbn [bind].
  match goal with |- context [squeeze_vector (mkT [1%nat; k] ?F)] => destruct (squeeze_row k F) as (gx & E1 & S1 & A1) end. match goal with |- context [squeeze_vector (mkT [k; 1%nat] ?F)] => destruct (squeeze_column k F) as (gy & E2 & S2 & A2) end.
  rewrite E1, E2. cbn [bind]. destruct (inverse_broadcast_same [k] gx S1) as (gx' & F1 & T1 & I1). destruct (inverse_broadcast_same [k] gy S2) as (gy' & F2 & T2 & I2). rewrite F1, F2. cbn [bind]. exists gx', gy'. split; [reflexivity|]. split; [exact T1|]. split; [exact T2|]. split; intros u.
  - rewrite <- I1, sums1, <- sumn_scale. apply sumn_ext. intros i Hi. rewrite A1, sumn_1 by exact Hi. cbn. ring.
  - rewrite <- I2, sums1, <- sumn_scale. apply sumn_ext. intros i Hi. rewrite A2, sumn_1 by exact Hi. cbn. ring.
Qed.
Lemma backward_vm k m f h gf : exists gx gy, matmul_backward (mkT [k] f) (mkT [k; m] h) (mkT [m] gf) = Some (gx, gy) /\ shape gx = [k] /\ shape gy = [k; m] /\
  (forall u, sums [k] (fun ix => at_ gx ix * u ix) = sums [m] (fun ix => gf ix * sumn k (fun l => u [l] * h [l; pos 0 ix]))) /\ (forall u, sums [k; m] (fun ix => at_ gy ix * u ix) = sums [m] (fun ix => gf ix * sumn k (fun l => f [l] * u [l; pos 0 ix]))).
Proof.
  start. rewrite (matmul22 1 m k). cbn [bind]. rewrite (matmul22 k 1 m). cbn [bind].
  match goal with |- context [squeeze_vector (mkT [1%nat; k] ?F)] => destruct (squeeze_row k F) as (gx & E1 & S1 & A1) end. match goal with |- context [inverse_broadcast ?G [k; m]] => destruct (inverse_broadcast_same [k; m] G eq_refl) as (gy' & F2 & T2 & I2) end.
  rewrite E1. cbn [bind]. destruct (inverse_broadcast_same [k] gx S1) as (gx' & F1 & T1 & I1). rewrite F1, F2. cbn [bind]. exists gx', gy'. split; [reflexivity|]. split; [exact T1|]. split; [exact T2|]. split; intros u.
  - rewrite <- I1, !sums1. transitivity (sumn k (fun l => sumn m (fun j => gf [j] * (u [l] * h [l; j])))).
    + apply sumn_ext. intros i Hi. rewrite A1 by exact Hi. rewrite <- sumn_scale_r. apply sumn_ext. intros j _. cbn. ring.
    + rewrite sumn_swap. apply sumn_ext. intros j _. rewrite <- sumn_scale. reflexivity.
  - rewrite <- I2, sums1, sums2. rewrite sumn_swap. apply sumn_ext. intros j _. rewrite <- sumn_scale. apply sumn_ext. intros l _. cbn [at_]. rewrite sumn_1. cbn. ring.
Qed.
Lemma backward_mv n k f h gf : exists gx gy, matmul_backward (mkT [n; k] f) (mkT [k] h) (mkT [n] gf) = Some (gx, gy) /\ shape gx = [n; k] /\ shape gy = [k] /\
  (forall u, sums [n; k] (fun ix => at_ gx ix * u ix) = sums [n] (fun ix => gf ix * sumn k (fun l => u [pos 0 ix; l] * h [l]))) /\ (forall u, sums [k] (fun ix => at_ gy ix * u ix) = sums [n] (fun ix => gf ix * sumn k (fun l => f [pos 0 ix; l] * u [l]))).
Proof.
  start. rewrite (matmul22 n 1 k). cbn [bind]. rewrite (matmul22 k n 1). cbn [bind].
  match goal with |- context [squeeze_vector (mkT [k; 1%nat] ?F)] => destruct (squeeze_column k F) as (gy & E2 & S2 & A2) end. match goal with |- context [inverse_broadcast ?G [n; k]] => destruct (inverse_broadcast_same [n; k] G eq_refl) as (gx' & F1 & T1 & I1) end.
  rewrite E2. cbn [bind]. destruct (inverse_broadcast_same [k] gy S2) as (gy' & F2 & T2 & I2). rewrite F1. cbn [bind]. rewrite F2. cbn [bind]. exists gx', gy'. split; [reflexivity|]. split; [exact T1|]. split; [exact T2|]. split; intros u.
  - rewrite <- I1, sums1, sums2. apply sumn_ext. intros i _. rewrite <- sumn_scale. apply sumn_ext. intros l _. cbn [at_]. rewrite sumn_1. cbn. ring.
  - rewrite <- I2, !sums1. transitivity (sumn k (fun l => sumn n (fun i => gf [i] * (f [i; l] * u [l])))).
    + apply sumn_ext. intros l Hl. rewrite A2 by exact Hl. rewrite <- sumn_scale_r. apply sumn_ext. intros j _. cbn. ring.
    + rewrite sumn_swap. apply sumn_ext. intros j _. rewrite <- sumn_scale. reflexivity.
Qed.
Lemma eta x s : shape x = s -> x = mkT s (at_ x). Proof. intros <-. now destruct x. Qed.
Lemma valid1 n ix : valid [n] ix -> exists i, ix = [i] /\ (i < n)%nat.
Proof. destruct ix as [|i [|j ix]]; cbn; try tauto. intros [H _]. eauto. Qed.
Lemma k_matmul_vectors x0 y0 : (1 <= rank x0 <= 2)%nat -> (1 <= rank y0 <= 2)%nat ->
  gradient_of (fun x => matmul x y0) (fun g => option_map fst (matmul_backward x0 y0 g)) (shape x0) /\ gradient_of (fun y => matmul x0 y) (fun g => option_map snd (matmul_backward x0 y0 g)) (shape y0).
Proof.
  intros R1 R2. destruct (Nat.eq_dec (rank x0) 2) as [Q1|Q1]; [destruct (Nat.eq_dec (rank y0) 2) as [Q2|Q2]|].
  - apply k_matmul; try lia. unfold batches_nonempty, batch. unfold rank in *. rewrite Q1, Q2. cbn. intros t _. split; intros d Hd; cbn in Hd; lia.
  - unfold rank in *. destruct (shape x0) as [|n [|k [|? ?]]] eqn:Hx; cbn [length] in *; try lia. destruct (shape y0) as [|k' [|? ?]] eqn:Hy; cbn [length] in *; try lia. rewrite (eta x0 _ Hx), (eta y0 _ Hy).
    destruct (Nat.eq_dec k k') as [<-|N].
    2: { split; apply never_gradient; intros z Hz; rewrite (eta z _ Hz); now apply matmul_mv_none. }
    split.
    + apply (affine_gradient_t [n; k] _ _ [n] (fun f ix => sumn k (fun l => f [pos 0 ix; l] * at_ y0 [l])) (fun f ix => sumn k (fun l => f [pos 0 ix; l] * at_ y0 [l]))).
      * intros x Ex. rewrite (eta x _ Ex). destruct (matmul_mv n k (at_ x) (at_ y0)) as (z & E & S & A). exists z. split; [exact E|]. split; [exact S|]. rewrite S. intros ix V. apply valid1 in V as (i & -> & _). exact (A i).
      * intros. rewrite <- sumn_plus. apply sumn_ext. intros. ring.
      * intros g Hg. rewrite (eta g _ Hg). destruct (backward_mv n k (at_ x0) (at_ y0) (at_ g)) as (gx & gy & E & S1 & S2 & A1 & A2). exists gx. rewrite E. split; [reflexivity|]. split; [exact S1|]. intros f. now rewrite A1.
    + apply (affine_gradient_t [k] _ _ [n] (fun f ix => sumn k (fun l => at_ x0 [pos 0 ix; l] * f [l])) (fun f ix => sumn k (fun l => at_ x0 [pos 0 ix; l] * f [l]))).
      * intros x Ex. rewrite (eta x _ Ex). destruct (matmul_mv n k (at_ x0) (at_ x)) as (z & E & S & A). exists z. split; [exact E|]. split; [exact S|]. rewrite S. intros ix V. apply valid1 in V as (i & -> & _). exact (A i).
      * intros. rewrite <- sumn_plus. apply sumn_ext. intros. ring.
      * intros g Hg. rewrite (eta g _ Hg). destruct (backward_mv n k (at_ x0) (at_ y0) (at_ g)) as (gx & gy & E & S1 & S2 & A1 & A2). exists gy. rewrite E. split; [reflexivity|]. split; [exact S2|]. intros f. now rewrite A2.
  - unfold rank in *. destruct (shape x0) as [|k [|? ?]] eqn:Hx; cbn [length] in *; try lia. destruct (shape y0) as [|k' [|m [|? ?]]] eqn:Hy; cbn [length] in *; try lia; rewrite (eta x0 _ Hx), (eta y0 _ Hy).
    + destruct (Nat.eq_dec k k') as [<-|N].
      2: { split; apply never_gradient; intros z Hz; rewrite (eta z _ Hz). - exact (matmul_v_none k k' (at_ z) (at_ y0) None N). - exact (matmul_v_none k k' (at_ x0) (at_ z) None N). }
      split.
      * apply (affine_gradient_t [k] _ _ [] (fun f ix => sumn k (fun l => f [l] * at_ y0 [l])) (fun f ix => sumn k (fun l => f [l] * at_ y0 [l]))).
        -- intros x Ex. rewrite (eta x _ Ex). destruct (matmul_vv k (at_ x) (at_ y0)) as (z & E & S & A). exists z. split; [exact E|]. split; [exact S|]. rewrite S. intros [|? ?] V; [exact A|destruct V].
        -- intros. rewrite <- sumn_plus. apply sumn_ext. intros. ring.
        -- intros g Hg. rewrite (eta g _ Hg). destruct (backward_vv k (at_ x0) (at_ y0) (at_ g)) as (gx & gy & E & S1 & S2 & A1 & A2). exists gx. rewrite E. split; [reflexivity|]. split; [exact S1|]. intros f. now rewrite A1, sums_nil.
      * apply (affine_gradient_t [k] _ _ [] (fun f ix => sumn k (fun l => at_ x0 [l] * f [l])) (fun f ix => sumn k (fun l => at_ x0 [l] * f [l]))).
        -- intros x Ex. rewrite (eta x _ Ex). destruct (matmul_vv k (at_ x0) (at_ x)) as (z & E & S & A). exists z. split; [exact E|]. split; [exact S|]. rewrite S. intros [|? ?] V; [exact A|destruct V].
        -- intros. rewrite <- sumn_plus. apply sumn_ext. intros. ring.
        -- intros g Hg. rewrite (eta g _ Hg). destruct (backward_vv k (at_ x0) (at_ y0) (at_ g)) as (gx & gy & E & S1 & S2 & A1 & A2). exists gy. rewrite E. split; [reflexivity|]. split; [exact S2|]. intros f. now rewrite A2, sums_nil.
    + destruct (Nat.eq_dec k k') as [<-|N].
      2: { split; apply never_gradient; intros z Hz; rewrite (eta z _ Hz). - exact (matmul_v_none k k' (at_ z) (at_ y0) (Some m) N). - exact (matmul_v_none k k' (at_ x0) (at_ z) (Some m) N). }
      split.
      * apply (affine_gradient_t [k] _ _ [m] (fun f ix => sumn k (fun l => f [l] * at_ y0 [l; pos 0 ix])) (fun f ix => sumn k (fun l => f [l] * at_ y0 [l; pos 0 ix]))).
        -- intros x Ex. rewrite (eta x _ Ex). destruct (matmul_vm k m (at_ x) (at_ y0)) as (z & E & S & A). exists z. split; [exact E|]. split; [exact S|]. rewrite S. intros ix V. apply valid1 in V as (i & -> & _). exact (A i).
        -- intros. rewrite <- sumn_plus. apply sumn_ext. intros. ring.
        -- intros g Hg. rewrite (eta g _ Hg). destruct (backward_vm k m (at_ x0) (at_ y0) (at_ g)) as (gx & gy & E & S1 & S2 & A1 & A2). exists gx. rewrite E. split; [reflexivity|]. split; [exact S1|]. intros f. now rewrite A1.
      * apply (affine_gradient_t [k; m] _ _ [m] (fun f ix => sumn k (fun l => at_ x0 [l] * f [l; pos 0 ix])) (fun f ix => sumn k (fun l => at_ x0 [l] * f [l; pos 0 ix]))).
        -- intros x Ex. rewrite (eta x _ Ex). destruct (matmul_vm k m (at_ x0) (at_ x)) as (z & E & S & A). exists z. split; [exact E|]. split; [exact S|]. rewrite S. intros ix V. apply valid1 in V as (i & -> & _). exact (A i).
        -- intros. rewrite <- sumn_plus. apply sumn_ext. intros. ring.
        -- intros g Hg. rewrite (eta g _ Hg). destruct (backward_vm k m (at_ x0) (at_ y0) (at_ g)) as (gx & gy & E & S1 & S2 & A1 & A2). exists gy. rewrite E. split; [reflexivity|]. split; [exact S2|]. intros f. now rewrite A2.
Qed.

(** *** A vector times a batch of matrices: the forward function is defined, the backward function raises *)
Lemma bshape_nil s : bshape [] s = Some s /\ bshape s [] = Some s.
Proof. apply bshape_id. split; [cbn; lia|]. intros d Hd. cbn in Hd. lia. Qed.
Lemma del_last2 t (a b : nat) : del (length t) (t ++ [a; b]) = t ++ [b].
Proof. unfold del. rewrite firstn_app, Nat.sub_diag, firstn_all, skipn_app, skipn_all2 by lia. replace (S (length t) - length t)%nat with 1%nat by lia. cbn. now rewrite app_nil_r. Qed.
Lemma del_last t (a b : nat) : del (S (length t)) (t ++ [a; b]) = t ++ [a].
Proof. unfold del. rewrite firstn_app, firstn_all2, skipn_app, skipn_all2 by lia. replace (S (length t) - length t)%nat with 1%nat by lia. replace (S (S (length t)) - length t)%nat with 2%nat by lia. cbn. now rewrite app_nil_r. Qed.
Lemma k_vector_batch_forward x y k by_ b m : shape x = [k] -> shape y = by_ ++ [b] ++ [k; m] -> exists z, matmul x y = Some z /\ shape z = (by_ ++ [b]) ++ [m].
Proof.
  intros Hx Hy. rewrite app_assoc in Hy. set (c := by_ ++ [b]) in *. unfold matmul. assert (R1 : rank x = 1%nat) by (unfold rank; now rewrite Hx). assert (R2 : rank y = S (S (length c))) by (unfold rank; rewrite Hy, app_length; cbn [length]; lia). rewrite R1, R2. cbn [Nat.eqb orb]. assert (Lc : length c = S (length by_)) by (unfold c; rewrite app_length; cbn; lia). destruct (Nat.eqb_spec (S (S (length c))) 1); [lia|].
  rewrite (eta x _ Hx), unsq0. cbn [bind]. destruct (mm_closed [] c c 1 k m (mkT [1%nat; k] (fun ix => at_ x (tl ix))) y eq_refl Hy (proj1 (bshape_nil c))) as (z & E & Sz & _). rewrite E. cbn [bind]. eexists. split; [reflexivity|]. assert (Rz : rank z = S (S (length c))) by (unfold rank; rewrite Sz, app_length; cbn [length]; lia). unfold drop_dim. cbn [shape]. rewrite Rz. replace (S (S (length c)) - 2)%nat with (length c) by lia. rewrite Sz. apply del_last2.
Qed.
Lemma k_vector_batch x y k by_ b m g : shape x = [k] -> shape y = by_ ++ [b] ++ [k; m] -> b <> 1%nat -> shape g = (by_ ++ [b]) ++ [m] -> matmul_backward x y g = None.
Proof.
  intros Hx Hy Nb Hg. assert (R1 : rank x = 1%nat) by (unfold rank; now rewrite Hx). assert (R2 : (2 <= rank y)%nat) by (unfold rank; rewrite Hy, !app_length; cbn [length]; lia). unfold matmul_backward. rewrite R1. destruct (Nat.ltb_spec (rank y) 2); [lia|]. cbn [Nat.ltb Nat.leb].
  rewrite (eta x _ Hx), (eta g _ Hg), !unsq0. cbn [bind]. rewrite transpose2. cbn [bind]. destruct (transpose (-2) (-1) y) as [yt|]; [|reflexivity]. cbn [bind]. destruct (matmul _ yt); [|reflexivity]. cbn [bind].
  rewrite matmul_mm; [|cbn; lia|unfold rank; cbn [shape length]; rewrite !app_length; cbn [length]; lia]. rewrite (mm_none [] (1%nat :: by_) k 1 b m); [reflexivity|reflexivity| |left; congruence]. cbn [shape]. rewrite <- app_assoc. reflexivity.
Qed.
Lemma k_batch_vector_forward x y k b0 bx n : shape x = (b0 :: bx) ++ [n; k] -> shape y = [k] -> exists z, matmul x y = Some z /\ shape z = (b0 :: bx) ++ [n].
Proof.
  intros Hx Hy. set (c := b0 :: bx) in *. unfold matmul. assert (R1 : rank y = 1%nat) by (unfold rank; now rewrite Hy). assert (R2 : rank x = S (S (length c))) by (unfold rank; rewrite Hx, app_length; cbn [length]; lia). rewrite R1, R2. cbn [Nat.eqb orb].
  rewrite (eta y _ Hy), unsq1. cbn [bind]. destruct (mm_closed c [] c n k 1 x (mkT [k; 1%nat] (fun ix => at_ y (del 1 ix))) Hx eq_refl (proj2 (bshape_nil c))) as (z & E & Sz & _). rewrite E. cbn [bind]. eexists. split; [reflexivity|]. assert (Rz : rank z = S (S (length c))) by (unfold rank; rewrite Sz, app_length; cbn [length]; lia). unfold drop_dim. cbn [shape]. rewrite Rz. replace (S (S (length c)) - 1)%nat with (S (length c)) by lia. rewrite Sz. apply del_last.
Qed.
Lemma k_batch_vector x y k b0 bx n g : shape x = (b0 :: bx) ++ [n; k] -> shape y = [k] -> n <> 1%nat -> shape g = (b0 :: bx) ++ [n] -> matmul_backward x y g = None.
Proof.
  intros Hx Hy Nn Hg. assert (R1 : rank y = 1%nat) by (unfold rank; now rewrite Hy). assert (R2 : (2 <= rank x)%nat) by (unfold rank; rewrite Hx, !app_length; cbn [length]; lia). unfold matmul_backward. rewrite R1. destruct (Nat.ltb_spec (rank x) 2); [lia|]. cbn [Nat.ltb Nat.leb bind].
  rewrite (eta y _ Hy), (eta g _ Hg). cbn [app]. rewrite !unsq1. cbn [bind]. rewrite transpose2. cbn [bind].
  rewrite matmul_mm; [|unfold rank; cbn [shape length]; rewrite ?app_length; cbn [length]; lia|cbn; lia].
  assert (Q : exists c r, b0 :: 1%nat :: bx ++ [n] = c ++ [r; n]). { destruct (exists_last (l := b0 :: 1%nat :: bx) ltac:(discriminate)) as (c & r & E). exists c, r. change (b0 :: 1%nat :: bx ++ [n]) with ((b0 :: 1%nat :: bx) ++ [n]). rewrite E, <- app_assoc. reflexivity. }
  destruct Q as (c & r & Q). rewrite (mm_none c [] r n 1 k); [reflexivity|exact Q|reflexivity|left; congruence].
Qed.

(** *** dot and ger *)
Lemma mul_scalar g y k : shape g = [] -> shape y = [k] -> exists z, mul g y = Some z /\ shape z = [k] /\ forall i, (i < k)%nat -> at_ z [i] = at_ g [] * at_ y [i].
Proof.
  intros Hg Hy. unfold mul, pointwise. rewrite Hg, Hy. cbn -[bindex Z.mul]. eexists. split; [reflexivity|]. split; [reflexivity|]. intros i Hi. cbn [at_]. rewrite (bindex_id [k] [i]) by (cbn; auto). reflexivity.
Qed.
Lemma k_dot x0 y0 : gradient_of (fun x => dot x y0) (fun g => option_map fst (dot_backward x0 y0 g)) (shape x0) /\ gradient_of (fun y => dot x0 y) (fun g => option_map snd (dot_backward x0 y0 g)) (shape y0).
Proof.
  destruct (shape x0) as [|k [|? ?]] eqn:Hx; try (split; [apply never_gradient; intros x Ex; unfold dot; now rewrite Ex|apply never_gradient; intros y Ey; unfold dot; now rewrite Hx]).
  destruct (shape y0) as [|k' [|? ?]] eqn:Hy; try (split; [apply never_gradient; intros x Ex; unfold dot; now rewrite Ex, Hy|apply never_gradient; intros y Ey; unfold dot; now rewrite Hx, Ey]).
  destruct (Nat.eq_dec k k') as [<-|N].
  2: { split; apply never_gradient; intros z Hz; unfold dot; rewrite ?Hz, ?Hx, ?Hy. - rewrite (eta z _ Hz), (eta y0 _ Hy). exact (matmul_v_none k k' (at_ z) (at_ y0) None N). - rewrite (eta z _ Hz), (eta x0 _ Hx). exact (matmul_v_none k k' (at_ x0) (at_ z) None N). }
  split.
  - apply (affine_gradient_t [k] _ _ [] (fun f ix => sumn k (fun l => f [l] * at_ y0 [l])) (fun f ix => sumn k (fun l => f [l] * at_ y0 [l]))).
    + intros x Ex. unfold dot. rewrite Ex, Hy. rewrite (eta x _ Ex), (eta y0 _ Hy). destruct (matmul_vv k (at_ x) (at_ y0)) as (z & E & S & A). exists z. split; [exact E|]. split; [exact S|]. rewrite S. intros [|? ?] V; [exact A|destruct V].
    + intros. rewrite <- sumn_plus. apply sumn_ext. intros. ring.
    + intros g Hg. unfold dot_backward. destruct (mul_scalar g y0 k Hg Hy) as (gx & E1 & S1 & A1). destruct (mul_scalar g x0 k Hg Hx) as (gy & E2 & S2 & A2). rewrite E1. cbn [bind]. rewrite E2. exists gx. split; [reflexivity|]. split; [exact S1|]. intros f. rewrite sums_nil, sums1, <- sumn_scale. apply sumn_ext. intros i Hi. rewrite A1 by exact Hi. ring.
  - apply (affine_gradient_t [k] _ _ [] (fun f ix => sumn k (fun l => at_ x0 [l] * f [l])) (fun f ix => sumn k (fun l => at_ x0 [l] * f [l]))).
    + intros x Ex. unfold dot. rewrite Ex, Hx. rewrite (eta x _ Ex), (eta x0 _ Hx). destruct (matmul_vv k (at_ x0) (at_ x)) as (z & E & S & A). exists z. split; [exact E|]. split; [exact S|]. rewrite S. intros [|? ?] V; [exact A|destruct V].
    + intros. rewrite <- sumn_plus. apply sumn_ext. intros. ring.
    + intros g Hg. unfold dot_backward. destruct (mul_scalar g y0 k Hg Hy) as (gx & E1 & S1 & A1). destruct (mul_scalar g x0 k Hg Hx) as (gy & E2 & S2 & A2). rewrite E1. cbn [bind]. rewrite E2. exists gy. split; [reflexivity|]. split; [exact S2|]. intros f. rewrite sums_nil, sums1, <- sumn_scale. apply sumn_ext. intros i Hi. rewrite A2 by exact Hi. ring.
Qed.
Lemma k_ger x0 y0 : gradient_of (fun x => ger x y0) (fun g => option_map fst (ger_backward x0 y0 g)) (shape x0) /\ gradient_of (fun y => ger x0 y) (fun g => option_map snd (ger_backward x0 y0 g)) (shape y0).
Proof.
  destruct (shape x0) as [|n [|? ?]] eqn:Hx; try (split; [apply never_gradient; intros x Ex; unfold ger; now rewrite Ex|apply never_gradient; intros y Ey; unfold ger; now rewrite Hx]).
  destruct (shape y0) as [|m [|? ?]] eqn:Hy; try (split; [apply never_gradient; intros x Ex; unfold ger; now rewrite Ex, Hy|apply never_gradient; intros y Ey; unfold ger; now rewrite Hx, Ey]).
  assert (BB : forall g, shape g = [n; m] -> exists gx gy, ger_backward x0 y0 g = Some (gx, gy) /\ shape gx = [n] /\ shape gy = [m] /\ (forall i, at_ gx [i] = sumn m (fun l => at_ g [i; l] * at_ y0 [l])) /\ (forall j, at_ gy [j] = sumn n (fun l => at_ x0 [l] * at_ g [l; j]))).
  { intros g Hg. unfold ger_backward. destruct (matmul_mv n m (at_ g) (at_ y0)) as (gx & E1 & S1 & A1). destruct (matmul_vm n m (at_ x0) (at_ g)) as (gy & E2 & S2 & A2). rewrite <- (eta g _ Hg), <- (eta y0 _ Hy) in E1. rewrite <- (eta g _ Hg), <- (eta x0 _ Hx) in E2. rewrite E1. cbn [bind]. rewrite E2. cbn [bind]. exists gx, gy. auto. }
  split.
  - apply (affine_gradient_t [n] _ _ [n; m] (fun f ix => f [pos 0 ix] * at_ y0 [pos 1 ix]) (fun f ix => f [pos 0 ix] * at_ y0 [pos 1 ix])).
    + intros x Ex. unfold ger. rewrite Ex, Hy. eexists. split; [reflexivity|]. split; reflexivity.
    + intros. ring.
    + intros g Hg. destruct (BB g Hg) as (gx & gy & E & S1 & S2 & A1 & A2). rewrite E. exists gx. split; [reflexivity|]. split; [exact S1|]. intros f. rewrite sums2, sums1. apply sumn_ext. intros i _. rewrite A1, <- sumn_scale_r. apply sumn_ext. intros j _. cbn. ring.
  - apply (affine_gradient_t [m] _ _ [n; m] (fun f ix => at_ x0 [pos 0 ix] * f [pos 1 ix]) (fun f ix => at_ x0 [pos 0 ix] * f [pos 1 ix])).
    + intros x Ex. unfold ger. rewrite Ex, Hx. eexists. split; [reflexivity|]. split; reflexivity.
    + intros. ring.
    + intros g Hg. destruct (BB g Hg) as (gx & gy & E & S1 & S2 & A1 & A2). rewrite E. exists gy. split; [reflexivity|]. split; [exact S2|]. intros f. rewrite sums2, sums1, sumn_swap. apply sumn_ext. intros j _. rewrite A2, <- sumn_scale_r. apply sumn_ext. intros i _. cbn. ring.
Qed.

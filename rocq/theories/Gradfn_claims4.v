(** C63, continued: broadcasting operators, sums, trace, padding and narrowing. *)
Require Import List ZArith Bool Arith Lia.
From Verif Require Import Ring64 Tensor Tensor_proofs Gradfn Broadcast_claims Gradfn_claims Gradfn_claims2 Gradfn_claims3.
Import ListNotations.
Open Scope Z_scope.

(** *** Broadcasting shapes *)
Fixpoint brev (s t : list nat) : Prop := match s, t with [], _ => True | a :: s, b :: t => (a = b \/ a = 1%nat) /\ brev s t | _, [] => False end.
Lemma brev_pos s : forall t, brev s t <-> (length s <= length t)%nat /\ forall d, (d < length s)%nat -> pos d s = pos d t \/ pos d s = 1%nat.
Proof.
  induction s as [|a s IH]; intros t; cbn [brev length]; [split; [split; [lia|intros; lia]|auto]|]. destruct t as [|b t]; [split; [intros []|intros [H _]; cbn in H; lia]|]. rewrite IH. cbn [length]. split.
  - intros (H & L & P). split; [lia|]. intros [|d] Hd; [exact H|]. apply P. lia.
  - intros (L & P). split; [exact (P O ltac:(lia))|]. split; [lia|]. intros d Hd. apply (P (S d)). lia.
Qed.
Lemma pos_rev l d : (d < length l)%nat -> pos d (rev l) = pos (length l - 1 - d) l.
Proof. intros H. unfold pos. rewrite rev_nth by exact H. f_equal. lia. Qed.
Lemma broadcasts_rev s t : broadcasts s t <-> brev (rev s) (rev t).
Proof.
  rewrite brev_pos, !rev_length. unfold broadcasts. split; intros [L H]; (split; [exact L|]); intros d Hd.
  - rewrite !pos_rev by lia. specialize (H (length s - 1 - d)%nat ltac:(lia)). replace (length t - length s + (length s - 1 - d))%nat with (length t - 1 - d)%nat in H by lia. exact H.
  - specialize (H (length s - 1 - d)%nat ltac:(lia)). rewrite !pos_rev in H by lia. replace (length s - 1 - (length s - 1 - d))%nat with d in H by lia. replace (length t - 1 - (length s - 1 - d))%nat with (length t - length s + d)%nat in H by lia. exact H.
Qed.
Lemma bshape_rev_ok s : forall t r, bshape_rev s t = Some r -> brev s r /\ brev t r.
Proof.
  assert (R : forall l, brev l l) by (induction l; cbn; auto). induction s as [|a s IH]; intros t r H; cbn [bshape_rev] in H.
  - injection H as <-. split; [exact I|apply R].
  - destruct t as [|b t]; [injection H as <-; split; [apply R|exact I]|]. destruct (bshape_rev s t) as [r'|] eqn:E; [|discriminate]. destruct (IH t r' E) as [A B]. destruct (Nat.eqb_spec a b) as [->|N1]; [injection H as <-; cbn; auto|]. destruct (Nat.eqb_spec a 1) as [->|N2]; [injection H as <-; cbn; auto|]. destruct (Nat.eqb_spec b 1) as [->|N3]; [injection H as <-; cbn; auto|discriminate].
Qed.
Lemma bshape_rev_id s : forall t, brev s t -> bshape_rev s t = Some t /\ bshape_rev t s = Some t.
Proof.
  induction s as [|a s IH]; intros t H; [split; [reflexivity|destruct t; reflexivity]|]. destruct t as [|b t]; [contradiction|]. destruct H as [H B]. destruct (IH t B) as [E1 E2]. cbn [bshape_rev]. rewrite E1, E2. destruct H as [->| ->]; [now rewrite Nat.eqb_refl|]. split; [|rewrite (Nat.eqb_sym b 1)]; destruct (Nat.eqb_spec 1 b) as [<-|N]; reflexivity.
Qed.
Lemma bshape_ok s t r : bshape s t = Some r -> broadcasts s r /\ broadcasts t r.
Proof. unfold bshape. destruct (bshape_rev (rev s) (rev t)) as [q|] eqn:E; [|discriminate]. intros [= <-]. destruct (bshape_rev_ok _ _ _ E). rewrite !broadcasts_rev, rev_involutive. auto. Qed.
Lemma bshape_id s t : broadcasts s t -> bshape s t = Some t /\ bshape t s = Some t.
Proof. rewrite broadcasts_rev. intros H. destruct (bshape_rev_id _ _ H) as [A B]. unfold bshape. rewrite A, B, rev_involutive. auto. Qed.
Lemma broadcasts_refl s : broadcasts s s.
Proof. split; [lia|]. intros d _. left. f_equal. lia. Qed.
Lemma bindex_id s ix : valid s ix -> bindex s ix = ix.
Proof. intros V. unfold bindex. rewrite (valid_length _ _ V), Nat.sub_diag. now apply clamp_valid. Qed.
Lemma bindex_same s ix : length ix = length s -> bindex s ix = clamp s ix.
Proof. intros L. unfold bindex. now rewrite L, Nat.sub_diag. Qed.

(** *** add, sub, mul *)
Lemma inverse_broadcast_ok s t g : broadcasts s t -> nonempty s t -> shape g = t -> exists g', inverse_broadcast g s = Some g' /\ shape g' = s /\ forall f, sums t (fun ix => at_ g ix * f (bindex s ix)) = sums s (fun jx => at_ g' jx * f jx).
Proof.
  intros B N Hg. destruct (k_C50 s t g (mkT s (fun _ => 0)) B N Hg eq_refl) as (g' & E & Sg & _). exists g'. split; [exact E|]. split; [exact Sg|]. intros f. destruct (k_C50 s t g (mkT s f) B N Hg eq_refl) as (h & E' & _ & A). rewrite E in E'. injection E' as <-. unfold inner, expand in A. cbn [shape at_] in A. now rewrite Hg, Sg in A.
Qed.
Lemma k_add_left s y : (forall t, bshape s (shape y) = Some t -> nonempty s t) -> gradient_of (fun x => add x y) (fun g => fst (add_backward s (shape y) g)) s.
Proof.
  intros N. destruct (bshape s (shape y)) as [t|] eqn:E; [|apply never_gradient; intros x Hx; unfold add, pointwise; now rewrite Hx, E]. destruct (bshape_ok _ _ _ E) as [B1 B2].
  apply (affine_gradient s _ _ t (fun f ix => f (bindex s ix) + at_ y (bindex (shape y) ix)) (fun f ix => f (bindex s ix))); [intros x Hx; unfold add, pointwise; now rewrite Hx, E|intros; ring|]. intros g Hg. exact (inverse_broadcast_ok s t g B1 (N t eq_refl) Hg).
Qed.
Lemma k_add_right s x : (forall t, bshape (shape x) s = Some t -> nonempty s t) -> gradient_of (fun y => add x y) (fun g => snd (add_backward (shape x) s g)) s.
Proof.
  intros N. destruct (bshape (shape x) s) as [t|] eqn:E; [|apply never_gradient; intros y Hy; unfold add, pointwise; now rewrite Hy, E]. destruct (bshape_ok _ _ _ E) as [B1 B2].
  apply (affine_gradient s _ _ t (fun f ix => at_ x (bindex (shape x) ix) + f (bindex s ix)) (fun f ix => f (bindex s ix))); [intros y Hy; unfold add, pointwise; now rewrite Hy, E|intros; ring|]. intros g Hg. exact (inverse_broadcast_ok s t g B2 (N t eq_refl) Hg).
Qed.
Lemma k_sub_left s y : (forall t, bshape s (shape y) = Some t -> nonempty s t) -> gradient_of (fun x => sub x y) (fun g => fst (sub_backward s (shape y) g)) s.
Proof.
  intros N. destruct (bshape s (shape y)) as [t|] eqn:E; [|apply never_gradient; intros x Hx; unfold sub, pointwise; now rewrite Hx, E]. destruct (bshape_ok _ _ _ E) as [B1 B2].
  apply (affine_gradient s _ _ t (fun f ix => f (bindex s ix) - at_ y (bindex (shape y) ix)) (fun f ix => f (bindex s ix))); [intros x Hx; unfold sub, pointwise; now rewrite Hx, E|intros; ring|]. intros g Hg. exact (inverse_broadcast_ok s t g B1 (N t eq_refl) Hg).
Qed.
Lemma neg_adjoint s t g' (g : index -> Z) : shape g' = s -> (forall f, sums t (fun ix => g ix * f (bindex s ix)) = sums s (fun jx => at_ g' jx * f jx)) -> shape (neg g') = s /\ forall f, sums t (fun ix => g ix * - f (bindex s ix)) = sums s (fun jx => at_ (neg g') jx * f jx).
Proof.
  intros Sg A. split; [exact Sg|]. intros f. unfold neg. cbn [at_]. transitivity (sums t (fun ix => (-1) * (g ix * f (bindex s ix)))); [apply sums_ext; intros; ring|]. rewrite sums_scale, A, <- sums_scale. apply sums_ext. intros. ring.
Qed.
Lemma k_sub_right s x : (forall t, bshape (shape x) s = Some t -> nonempty s t) -> gradient_of (fun y => sub x y) (fun g => snd (sub_backward (shape x) s g)) s.
Proof.
  intros N. destruct (bshape (shape x) s) as [t|] eqn:E; [|apply never_gradient; intros y Hy; unfold sub, pointwise; now rewrite Hy, E]. destruct (bshape_ok _ _ _ E) as [B1 B2].
  apply (affine_gradient s _ _ t (fun f ix => at_ x (bindex (shape x) ix) - f (bindex s ix)) (fun f ix => - f (bindex s ix))); [intros y Hy; unfold sub, pointwise; now rewrite Hy, E|intros; ring|]. intros g Hg. destruct (inverse_broadcast_ok s t g B2 (N t eq_refl) Hg) as (g' & Eg & Sg & A). unfold sub_backward. cbn [snd]. rewrite Eg. exists (neg g'). split; [reflexivity|]. now apply neg_adjoint.
Qed.
(** __rsub__: (-x) + y *)
Lemma k_rsub_left s y : (forall t, bshape s (shape y) = Some t -> nonempty s t) -> gradient_of (fun x => add (neg x) y) (fun g => fst (rsub_backward s (shape y) g)) s.
Proof.
  intros N. destruct (bshape s (shape y)) as [t|] eqn:E; [|apply never_gradient; intros x Hx; unfold add, pointwise; cbn [shape neg]; now rewrite Hx, E]. destruct (bshape_ok _ _ _ E) as [B1 B2].
  apply (affine_gradient s _ _ t (fun f ix => - f (bindex s ix) + at_ y (bindex (shape y) ix)) (fun f ix => - f (bindex s ix))); [intros x Hx; unfold add, pointwise; cbn [shape neg]; now rewrite Hx, E|intros; ring|]. intros g Hg. destruct (inverse_broadcast_ok s t g B1 (N t eq_refl) Hg) as (g' & Eg & Sg & A). unfold rsub_backward. cbn [fst]. rewrite Eg. exists (neg g'). split; [reflexivity|]. now apply neg_adjoint.
Qed.
Lemma k_rsub_right s x : (forall t, bshape (shape x) s = Some t -> nonempty s t) -> gradient_of (fun y => add (neg x) y) (fun g => snd (rsub_backward (shape x) s g)) s.
Proof. intros N. exact (k_add_right s (neg x) N). Qed.
Lemma k_mul_left x0 y : let s := shape x0 in (forall t, bshape s (shape y) = Some t -> nonempty s t) -> gradient_of (fun x => mul x y) (fun g => fst (mul_backward x0 y g)) s.
Proof.
  intros s N. destruct (bshape s (shape y)) as [t|] eqn:E; [|apply never_gradient; intros x Hx; unfold mul, pointwise; now rewrite Hx, E]. destruct (bshape_ok _ _ _ E) as [B1 B2].
  apply (linear_gradient s _ _ t (fun f ix => f (bindex s ix) * at_ y (bindex (shape y) ix))); [intros x Hx; unfold mul, pointwise; now rewrite Hx, E|intros; ring|].
  intros g Hg. unfold mul_backward. cbn [fst]. unfold mul, pointwise. rewrite Hg. rewrite (proj2 (bshape_id _ _ B2)). cbn [bind]. set (m := mkT t _). destruct (inverse_broadcast_ok s t m B1 (N t eq_refl) eq_refl) as (g' & Eg & Sg & A). exists g'. split; [exact Eg|]. split; [exact Sg|]. intros f. rewrite <- A. apply sums_ext. intros ix V. unfold m. cbn [at_]. rewrite (bindex_id t ix V). ring.
Qed.
Lemma k_mul_right x y0 : let s := shape y0 in (forall t, bshape (shape x) s = Some t -> nonempty s t) -> gradient_of (fun y => mul x y) (fun g => snd (mul_backward x y0 g)) s.
Proof.
  intros s N. destruct (bshape (shape x) s) as [t|] eqn:E; [|apply never_gradient; intros y Hy; unfold mul, pointwise; now rewrite Hy, E]. destruct (bshape_ok _ _ _ E) as [B1 B2].
  apply (linear_gradient s _ _ t (fun f ix => at_ x (bindex (shape x) ix) * f (bindex s ix))); [intros y Hy; unfold mul, pointwise; now rewrite Hy, E|intros; ring|].
  intros g Hg. unfold mul_backward. cbn [snd]. unfold mul, pointwise. rewrite Hg. rewrite (proj2 (bshape_id _ _ B1)). cbn [bind]. set (m := mkT t _). destruct (inverse_broadcast_ok s t m B2 (N t eq_refl) eq_refl) as (g' & Eg & Sg & A). exists g'. split; [exact Eg|]. split; [exact Sg|]. intros f. rewrite <- A. apply sums_ext. intros ix V. unfold m. cbn [at_]. rewrite (bindex_id t ix V). ring.
Qed.

(** *** sum, trace *)
Lemma broadcasts_upd k s : (k < length s)%nat -> broadcasts (upd k 1%nat s) s.
Proof. intros L. split; [rewrite upd_length; lia|]. rewrite upd_length by exact L. intros d Hd. rewrite pos_upd by exact L. destruct (Nat.eqb_spec d k); [now right|left; f_equal; lia]. Qed.
Lemma bindex_upd k s ix : (k < length s)%nat -> valid s ix -> bindex (upd k 1%nat s) ix = upd k O ix.
Proof.
  intros L V. pose proof (valid_length _ _ V) as Lx. rewrite bindex_same by (rewrite upd_length; lia). apply list_ext; [rewrite clamp_length; rewrite !upd_length; lia|]. rewrite clamp_length by (rewrite upd_length; lia). rewrite upd_length by exact L. intros d Hd. rewrite clamp_pos by (rewrite upd_length; lia). rewrite !pos_upd by lia. pose proof (valid_at d s ix Hd V) as Q. destruct (Nat.eqb_spec d k); [reflexivity|]. destruct (Nat.eqb_spec (pos d s) 1); lia.
Qed.
Lemma k_sum s dim keepdim : gradient_of (sum_forward dim keepdim) (sum_backward s dim keepdim) s.
Proof.
  destruct dim as [d|].
  - destruct (dimn d (length s)) as [k|] eqn:E; [|apply never_gradient; intros x Hx; unfold sum_forward, rank; now rewrite Hx, E]. pose proof (dimn_lt _ _ _ E) as L.
    assert (Adj : forall (gk : tensor), shape gk = upd k 1%nat s -> exists g', mul gk (ones s) = Some g' /\ shape g' = s /\ forall jx, valid s jx -> at_ g' jx = at_ gk (upd k O jx)).
    { intros gk Hk. unfold mul, pointwise. cbn [shape ones]. rewrite Hk, (proj1 (bshape_id _ _ (broadcasts_upd k s L))). eexists. split; [reflexivity|]. split; [reflexivity|]. intros jx V. cbn [at_ ones]. rewrite bindex_upd by auto. ring. }
    destruct s as [|n0 s0] eqn:Es; [cbn in L; lia|]. rewrite <- Es in *. destruct keepdim.
    + apply (linear_gradient s _ _ (upd k 1%nat s) (fun f ix => sumn (pos k s) (fun i => f (upd k i ix)))); [intros x Hx; unfold sum_forward, rank; rewrite Hx, E; cbn [bind sum_dim]; now rewrite Hx|intros; apply sumn_plus|].
      intros g Hg. destruct (Adj g Hg) as (g' & Em & Sg & A). exists g'. split; [rewrite Es; cbn [sum_backward bind]; rewrite <- Es; exact Em|]. split; [exact Sg|]. intros f.
      rewrite (sums_dim k (upd k 1%nat s)) by (rewrite upd_length; lia). rewrite (sums_dim k s) by exact L. rewrite del_upd, pos_upd, Nat.eqb_refl by exact L. apply sums_ext. intros ix V. pose proof (valid_length _ _ V) as Lx. rewrite del_length in Lx by exact L. rewrite sumn_1. rewrite <- sumn_scale. apply sumn_ext. intros i Hi. rewrite upd_ins by lia. f_equal. rewrite A; [now rewrite upd_ins by lia|].
      rewrite <- (ins_del k s L). apply valid_ins; [rewrite del_length; lia|exact V|exact Hi].
    + apply (linear_gradient s _ _ (del k s) (fun f ix => sumn (pos k s) (fun i => f (ins k i ix)))); [intros x Hx; unfold sum_forward, rank; rewrite Hx, E; cbn [bind sum_dim]; now rewrite Hx|intros; apply sumn_plus|].
      intros g Hg. assert (Ld : length (del k s) = (length s - 1)%nat) by now apply del_length. set (gu := mkT (ins k 1%nat (del k s)) (fun ix => at_ g (del k ix))). assert (U : unsqueeze d g = Some gu) by (unfold unsqueeze, rank; rewrite Hg, Ld, (dimn_shift d _ k E) by lia; reflexivity).
      assert (Su : shape gu = upd k 1%nat s) by (unfold gu; cbn [shape]; symmetry; now apply upd_as_ins). destruct (Adj gu Su) as (g' & Em & Sg & A). exists g'. split; [rewrite Es; cbn [sum_backward]; rewrite U; cbn [bind]; rewrite <- Es; exact Em|]. split; [exact Sg|]. intros f.
      rewrite (sums_dim k s) by exact L. apply sums_ext. intros ix V. pose proof (valid_length _ _ V) as Lx. rewrite Ld in Lx. rewrite <- sumn_scale. apply sumn_ext. intros i Hi. f_equal. rewrite A; [unfold gu; cbn [at_]; now rewrite upd_ins, del_ins by lia|]. rewrite <- (ins_del k s L). apply valid_ins; [lia|exact V|exact Hi].
  - apply (linear_gradient s _ _ [] (fun f _ => sums s f)); [intros x <-; reflexivity|intros; apply sums_plus|]. intros g Hg. destruct s as [|n s].
    + exists g. split; [reflexivity|]. split; [exact Hg|]. intros f. rewrite !sums_nil. reflexivity.
    + cbn [sum_backward bind]. unfold mul, pointwise. change (shape (ones (n :: s))) with (n :: s). rewrite Hg. assert (B : broadcasts [] (n :: s)) by (split; [cbn; lia|intros d Hd; cbn in Hd; lia]). rewrite (proj1 (bshape_id _ _ B)). eexists. split; [reflexivity|]. split; [reflexivity|]. intros f. rewrite sums_nil, <- sums_scale. apply sums_ext. intros ix _. cbn [at_ ones]. unfold bindex, clamp. cbn [combine map]. ring.
Qed.
Lemma k_trace n : gradient_of trace (trace_backward n) [n; n].
Proof.
  apply (linear_gradient [n; n] _ _ [] (fun f _ => sumn n (fun i => f [i; i]))); [intros x Hx; unfold trace; now rewrite Hx, Nat.min_id|intros; apply sumn_plus|]. intros g Hg. unfold trace_backward, mul, pointwise. cbn [shape eye]. rewrite Hg. assert (B : broadcasts [] [n; n]) by (split; [cbn; lia|intros d Hd; cbn in Hd; lia]). rewrite (proj2 (bshape_id _ _ B)). eexists. split; [reflexivity|]. split; [reflexivity|]. intros f. rewrite sums_nil. cbn [at_ eye].
  rewrite sums_cons, <- sumn_scale. apply sumn_ext. intros i Hi. rewrite sums_cons. rewrite (sumn_one n i).
  - rewrite sums_nil. rewrite bindex_id by (cbn; auto). unfold bindex, clamp. cbn [combine map pos nth]. rewrite Nat.eqb_refl. ring.
  - exact Hi.
  - intros j Hj N. rewrite sums_nil, bindex_id by (cbn; auto). cbn [pos nth]. destruct (Nat.eqb_spec i j); [congruence|ring].
Qed.
(** not for other matrices *)
Lemma k_trace_rectangular n m g : n <> m -> shape g = [] -> exists g', trace_backward n g = Some g' /\ shape g' = [n; n] /\ shape g' <> [n; m].
Proof.
  intros N Hg. unfold trace_backward, mul, pointwise. cbn [shape eye]. rewrite Hg. assert (B : broadcasts [] [n; n]) by (split; [cbn; lia|intros d Hd; cbn in Hd; lia]). rewrite (proj2 (bshape_id _ _ B)). eexists. split; [reflexivity|]. split; [reflexivity|]. cbn [shape]. congruence.
Qed.

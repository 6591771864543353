(** C66: what the elementwise gradient functions are meant to do, and the lemmas. *)
Require Import List Reals ZArith Arith Bool Lia Lra.
From Verif Require Import Ring64 Tensor Tensor_proofs Rtensor Rtensor_proofs Realgrad.
Import ListNotations.
Open Scope R_scope.

(** *** Specification.  The point x + t h. *)
Definition moved (x h : rtensor) (t : R) : rtensor := mkR (rshape x) (fun ix => rat x ix + t * rat h ix).
Definition entries (P : R -> Prop) (x : rtensor) : Prop := forall ix, valid (rshape x) ix -> P (rat x ix).
(** The backward pass is the transposed derivative of the forward pass at x: for every incoming gradient g and direction h, <g, forward(x + t h)> has the
    derivative <backward(g), h> at t = 0; sizes agree. *)
Definition differentiates {C} (forward : rtensor -> C * rtensor) (backward : C -> rtensor -> rtensor) (x : rtensor) : Prop :=
  forall g, rshape g = rshape (snd (forward x)) ->
    rshape (backward (fst (forward x)) g) = rshape x /\
    forall h, rshape h = rshape x ->
      (forall t, rshape (snd (forward (moved x h t))) = rshape (snd (forward x))) /\
      derivable_pt_lim (fun t => rinner g (snd (forward (moved x h t)))) 0 (rinner (backward (fst (forward x)) g) h).
(** The same for two inputs. *)
Definition differentiates2 {C} (forward : rtensor -> rtensor -> C * rtensor) (backward : C -> rtensor -> rtensor * rtensor) (x y : rtensor) : Prop :=
  forall g, rshape g = rshape (snd (forward x y)) ->
    let d := backward (fst (forward x y)) g in
    rshape (fst d) = rshape x /\ rshape (snd d) = rshape y /\
    forall h k, rshape h = rshape x -> rshape k = rshape y ->
      (forall t, rshape (snd (forward (moved x h t) (moved y k t))) = rshape (snd (forward x y))) /\
      derivable_pt_lim (fun t => rinner g (snd (forward (moved x h t) (moved y k t)))) 0 (rinner (fst d) h + rinner (snd d) k).
(** An elementwise operation computes f, and its backward pass differentiates it, wherever all entries satisfy P. *)
Definition computes {C} (f : R -> R) (forward : rtensor -> C * rtensor) (x : rtensor) : Prop :=
  rshape (snd (forward x)) = rshape x /\ forall ix, valid (rshape x) ix -> rat (snd (forward x)) ix = f (rat x ix).
Definition correct {C} (P : R -> Prop) (f : R -> R) (forward : rtensor -> C * rtensor) (backward : C -> rtensor -> rtensor) : Prop :=
  forall x, entries P x -> computes f forward x /\ differentiates forward backward x.

(** *** The general lemma *)
Lemma elementwise_at {C} (forward : rtensor -> C * rtensor) backward (f : index -> R -> R) (d : index -> R) x :
  (forall x', rshape x' = rshape x -> rshape (snd (forward x')) = rshape x /\ forall ix, valid (rshape x) ix -> rat (snd (forward x')) ix = f ix (rat x' ix)) ->
  (forall g, rshape g = rshape x -> rshape (backward (fst (forward x)) g) = rshape x /\ forall ix, valid (rshape x) ix -> rat (backward (fst (forward x)) g) ix = rat g ix * d ix) ->
  (forall ix, valid (rshape x) ix -> derivable_pt_lim (f ix) (rat x ix) (d ix)) ->
  differentiates forward backward x.
Proof.
  intros F B D g Hg. destruct (F x eq_refl) as [S0 _]. rewrite S0 in Hg. destruct (B g Hg) as [SB VB]. split; [exact SB|]. intros h Hh. split.
  - intros t. rewrite S0. now apply (F (moved x h t)).
  - unfold rinner. rewrite SB, Hg. eapply d_ext; [intros t; symmetry; apply rsums_ext; intros ix V; rewrite (proj2 (F (moved x h t) eq_refl) ix V); reflexivity|].
    cbn beta. apply (d_rsums (rshape x) (fun ix t => rat g ix * f ix (rat (moved x h t) ix))). intros ix V. rewrite VB by exact V. eapply d_val; [|apply d_scal, (d_comp (fun t => rat (moved x h t) ix) (f ix)); [apply d_line|]].
    + instantiate (1 := d ix). ring.
    + cbn [moved rat]. replace (rat x ix + 0 * rat h ix) with (rat x ix) by ring. now apply D.
Qed.
Lemma elementwise_correct {C} (P : R -> Prop) (f f0 d : R -> R) (forward : rtensor -> C * rtensor) backward :
  (forall x, rshape (snd (forward x)) = rshape x /\ forall ix, rat (snd (forward x)) ix = f0 (rat x ix)) ->
  (forall v, P v -> f0 v = f v) ->
  (forall x g, rshape g = rshape x -> rshape (backward (fst (forward x)) g) = rshape x /\ forall ix, rat (backward (fst (forward x)) g) ix = rat g ix * d (rat x ix)) ->
  (forall v, P v -> derivable_pt_lim f0 v (d v)) ->
  correct P f forward backward.
Proof.
  intros F E B D x Px. split.
  - destruct (F x) as [S V]. split; [exact S|]. intros ix I. rewrite V. apply E, Px, I.
  - apply (elementwise_at forward backward (fun _ => f0) (fun ix => d (rat x ix)) x).
    + intros x' Hx'. destruct (F x') as [S V]. split; [congruence|]. intros ix _. apply V.
    + intros g Hg. destruct (B x g Hg) as [S V]. split; [exact S|]. intros ix _. apply V.
    + intros ix I. apply D, Px, I.
Qed.

(** *** Derivatives of the real functions *)
Lemma ltz_neg x : x < 0 -> ltz x = 1. Proof. unfold ltz. destruct (Rlt_dec x 0); [reflexivity|lra]. Qed.
Lemma ltz_pos x : 0 <= x -> ltz x = 0. Proof. unfold ltz. destruct (Rlt_dec x 0); [lra|reflexivity]. Qed.
Lemma gt_1 x y : y < x -> gt x y = 1. Proof. intros. apply ltz_neg. lra. Qed.
Lemma gt_0 x y : x <= y -> gt x y = 0. Proof. intros. apply ltz_pos. lra. Qed.
Lemma near_above a v : a < v -> forall t, Rabs (t - v) < v - a -> a < t. Proof. intros H t Ht. apply Rabs_def2 in Ht. lra. Qed.
Lemma near_below a v : v < a -> forall t, Rabs (t - v) < a - v -> t < a. Proof. intros H t Ht. apply Rabs_def2 in Ht. lra. Qed.
Lemma d_id v : derivable_pt_lim (fun t => t) v 1. Proof. apply derivable_pt_lim_id. Qed.
Lemma d_locally f g v l a b : a < v -> v < b -> (forall t, a < t < b -> f t = g t) -> derivable_pt_lim f v l -> derivable_pt_lim g v l.
Proof.
  intros A B E D. apply (d_near f g v l (Rmin (v - a) (b - v))); [apply Rmin_pos; lra| |exact D]. intros t Ht. apply E. split.
  - apply (near_above a v A). eapply Rlt_le_trans; [exact Ht|apply Rmin_l].
  - apply (near_below b v B). eapply Rlt_le_trans; [exact Ht|apply Rmin_r].
Qed.
Lemma d_relu v : v <> 0 -> derivable_pt_lim (fun t => t * gt t 0) v (gt v 0).
Proof.
  intros N. destruct (Rlt_dec v 0) as [L|G].
  - rewrite gt_0 by lra. apply (d_locally (fun _ => 0) _ v 0 (v - 1) 0); [lra|lra| |apply d_const]. intros t Ht. rewrite gt_0 by lra. ring.
  - rewrite gt_1 by lra. apply (d_locally (fun t => t) _ v 1 0 (v + 1)); [lra|lra| |apply d_id]. intros t Ht. rewrite gt_1 by lra. ring.
Qed.
Lemma d_abs v : v <> 0 -> derivable_pt_lim (fun t => t * sign t) v (sign v).
Proof.
  intros N. unfold sign. destruct (Rlt_dec v 0) as [L|G].
  - rewrite ltz_neg by lra. apply (d_locally (fun t => - t) _ v _ (v - 1) 0); [lra|lra| |]. { intros t Ht. rewrite ltz_neg by lra. ring. } eapply d_val; [|apply d_opp, d_id]. lra.
  - rewrite ltz_pos by lra. apply (d_locally (fun t => t) _ v _ 0 (v + 1)); [lra|lra| |]. { intros t Ht. rewrite ltz_pos by lra. ring. } eapply d_val; [|apply d_id]. lra.
Qed.
Lemma d_sign v : v <> 0 -> derivable_pt_lim sign v 0.
Proof.
  intros N. unfold sign. destruct (Rlt_dec v 0) as [L|G].
  - apply (d_locally (fun t => -1) _ v _ (v - 1) 0); [lra|lra| |apply d_const]. intros t Ht. rewrite ltz_neg by lra. ring.
  - apply (d_locally (fun t => 1) _ v _ 0 (v + 1)); [lra|lra| |apply d_const]. intros t Ht. rewrite ltz_pos by lra. ring.
Qed.
Lemma cosh_pos x : 0 < cosh x. Proof. unfold cosh. pose proof (exp_pos x). pose proof (exp_pos (- x)). lra. Qed.
Lemma cosh_sinh x : cosh x * cosh x - sinh x * sinh x = 1.
Proof. unfold cosh, sinh. assert (exp x * exp (- x) = 1) by (rewrite <- exp_plus, Rplus_opp_r; apply exp_0). nra. Qed.
Lemma d_tanh v : derivable_pt_lim tanh v (- (tanh v * tanh v) + 1).
Proof.
  unfold tanh. pose proof (cosh_pos v). eapply d_val; [|exact (derivable_pt_lim_div sinh cosh v _ _ (derivable_pt_lim_sinh v) (derivable_pt_lim_cosh v) (Rgt_not_eq _ _ H))].
  unfold Rsqr. field. apply Rgt_not_eq, H.
Qed.
Lemma d_sqrt v : 0 < v -> derivable_pt_lim (fun t => inv_sqrt t * t) v (inv_sqrt v / 2).
Proof.
  intros P. apply (d_locally sqrt _ v _ 0 (v + 1)); [lra|lra| |].
  - intros t Ht. unfold inv_sqrt. rewrite <- (sqrt_sqrt t) at 3 by lra. field. apply Rgt_not_eq, sqrt_lt_R0. lra.
  - eapply d_val; [|apply derivable_pt_lim_sqrt, P]. unfold inv_sqrt. field. apply Rgt_not_eq, sqrt_lt_R0, P.
Qed.
Lemma d_inv_id v : v <> 0 -> derivable_pt_lim Rinv v (- (/ v * / v)).
Proof. intros N. eapply d_val; [|apply (d_inv (fun t => t) v 1 N), d_id]. ring. Qed.
Lemma sigmoid_ne v : 1 + exp (- v) <> 0. Proof. pose proof (exp_pos (- v)). lra. Qed.
Lemma d_sigmoid v : derivable_pt_lim sigmoid v (sigmoid v * (1 - sigmoid v)).
Proof.
  unfold sigmoid. eapply d_val; [|apply (d_inv (fun t => 1 + exp (- t)) v (0 + exp (- v) * - (1)) (sigmoid_ne v)), d_plus; [apply d_const|apply (d_comp (fun t => - t) exp); [apply d_opp, d_id|apply derivable_pt_lim_exp]]].
  pose proof (sigmoid_ne v). field. exact H.
Qed.

(** *** The claims *)
Ltac ew f0 d := apply (elementwise_correct _ _ f0 d); [intros x; split; reflexivity| |intros x g Hg; split; [cbn; congruence|intros ix; cbn; try ring]|].
(** C66: relu, at entries other than 0. *)
Lemma k_C66_relu : correct (fun v => v <> 0) (fun v => Rmax 0 v) relu_forward relu_backward.
Proof.
  ew (fun v => v * gt v 0) (fun v => gt v 0); [|apply d_relu]. intros v N. destruct (Rlt_dec v 0).
  - rewrite gt_0, Rmax_left by lra. lra.
  - rewrite gt_1, Rmax_right by lra. lra.
Qed.
(** C66: the value of relu is also right at 0. *)
Lemma k_C66_relu_value x : computes (fun v => Rmax 0 v) relu_forward x.
Proof. split; [reflexivity|]. intros ix _. cbn. destruct (Rlt_dec 0 (rat x ix)); [rewrite gt_1, Rmax_right by lra; lra|rewrite gt_0, Rmax_left by lra; lra]. Qed.
(** C66: absolute value, at entries other than 0. *)
Lemma k_C66_abs : correct (fun v => v <> 0) Rabs abs_forward abs_backward.
Proof.
  ew (fun v => v * sign v) sign; [|apply d_abs]. intros v N. unfold sign. destruct (Rlt_dec v 0).
  - rewrite ltz_neg, Rabs_left by lra. lra.
  - rewrite ltz_pos, Rabs_right by lra. lra.
Qed.
(** C66: sign, at entries other than 0. *)
Lemma k_C66_sign : correct (fun v => v <> 0) (fun v => if Rlt_dec v 0 then -1 else 1) sign_forward sign_backward.
Proof. ew sign (fun _ : R => 0); [|apply d_sign]. intros v N. unfold sign, ltz. destruct (Rlt_dec v 0); lra. Qed.
(** C66: tanh. *)
Lemma k_C66_tanh : correct (fun _ => True) tanh tanh_forward tanh_backward.
Proof. ew tanh (fun v => - (tanh v * tanh v) + 1); [reflexivity|]. intros v _. apply d_tanh. Qed.
(** C66: the logistic function. *)
Lemma k_C66_sigmoid : correct (fun _ => True) (fun v => 1 / (1 + exp (- v))) sigmoid_forward sigmoid_backward.
Proof. ew sigmoid (fun v => sigmoid v * (1 - sigmoid v)); [|intros; apply d_sigmoid]. intros v _. unfold sigmoid. lra. Qed.
(** C66: exponential. *)
Lemma k_C66_exp : correct (fun _ => True) exp exp_forward exp_backward.
Proof. ew exp exp; [reflexivity|]. intros v _. apply derivable_pt_lim_exp. Qed.
(** C66: logarithm of positive entries. *)
Lemma k_C66_log : correct (fun v => 0 < v) ln log_forward log_backward.
Proof. ew ln Rinv; [reflexivity|reflexivity|]. intros v P. apply derivable_pt_lim_ln, P. Qed.
(** C66: reciprocal of non-zero entries. *)
Lemma k_C66_reciprocal : correct (fun v => v <> 0) (fun v => 1 / v) reciprocal_forward reciprocal_backward.
Proof. ew Rinv (fun v => - (/ v * / v)); [intros v _; lra|]. apply d_inv_id. Qed.
(** C66: square root of positive entries. *)
Lemma k_C66_sqrt : correct (fun v => 0 < v) sqrt sqrt_forward sqrt_backward.
Proof.
  apply (elementwise_correct _ _ (fun v => inv_sqrt v * v) (fun v => inv_sqrt v / 2)); [intros x; split; reflexivity| |intros x g Hg; split; [reflexivity|intros ix; cbn; ring]|apply d_sqrt].
  intros v P. unfold inv_sqrt. rewrite <- (sqrt_sqrt v) at 2 by lra. field. apply Rgt_not_eq, sqrt_lt_R0, P.
Qed.
(** C66: square. *)
Lemma k_C66_square : correct (fun _ => True) (fun v => v ^ 2) square_forward square_backward.
Proof. ew (fun v => v * v) (fun v => v * 2); [intros v _; ring|]. intros v _. eapply d_val; [|apply d_mult; apply d_id]. cbn. ring. Qed.
(** C66: sine. *)
Lemma k_C66_sin : correct (fun _ => True) sin sin_forward sin_backward.
Proof. ew sin cos; [reflexivity|]. intros v _. apply derivable_pt_lim_sin. Qed.
(** C66: cosine. *)
Lemma k_C66_cos : correct (fun _ => True) cos cos_forward cos_backward.
Proof. ew cos (fun v => - sin v); [reflexivity|]. intros v _. apply derivable_pt_lim_cos. Qed.

Lemma hard_value lo hi v : lo < hi -> (gt (v - lo) 0 + gt (hi - v) 0 - 1) * v + (1 - gt (v - lo) 0) * lo + (1 - gt (hi - v) 0) * hi = Rmin (Rmax lo v) hi.
Proof.
  intros L. destruct (Rle_dec v lo) as [A|A]; [|destruct (Rle_dec hi v) as [B|B]].
  - rewrite gt_0, gt_1, Rmax_left, Rmin_left by lra. lra.
  - rewrite gt_1, gt_0, Rmax_right, Rmin_right by lra. lra.
  - rewrite !gt_1, Rmax_right, Rmin_left by lra. lra.
Qed.
Lemma d_hard lo hi v : lo < hi -> v <> lo -> v <> hi -> derivable_pt_lim (fun v => Rmin (Rmax lo v) hi) v (gt (v - lo) 0 + gt (hi - v) 0 - 1).
Proof.
  intros L N M. destruct (Rlt_dec v lo) as [A|A]; [|destruct (Rlt_dec hi v) as [B|B]].
  - rewrite gt_0, gt_1 by lra. apply (d_locally (fun _ => lo) _ v _ (v - 1) lo); [lra|lra| |eapply d_val; [|apply d_const]; lra]. intros t Ht. rewrite Rmax_left, Rmin_left by lra. reflexivity.
  - rewrite gt_1, gt_0 by lra. apply (d_locally (fun _ => hi) _ v _ hi (v + 1)); [lra|lra| |eapply d_val; [|apply d_const]; lra]. intros t Ht. rewrite Rmax_right, Rmin_right by lra. reflexivity.
  - rewrite !gt_1 by lra. apply (d_locally (fun t => t) _ v _ lo hi); [lra|lra| |eapply d_val; [|apply d_id]; lra]. intros t Ht. rewrite Rmax_right, Rmin_left by lra. reflexivity.
Qed.
(** C66: clamping to [lo, hi], at entries other than the two ends. *)
Lemma k_C66_hardtanh lo hi : lo < hi -> correct (fun v => v <> lo /\ v <> hi) (fun v => Rmin (Rmax lo v) hi) (hardtanh_forward lo hi) hardtanh_backward.
Proof.
  intros L. apply (elementwise_correct _ _ (fun v => Rmin (Rmax lo v) hi) (fun v => gt (v - lo) 0 + gt (hi - v) 0 - 1)).
  - intros x. unfold hardtanh_forward. destruct (Req_EM_T lo hi); [lra|]. split; [reflexivity|]. intros ix. cbn. apply hard_value, L.
  - reflexivity.
  - intros x g Hg. unfold hardtanh_forward. destruct (Req_EM_T lo hi); [lra|]. split; [reflexivity|]. intros ix. cbn. ring.
  - intros v [A B]. now apply d_hard.
Qed.
(** C66: clamping to one value. *)
Lemma k_C66_hardtanh_equal c : correct (fun _ => True) (fun _ => c) (hardtanh_forward c c) hardtanh_backward.
Proof.
  apply (elementwise_correct _ _ (fun _ => c) (fun _ => 0)).
  - intros x. unfold hardtanh_forward. destruct (Req_EM_T c c); [|contradiction]. split; [reflexivity|]. intros ix. cbn. ring.
  - reflexivity.
  - intros x g Hg. unfold hardtanh_forward. destruct (Req_EM_T c c); [|contradiction]. split; [reflexivity|]. intros ix. cbn. ring.
  - intros v _. apply d_const.
Qed.
(** C66: clamping to [0, 6]. *)
Lemma k_C66_relu6 : correct (fun v => v <> 0 /\ v <> 6) (fun v => Rmin (Rmax 0 v) 6) relu6_forward relu6_backward.
Proof.
  apply (elementwise_correct _ _ (fun v => Rmin (Rmax 0 v) 6) (fun v => gt (v - 0) 0 + gt (6 - v) 0 - 1)).
  - intros x. split; [reflexivity|]. intros ix. cbn. rewrite <- (hard_value 0 6) by lra. rewrite Rminus_0_r. ring.
  - reflexivity.
  - intros x g Hg. split; [reflexivity|]. intros ix. cbn. rewrite Rminus_0_r. ring.
  - intros v [A B]. apply d_hard; lra.
Qed.
(** dropout with probability p < 1: entries whose draw exceeds p are divided by 1 - p, the others become 0; the gradient is treated alike. *)
Definition dropped (p : R) (u v : R) : R := if Rlt_dec p u then v / (1 - p) else 0.
(** C66: dropout with p < 1 divides the entries whose draw exceeds p by 1 - p and zeroes the others; the gradient is treated alike. *)
Lemma k_C66_dropout p draw x : p < 1 -> rshape draw = rshape x ->
  rshape (snd (dropout_forward p true draw x)) = rshape x /\ (forall ix, rat (snd (dropout_forward p true draw x)) ix = dropped p (rat draw ix) (rat x ix)) /\
  differentiates (dropout_forward p true draw) dropout_backward x.
Proof.
  intros Hp Hd. assert (V : forall x' ix, rat (snd (dropout_forward p true draw x')) ix = dropped p (rat draw ix) (rat x' ix)) by (intros x' ix; cbn; unfold dropped; destruct (Rlt_dec p (rat draw ix)); field; lra).
  split; [reflexivity|]. split; [apply V|]. apply (elementwise_at _ _ (fun ix v => v * dropped p (rat draw ix) 1) (fun ix => dropped p (rat draw ix) 1)).
  - intros x' Hx'. split; [exact Hx'|]. intros ix _. rewrite V. unfold dropped. destruct (Rlt_dec p (rat draw ix)); field; lra.
  - intros g Hg. split; [exact Hg|]. intros ix _. cbn. unfold dropped. destruct (Rlt_dec p (rat draw ix)); field; lra.
  - intros ix _. eapply d_val; [|apply d_mult; [apply d_id|apply d_const]]. cbn beta. ring.
Qed.
(** C66: feature dropout decides once per entry of the first two dimensions. *)
Lemma k_C66_feature_dropout p draw x : p < 1 ->
  rshape (snd (feature_dropout_forward p true draw x)) = rshape x /\ (forall ix, rat (snd (feature_dropout_forward p true draw x)) ix = dropped p (rat draw (firstn 2 ix)) (rat x ix)) /\
  differentiates (feature_dropout_forward p true draw) dropout_backward x.
Proof.
  intros Hp. assert (V : forall x' ix, rat (snd (feature_dropout_forward p true draw x')) ix = dropped p (rat draw (firstn 2 ix)) (rat x' ix)) by (intros x' ix; cbn [feature_dropout_forward negb snd rmul rmap2 rmap rat]; unfold dropped; destruct (Rlt_dec p (rat draw (firstn 2 ix))); field; lra).
  split; [reflexivity|]. split; [apply V|]. apply (elementwise_at _ _ (fun ix v => v * dropped p (rat draw (firstn 2 ix)) 1) (fun ix => dropped p (rat draw (firstn 2 ix)) 1)).
  - intros x' Hx'. split; [exact Hx'|]. intros ix _. rewrite V. unfold dropped. destruct (Rlt_dec p (rat draw (firstn 2 ix))); field; lra.
  - intros g Hg. split; [exact Hg|]. intros ix _. cbn [feature_dropout_forward negb fst dropout_backward rmul rmap2 rmap rat]. unfold dropped. destruct (Rlt_dec p (rat draw (firstn 2 ix))); field; lra.
  - intros ix _. eapply d_val; [|apply d_mult; [apply d_id|apply d_const]]. cbn beta. ring.
Qed.
(** C66: outside training dropout is the identity. *)
Lemma k_C66_dropout_eval p draw : correct (fun _ => True) (fun v => v) (dropout_forward p false draw) dropout_backward /\ correct (fun _ => True) (fun v => v) (feature_dropout_forward p false draw) dropout_backward.
Proof. split; (ew (fun v : R => v) (fun _ : R => 1); [reflexivity|]; intros v _; apply d_id). Qed.

(** *** Division *)
(** C66: quotient of encrypted tensors, with respect to both. *)
Lemma k_C66_div x y : rshape x = rshape y -> entries (fun v => v <> 0) y ->
  (forall ix, rat (snd (div_forward x y)) ix = rat x ix / rat y ix) /\ differentiates2 div_forward div_backward x y.
Proof.
  intros S N. split; [reflexivity|]. intros g Hg. cbn [div_forward snd fst rmul rmap2 rmap rshape rat div_backward] in *. split; [now symmetry|]. split; [reflexivity|]. intros h k Hh Hk. split; [reflexivity|].
  unfold rinner. cbn [rmul rmap2 rmap moved rshape rat]. rewrite Hg, <- S, <- rsums_plus. apply (d_rsums (rshape x) (fun ix t => rat g ix * ((rat x ix + t * rat h ix) * / (rat y ix + t * rat k ix)))). intros ix V. assert (Ny : rat y ix <> 0) by (apply N; now rewrite <- S).
  eapply d_val; [|apply d_scal, d_mult; [apply d_line|apply (d_inv (fun t => rat y ix + t * rat k ix) 0); [|apply d_line]]].
  - cbn beta. unfold Rsqr. rewrite !Rmult_0_l, !Rplus_0_r. ring.
  - now rewrite Rmult_0_l, Rplus_0_r.
Qed.
(** C66: division by a public tensor. *)
Lemma k_C66_div_public y x : rshape x = rshape y -> (forall ix, rat (snd (div_public_forward y x)) ix = rat x ix / rat y ix) /\ differentiates (div_public_forward y) div_public_backward x.
Proof.
  intros S. split; [reflexivity|]. apply (elementwise_at _ _ (fun ix v => v * / rat y ix) (fun ix => / rat y ix)).
  - intros x' Hx'. split; [exact Hx'|]. reflexivity.
  - intros g Hg. split; [exact Hg|]. reflexivity.
  - intros ix _. eapply d_val; [|apply d_mult; [apply d_id|apply d_const]]. cbn beta. ring.
Qed.
(** C66: right division, with respect to both. *)
Lemma k_C66_rdiv x y : rshape x = rshape y -> entries (fun v => v <> 0) x ->
  (forall ix, rat (snd (rdiv_forward x y)) ix = rat y ix / rat x ix) /\ differentiates2 rdiv_forward rdiv_backward x y.
Proof.
  intros S N. split; [intros ix; cbn; unfold Rdiv; ring|]. intros g Hg. cbn [rdiv_forward snd fst rmul rmap2 rmap rshape rat rdiv_backward] in *. split; [reflexivity|]. split; [exact S|]. intros h k Hh Hk. split; [reflexivity|].
  unfold rinner. cbn [rmul rmap2 rmap moved rshape rat]. rewrite Hg, <- rsums_plus. apply (d_rsums (rshape x) (fun ix t => rat g ix * (/ (rat x ix + t * rat h ix) * (rat y ix + t * rat k ix)))). intros ix V. assert (Nx : rat x ix <> 0) by (now apply N).
  eapply d_val; [|apply d_scal, d_mult; [apply (d_inv (fun t => rat x ix + t * rat h ix) 0); [|apply d_line]|apply d_line]].
  - cbn beta. unfold Rsqr. rewrite !Rmult_0_l, !Rplus_0_r. ring.
  - now rewrite Rmult_0_l, Rplus_0_r.
Qed.

(** *** Polynomials.  Specification: c_1 v + c_2 v^2 + ... *)
Fixpoint power_series (k : nat) (coeffs : list R) (v : R) : R := match coeffs with [] => 0 | c :: cs => c * v ^ k + power_series (S k) cs v end.
Definition powers (v : R) (n : nat) : list R := map (fun i => v ^ S i) (seq 0 n).
Lemma powers_length v n : length (powers v n) = n. Proof. unfold powers. now rewrite map_length, seq_length. Qed.
Lemma shift_seq n : forall m a, map (fun i => (n + i)%nat) (seq a m) = seq (n + a) m.
Proof. induction m as [|m IH]; intros a; [reflexivity|]. cbn [seq map]. rewrite IH. do 2 f_equal. lia. Qed.
Lemma powers_double v n : (0 < n)%nat -> powers v n ++ map (fun t => t * last (powers v n) 0) (powers v n) = powers v (n + n).
Proof.
  intros H. assert (L : last (powers v n) 0 = v ^ n). { unfold powers. destruct n as [|n]; [lia|]. rewrite seq_S, map_app. cbn [map]. rewrite last_last. reflexivity. }
  rewrite L. unfold powers. rewrite seq_app, map_app. f_equal. rewrite map_map. cbn [plus]. replace (seq n n) with (map (fun i => (n + i)%nat) (seq 0 n)).
  - rewrite map_map. apply map_ext. intros i. rewrite <- pow_add. f_equal. lia.
  - rewrite shift_seq. f_equal. lia.
Qed.
Lemma terms_grow_powers v k : forall fuel n, (0 < n)%nat -> (k <= n + fuel)%nat -> exists m, (k <= m)%nat /\ terms_grow fuel k (powers v n) = powers v m.
Proof.
  induction fuel as [|f IH]; intros n Hn Hk; [exists n; split; [lia|reflexivity]|]. cbn [terms_grow]. rewrite powers_length. destruct (Nat.ltb n k) eqn:E.
  - rewrite powers_double by exact Hn. apply IH; lia.
  - apply Nat.ltb_ge in E. exists n. split; [exact E|reflexivity].
Qed.
Lemma firstn_powers v k n : (k <= n)%nat -> firstn k (powers v n) = powers v k.
Proof. intros H. unfold powers. rewrite firstn_map. f_equal. replace n with (k + (n - k))%nat by lia. rewrite seq_app, firstn_app, seq_length, Nat.sub_diag, firstn_O, app_nil_r. apply firstn_all2. rewrite seq_length. lia. Qed.
Lemma weighted_series v coeffs : forall a, weighted (map (fun i => v ^ S i) (seq a (length coeffs))) coeffs = power_series (S a) coeffs v.
Proof. induction coeffs as [|c cs IH]; intros a; [reflexivity|]. cbn [length seq map weighted power_series]. rewrite IH. ring. Qed.
Lemma polynomial_value coeffs v : polynomial coeffs v = power_series 1 coeffs v.
Proof.
  assert (G : weighted (firstn (length coeffs) (terms_grow (length coeffs) (length coeffs) [v; v * v])) coeffs = power_series 1 coeffs v).
  { replace [v; v * v] with (powers v 2) by (unfold powers; cbn; f_equal; [ring|f_equal; ring]). destruct (terms_grow_powers v (length coeffs) (length coeffs) 2) as (m & Hm & ->); [lia|lia|]. rewrite firstn_powers by exact Hm. apply weighted_series. }
  destruct coeffs as [|c [|c' cs]]; [exact G| |exact G]. cbn. ring.
Qed.
Lemma arange_series v coeffs : forall k j, power_series j (times_arange k coeffs) v = power_series j (map (fun p => fst p * INR (snd p)) (combine coeffs (seq (S k) (length coeffs)))) v.
Proof. induction coeffs as [|c cs IH]; intros k j; [reflexivity|]. cbn [times_arange length seq combine map power_series fst snd]. rewrite IH. now rewrite Nat.add_1_r. Qed.
Lemma d_series coeffs v : forall k, derivable_pt_lim (power_series (S k) coeffs) v (power_series k (times_arange k coeffs) v).
Proof.
  induction coeffs as [|c cs IH]; intros k; cbn [power_series times_arange]; [apply d_const|]. apply (d_plus (fun t => c * t ^ S k)); [|apply IH].
  eapply d_val; [|apply d_scal, (derivable_pt_lim_pow v (S k))]. cbn [pred]. rewrite Nat.add_1_r. ring.
Qed.
(** C66: the gradient of a polynomial is exact for any number of coefficients ... *)
Lemma k_C66_polynomial coeffs x : coeffs <> [] ->
  (forall ix, rat (snd (polynomial_forward coeffs x)) ix = power_series 1 coeffs (rat x ix)) /\
  differentiates (polynomial_forward coeffs) (fun c g => match polynomial_backward c g with Some (d, _) => d | None => g end) x.
Proof.
  intros N. split; [intros ix; apply polynomial_value|]. destruct coeffs as [|c cs]; [contradiction|].
  apply (elementwise_at _ _ (fun _ => power_series 1 (c :: cs)) (fun ix => power_series 0 (times_arange 0 (c :: cs)) (rat x ix))).
  - intros x' Hx'. split; [exact Hx'|]. intros ix _. apply polynomial_value.
  - intros g Hg. split; [reflexivity|]. intros ix _. cbn [polynomial_forward fst polynomial_backward times_arange rmul rmap2 rmap rat]. rewrite polynomial_value. cbn [power_series]. rewrite pow_O. ring.
  - intros ix _. apply d_series.
Qed.
(** C66 refuted for the coefficients: the backward pass multiplies the caller's coefficient tensor; afterwards entry i holds (i+1) times what it held. *)
Lemma k_C66_polynomial_coefficients_refuted coeffs x g : coeffs <> [] ->
  exists d new, polynomial_backward (fst (polynomial_forward coeffs x)) g = Some (d, new) /\ length new = length coeffs /\ forall i, (i < length coeffs)%nat -> nth i new 0 = INR (i + 1) * nth i coeffs 0.
Proof.
  intros N. destruct coeffs as [|c cs]; [contradiction|]. cbn [polynomial_forward fst polynomial_backward times_arange]. eexists _, _. split; [reflexivity|].
  assert (G : forall l k, length (times_arange k l) = length l /\ forall i, (i < length l)%nat -> nth i (times_arange k l) 0 = INR (i + k + 1) * nth i l 0).
  { clear. induction l as [|c l IH]; intros k; [split; [reflexivity|cbn; lia]|]. cbn [times_arange length]. destruct (IH (S k)) as [L V]. split; [now rewrite L|]. intros [|i] Hi; cbn [nth]; [cbn [plus]; ring|]. rewrite V by lia. do 2 f_equal. lia. }
  destruct (G (c :: cs) 0%nat) as [L V]. split; [exact L|]. intros i Hi. specialize (V i Hi). rewrite Nat.add_0_r in V. exact V.
Qed.
(** C66: with no coefficient at all the backward pass raises. *)
Lemma k_C66_polynomial_empty x g : polynomial_backward (fst (polynomial_forward [] x)) g = None. Proof. reflexivity. Qed.

(** *** Powers.  The exponent [pow] really raises to. *)
Fixpoint effective (p : positive) : positive := match p with xH => xH | xO p => 2 * effective p | xI p => 3 * effective p end%positive.
Definition effectiveZ (p : Z) : Z := match p with Z0 => 0 | Zpos p => Zpos (effective p) | Zneg p => Zneg (effective p) end%Z.
Definition pow_exact (p : Z) : Prop := p = 0%Z \/ exists k, Z.abs p = (2 ^ Z.of_nat k)%Z \/ Z.abs p = (3 * 2 ^ Z.of_nat k)%Z.
Lemma effective_ge p : (p <= effective p)%positive. Proof. induction p as [p IH|p IH|]; cbn [effective]; lia. Qed.
Lemma effective_fix p : effective p = p <-> exists k, Zpos p = (2 ^ Z.of_nat k)%Z \/ Zpos p = (3 * 2 ^ Z.of_nat k)%Z.
Proof.
  split.
  - induction p as [p IH|p IH|]; cbn [effective]; intros H.
    + pose proof (effective_ge p). assert (p = 1)%positive as -> by lia. exists 0%nat. right. reflexivity.
    + destruct IH as [k K]; [lia|]. exists (S k). rewrite Nat2Z.inj_succ, Z.pow_succ_r by lia. rewrite Pos2Z.inj_xO. destruct K as [K|K]; [left|right]; rewrite K; ring.
    + exists 0%nat. now left.
  - intros [k K]. revert p K. induction k as [|k IH]; intros p K.
    + change (2 ^ Z.of_nat 0)%Z with 1%Z in K. destruct K as [K|K]; [assert (p = 1)%positive as -> by lia; reflexivity|assert (p = 3)%positive as -> by lia; reflexivity].
    + rewrite Nat2Z.inj_succ, Z.pow_succ_r in K by lia. pose proof (Z.pow_pos_nonneg 2 (Z.of_nat k) ltac:(lia) ltac:(lia)) as Q.
      destruct p as [p|p|]; [rewrite Pos2Z.inj_xI in K; lia| |lia]. cbn [effective]. rewrite Pos2Z.inj_xO in K. rewrite (IH p); [reflexivity|]. destruct K as [K|K]; [left|right]; lia.
Qed.
Lemma effectiveZ_exact p : effectiveZ p = p <-> pow_exact p.
Proof.
  unfold pow_exact. destruct p as [|p|p]; cbn [effectiveZ Z.abs].
  - split; [now left|reflexivity].
  - rewrite <- effective_fix. split; [intros H; right; congruence|]. intros [H|H]; [discriminate|now rewrite H].
  - rewrite <- effective_fix. split; [intros H; right; congruence|]. intros [H|H]; [discriminate|now rewrite H].
Qed.
Lemma pow_loop_pos : forall fuel p x, (Pos.to_nat p < fuel)%nat -> pow_loop fuel x (Zpos p) = x ^ Pos.to_nat (effective p).
Proof.
  induction fuel as [|f IH]; intros p x H; [lia|]. cbn [pow_loop].
  replace (Z.pos p <? -1)%Z with false by (symmetry; apply Z.ltb_ge; lia). replace (Z.pos p =? -1)%Z with false by reflexivity. replace (Z.pos p =? 0)%Z with false by reflexivity.
  destruct p as [p|p|]; [| |change (x = x ^ 1); now rewrite pow_1].
  - replace (Z.pos p~1 =? 1)%Z with false by reflexivity. replace (Z.pos p~1 =? 2)%Z with false by reflexivity. replace (Z.pos p~1 mod 2 =? 0)%Z with false.
    + replace ((Z.pos p~1 - 1) / 2)%Z with (Z.pos p). 2: { rewrite Pos2Z.inj_xI. replace (2 * Z.pos p + 1 - 1)%Z with (Z.pos p * 2)%Z by lia. now rewrite Z.div_mul by lia. }
      rewrite IH by lia. cbn [effective]. rewrite Pos2Nat.inj_mul, pow_mult. f_equal. change (Pos.to_nat 3) with 3%nat. ring.
    + symmetry. rewrite Pos2Z.inj_xI, Z.add_comm, Z.mul_comm, Z.mod_add by lia. reflexivity.
  - destruct (Pos.eq_dec p 1) as [->|N]; [change (x * x = x ^ 2); ring|]. replace (Z.pos p~0 =? 1)%Z with false by reflexivity. replace (Z.pos p~0 =? 2)%Z with false by (symmetry; apply Z.eqb_neq; lia). replace (Z.pos p~0 mod 2 =? 0)%Z with true.
    + replace (Z.pos p~0 / 2)%Z with (Z.pos p). 2: { rewrite Pos2Z.inj_xO, Z.mul_comm. now rewrite Z.div_mul by lia. }
      rewrite IH by lia. cbn [effective]. rewrite Pos2Nat.inj_mul, pow_mult. f_equal. change (Pos.to_nat 2) with 2%nat. ring.
    + symmetry. rewrite Pos2Z.inj_xO, Z.mul_comm, Z.mod_mul by lia. reflexivity.
Qed.
Lemma powi_effective x p : powi x p = powerRZ x (effectiveZ p).
Proof.
  unfold powi. destruct p as [|p|p]; [reflexivity| |].
  - rewrite pow_loop_pos by (cbn; lia). reflexivity.
  - cbn [effectiveZ powerRZ]. set (n := Z.abs_nat (Z.neg p)). cbn [pow_loop]. replace (Z.neg p =? 0)%Z with false by reflexivity. destruct (Pos.eq_dec p 1) as [->|N]; [change (/ x = / (x ^ 1)); now rewrite pow_1|].
    replace (Z.neg p <? -1)%Z with true by (symmetry; apply Z.ltb_lt; lia). change (- Z.neg p)%Z with (Z.pos p). change (if (Z.pos p <? -1)%Z then _ else _) with (pow_loop (S n) (/ x) (Z.pos p)).
    rewrite pow_loop_pos by (subst n; cbn; lia). apply pow_inv.
Qed.
Lemma powerRZ_S x n : x <> 0 -> powerRZ x (n + 1) = x * powerRZ x n. Proof. intros N. rewrite powerRZ_add by exact N. rewrite powerRZ_1. ring. Qed.
Lemma d_powerRZ n x : x <> 0 -> derivable_pt_lim (fun v => powerRZ v n) x (IZR n * powerRZ x (n - 1)).
Proof.
  intros N. destruct n as [|p|p].
  - cbn [powerRZ]. eapply d_val; [|apply d_const]. ring.
  - cbn [powerRZ]. eapply d_val; [|apply (derivable_pt_lim_pow x (Pos.to_nat p))]. rewrite INR_IZR_INZ, positive_nat_Z. f_equal. rewrite <- Nat.sub_1_r.
    replace (Z.pos p - 1)%Z with (Z.of_nat (Pos.to_nat p - 1)) by lia. symmetry. rewrite <- pow_powerRZ. reflexivity.
  - cbn [powerRZ]. eapply d_val; [|apply (d_inv (fun v => v ^ Pos.to_nat p) x); [now apply pow_nonzero|apply (derivable_pt_lim_pow x (Pos.to_nat p))]].
    assert (E : forall q, powerRZ x (Z.neg q) = / x ^ Pos.to_nat q) by reflexivity. pose proof (pow_nonzero x (Pos.to_nat p) N) as Q. destruct (Pos2Nat.is_succ p) as [m Hm]. rewrite INR_IZR_INZ, positive_nat_Z.
    replace (Z.neg p - 1)%Z with (Z.neg (p + 1)) by lia. rewrite E, Pos2Nat.inj_add. change (Pos.to_nat 1) with 1%nat. rewrite pow_add, Hm. cbn [pred]. change (IZR (Z.neg p)) with (IZR (- Z.pos p)). rewrite opp_IZR. rewrite Hm in Q. cbn [pow] in *. field. split; [exact N|now apply pow_nonzero].
Qed.
(** [pow(p)] raises to [effectiveZ (p-1) + 1]; the gradient uses p times the [effectiveZ (p-1)]-th power. *)
Lemma pow_forward_value p x : forall ix, rat (snd (pow_forward p x)) ix = powerRZ (rat x ix) (effectiveZ (p - 1)) * rat x ix. Proof. intros ix. cbn [pow_forward snd rmul rmap2 rmap rat]. now rewrite powi_effective. Qed.
(** C66: integer powers, when p - 1 is 0 or one of the exponents that [pow] gets right (plus or minus 2^k and 3*2^k). *)
Lemma k_C66_pow p : pow_exact (p - 1) -> correct (fun v => v <> 0) (fun v => powerRZ v p) (pow_forward p) pow_backward.
Proof.
  intros E. apply effectiveZ_exact in E. apply (elementwise_correct _ _ (fun v => powerRZ v (p - 1) * v) (fun v => IZR p * powerRZ v (p - 1))).
  - intros x. split; [reflexivity|]. intros ix. rewrite pow_forward_value, E. reflexivity.
  - intros v N. replace p with (p - 1 + 1)%Z at 2 by ring. rewrite powerRZ_S by exact N. ring.
  - intros x g Hg. split; [reflexivity|]. intros ix. cbn [pow_forward fst snd pow_backward rmul rmap2 rmap rat]. rewrite powi_effective, E. ring.
  - intros v N. eapply d_val; [|apply d_mult; [apply d_powerRZ, N|apply d_id]]. cbn beta. rewrite minus_IZR. replace (powerRZ v (p - 1)) with (v * powerRZ v (p - 1 - 1)) by (rewrite <- powerRZ_S by exact N; f_equal; ring). ring.
Qed.
(** The backward pass at the scalar v, and the only value it could have. *)
Definition scalar (v : R) : rtensor := mkR [] (fun _ => v).
Lemma inner_scalar a b : rshape a = [] -> rinner a b = rat a [] * rat b []. Proof. intros H. unfold rinner. rewrite H. apply rsums_nil. Qed.
Lemma scalar_gradient {C} (forward : rtensor -> C * rtensor) backward (f : R -> R) v d : differentiates forward backward (scalar v) ->
  (forall x, rshape x = [] -> rshape (snd (forward x)) = [] /\ rat (snd (forward x)) [] = f (rat x [])) -> derivable_pt_lim f v d -> rat (backward (fst (forward (scalar v))) (scalar 1)) [] = d.
Proof.
  intros D F Hf. destruct (F (scalar v) eq_refl) as [S0 _]. destruct (D (scalar 1) (eq_sym S0)) as [SB H]. destruct (H (scalar 1) eq_refl) as [_ L].
  rewrite inner_scalar in L by exact SB. cbn [scalar rat] in L. rewrite Rmult_1_r in L. apply (uniqueness_limite (fun t => f (v + t * 1)) 0).
  - eapply d_ext; [|exact L]. intros t. cbn beta. rewrite inner_scalar by reflexivity. rewrite (proj2 (F (moved (scalar v) (scalar 1) t) eq_refl)). cbn [scalar moved rat]. ring.
  - eapply d_val; [|apply (d_comp (fun t => v + t * 1) f); [apply d_line|rewrite Rmult_0_l, Rplus_0_r; exact Hf]]. ring.
Qed.
(** C66 refuted for every other p: the result is another power and the gradient is not its derivative, at any non-zero entry. *)
Lemma k_C66_pow_refuted p : p <> 0%Z -> ~ pow_exact (p - 1) ->
  (forall v, v <> 0 -> rat (snd (pow_forward p (scalar v))) [] = powerRZ v (effectiveZ (p - 1) + 1)) /\ effectiveZ (p - 1) <> (p - 1)%Z /\
  forall v, v <> 0 -> ~ differentiates (pow_forward p) pow_backward (scalar v).
Proof.
  intros P N. assert (Q : effectiveZ (p - 1) <> (p - 1)%Z) by (intros E; now apply N, effectiveZ_exact). set (q := effectiveZ (p - 1)) in *.
  split; [|split; [exact Q|]].
  - intros v V. rewrite pow_forward_value. fold q. rewrite powerRZ_S by exact V. cbn [scalar rat]. ring.
  - intros v V D. pose proof (scalar_gradient (pow_forward p) pow_backward (fun v => powerRZ v q * v) v ((IZR q + 1) * powerRZ v q) D) as G.
    assert (E : rat (pow_backward (fst (pow_forward p (scalar v))) (scalar 1)) [] = IZR p * powerRZ v q) by (cbn [pow_forward fst snd pow_backward rmul rmap2 rmap rat scalar]; rewrite powi_effective; fold q; ring).
    rewrite E in G. assert (X : IZR p * powerRZ v q = (IZR q + 1) * powerRZ v q).
    { apply G.
      - intros x Hx. split; [exact Hx|]. apply pow_forward_value.
      - eapply d_val; [|apply d_mult; [apply d_powerRZ, V|apply d_id]]. cbn beta. replace (powerRZ v q) with (v * powerRZ v (q - 1)) by (rewrite <- powerRZ_S by exact V; f_equal; ring). ring. }
    apply Rmult_eq_reg_r in X; [|now apply powerRZ_NOR]. apply Q. rewrite <- (plus_IZR q 1) in X. apply eq_IZR in X. lia.
Qed.
(** C66: [pos_pow] with a whole exponent, when [pow] gets p and p - 1 right. *)
Lemma k_C66_pos_pow_whole p : pow_exact p -> pow_exact (p - 1) -> correct (fun v => 0 < v) (fun v => powerRZ v p) (pos_pow_forward (Whole p)) pos_pow_backward.
Proof.
  intros E E1. apply effectiveZ_exact in E. apply effectiveZ_exact in E1. apply (elementwise_correct _ _ (fun v => powerRZ v p) (fun v => IZR p * powerRZ v (p - 1))).
  - intros x. split; [reflexivity|]. intros ix. cbn [pos_pow_forward snd rmap rat]. now rewrite powi_effective, E.
  - reflexivity.
  - intros x g Hg. split; [reflexivity|]. intros ix. cbn [pos_pow_forward fst snd pos_pow_backward rmul rmap2 rmap rat]. rewrite powi_effective, E1. ring.
  - intros v V. apply d_powerRZ. lra.
Qed.
(** C66: [pos_pow] with a fractional exponent computes the power ... *)
Lemma k_C66_pos_pow_value q x : entries (fun v => 0 < v) x -> computes (fun v => Rpower v q) (pos_pow_forward (Fractional q)) x.
Proof. intros P. split; [reflexivity|]. intros ix V. cbn. unfold Rpower. f_equal. ring. Qed.
(** C66 refuted for the gradient of [pos_pow] with a fractional exponent: the incoming gradient is multiplied by v^(q(q-1)) instead of q v^(q-1); at v = 1, by 1 instead of q. *)
Lemma k_C66_pos_pow_refuted q : q <> 1 -> ~ differentiates (pos_pow_forward (Fractional q)) pos_pow_backward (scalar 1).
Proof.
  intros Q D. pose proof (scalar_gradient _ _ (fun v => exp (ln v * q)) 1 q D) as G. apply Q. rewrite <- G; clear G.
  - cbn. rewrite ln_1. rewrite !Rmult_0_l, exp_0. ring.
  - intros x Hx. split; [exact Hx|reflexivity].
  - eapply d_val; [|apply (d_comp (fun v => ln v * q) exp); [apply d_mult; [apply derivable_pt_lim_ln; lra|apply d_const]|apply derivable_pt_lim_exp]]. cbn beta. rewrite ln_1, Rmult_0_l, exp_0, Rinv_1. ring.
Qed.

(** C67: softmax and the loss functions, and the lemmas. *)
Require Import List Reals ZArith Arith Bool Lia Lra.
From Verif Require Import Ring64 Tensor Tensor_proofs Rtensor Rtensor_proofs Realgrad Realgrad_claims Realloss.
Import ListNotations.
Open Scope R_scope.

(** *** Specification *)
(** the probabilities of a line of scores *)
Definition probability (d : nat) (x : rtensor) (ix : index) : R := exp (rat x ix) / rsumn (pos d (rshape x)) (fun j => exp (rat x (upd d j ix))).
(** -[t ln p + (1-t) ln (1-p)] averaged over all entries *)
Definition binary_loss (p : R -> R) (target x : rtensor) : R :=
  - (rsums (rshape x) (fun ix => rat target ix * ln (p (rat x ix)) + (1 - rat target ix) * ln (1 - p (rat x ix))) / INR (product (rshape x))).
Definition logistic (v : R) : R := 1 / (1 + exp (- v)).
(** noisy labels: the probability of a one when labels are kept with probability alpha *)
Definition kept (alpha v : R) : R := alpha * logistic v + (1 - alpha) * (1 - logistic v).
(** targets are distributions along dimension d *)
Definition distribution (d : nat) (t : rtensor) : Prop := forall ix, valid (rshape t) ix -> rsumn (pos d (rshape t)) (fun j => rat t (upd d j ix)) = 1.

(** *** Softmax *)
Lemma line_valid d s ix : (d < length s)%nat -> valid s ix -> forall j, (j < pos d s)%nat -> valid s (upd d j ix). Proof. intros. now apply valid_upd. Qed.
Lemma exp_sum_pos n f : (0 < n)%nat -> 0 < rsumn n (fun j => exp (f j)). Proof. intros H. apply rsumn_pos; [exact H|]. intros. apply exp_pos. Qed.
Lemma dim_pos d s ix : (d < length s)%nat -> valid s ix -> (0 < pos d s)%nat. Proof. intros H V. pose proof (valid_at d s ix H V). lia. Qed.
Lemma is_0d_shape x : is_0d x = true -> rshape x = []. Proof. unfold is_0d. destruct (rshape x); [reflexivity|discriminate]. Qed.
Lemma line_upd d s ix j i : (d < length s)%nat -> valid s ix -> upd d j (upd d i ix) = upd d j ix. Proof. intros H V. apply upd_upd. now rewrite (valid_length _ _ V). Qed.
Lemma rmaxn_ext n f g : (forall j, f j = g j) -> rmaxn n f = rmaxn n g. Proof. intros E. induction n as [|n IH]; [reflexivity|]. cbn [rmaxn]. rewrite IH, !E. reflexivity. Qed.
Lemma softmax_value d x ix : (d < length (rshape x))%nat -> valid (rshape x) ix -> rat (softmax d x) ix = probability d x ix.
Proof.
  intros H V. pose proof (dim_pos d _ ix H V) as P. unfold softmax, probability. destruct (is_0d x) eqn:E; [apply is_0d_shape in E; rewrite E in H; cbn in H; lia|]. cbn [orb]. destruct (Nat.eqb (size d x) 1) eqn:E1.
  - apply Nat.eqb_eq in E1. unfold size in E1. rewrite E1. cbn [rmap rat]. rewrite (rsumn_S 0). unfold rsumn at 1. cbn [seq map rsum fold_right]. assert (A : upd d 0 ix = ix). { pose proof (valid_at d _ ix H V) as Q. replace O with (pos d ix) by lia. apply upd_pos. now rewrite (valid_length _ _ V). } rewrite A. unfold rsum. cbn [fold_right]. rewrite Rplus_0_l. field. apply Rgt_not_eq, exp_pos.
  - unfold rmul, rmap2, rmap, along, line, size. cbn [rat rshape]. set (m := rmaxn (pos d (rshape x))). set (n := pos d (rshape x)) in *.
    assert (Q : rsumn n (fun i => exp (rat x (upd d i ix) - m (fun j => rat x (upd d j (upd d i ix))))) = exp (- m (fun j => rat x (upd d j ix))) * rsumn n (fun i => exp (rat x (upd d i ix)))).
    { rewrite <- rsumn_scale. apply rsumn_ext. intros i Hi. rewrite <- exp_plus. f_equal. replace (m (fun j => rat x (upd d j (upd d i ix)))) with (m (fun j => rat x (upd d j ix))); [ring|].
      subst m. apply rmaxn_ext. intros j. rewrite (line_upd d (rshape x)) by assumption. reflexivity. }
    change (fun i : nat => rat {| rshape := rshape x; rat := fun ix0 : index => exp (rat x ix0 - m (fun i0 : nat => rat x (upd d i0 ix0))) |} (upd d i ix)) with (fun i => exp (rat x (upd d i ix) - m (fun j => rat x (upd d j (upd d i ix))))).
    rewrite Q. pose proof (exp_sum_pos n (fun i => rat x (upd d i ix)) P). pose proof (exp_pos (- m (fun j => rat x (upd d j ix)))). unfold Rminus. rewrite exp_plus. field. split; lra.
Qed.
Lemma log_softmax_value d x ix : (d < length (rshape x))%nat -> valid (rshape x) ix -> rat (log_softmax d x) ix = ln (probability d x ix).
Proof.
  intros H V. pose proof (dim_pos d _ ix H V) as P. unfold log_softmax, probability. destruct (is_0d x) eqn:E; [apply is_0d_shape in E; rewrite E in H; cbn in H; lia|]. cbn [orb]. destruct (Nat.eqb (size d x) 1) eqn:E1.
  - apply Nat.eqb_eq in E1. unfold size in E1. rewrite E1. cbn [rmap rat]. rewrite (rsumn_S 0). unfold rsumn at 1. cbn [seq map rsum fold_right]. assert (A : upd d 0 ix = ix). { pose proof (valid_at d _ ix H V) as Q. replace O with (pos d ix) by lia. apply upd_pos. now rewrite (valid_length _ _ V). } rewrite A. unfold rsum. cbn [fold_right]. rewrite Rplus_0_l. rewrite <- ln_1. f_equal. symmetry. apply Rinv_r. apply Rgt_not_eq, exp_pos.
  - unfold rmul, rmap2, rmap, along, line, size. cbn [rat rshape]. set (m := rmaxn (pos d (rshape x))). set (n := pos d (rshape x)) in *.
    assert (Q : rsumn n (fun i => exp (rat x (upd d i ix) - m (fun j => rat x (upd d j (upd d i ix))))) = exp (- m (fun j => rat x (upd d j ix))) * rsumn n (fun i => exp (rat x (upd d i ix)))).
    { rewrite <- rsumn_scale. apply rsumn_ext. intros i Hi. rewrite <- exp_plus. f_equal. replace (m (fun j => rat x (upd d j (upd d i ix)))) with (m (fun j => rat x (upd d j ix))); [ring|].
      subst m. apply rmaxn_ext. intros j. rewrite (line_upd d (rshape x)) by assumption. reflexivity. }
    change (fun i : nat => rat {| rshape := rshape x; rat := fun ix0 : index => exp (rat x ix0 - m (fun i0 : nat => rat x (upd d i0 ix0))) |} (upd d i ix)) with (fun i => exp (rat x (upd d i ix) - m (fun j => rat x (upd d j (upd d i ix))))).
    rewrite Q. pose proof (exp_sum_pos n (fun i => rat x (upd d i ix)) P) as S. pose proof (exp_pos (- m (fun j => rat x (upd d j ix)))) as T. unfold Rdiv. rewrite (ln_mult (exp (rat x ix))) by (try apply exp_pos; apply Rinv_0_lt_compat, S). rewrite ln_exp, ln_Rinv by exact S. rewrite ln_mult by assumption. rewrite ln_exp. ring.
Qed.
Lemma softmax_shape d x : rshape (softmax d x) = rshape x. Proof. unfold softmax. destruct (is_0d x || Nat.eqb (size d x) 1); reflexivity. Qed.
Lemma log_softmax_shape d x : rshape (log_softmax d x) = rshape x. Proof. unfold log_softmax. destruct (is_0d x || Nat.eqb (size d x) 1); reflexivity. Qed.
Lemma probability_pos d x ix : (d < length (rshape x))%nat -> valid (rshape x) ix -> 0 < probability d x ix.
Proof. intros H V. unfold probability, Rdiv. apply Rmult_lt_0_compat; [apply exp_pos|]. apply Rinv_0_lt_compat, exp_sum_pos. now apply dim_pos with ix. Qed.
Lemma probability_sum d x ix : (d < length (rshape x))%nat -> valid (rshape x) ix -> rsumn (pos d (rshape x)) (fun j => probability d x (upd d j ix)) = 1.
Proof.
  intros H V. pose proof (dim_pos d _ ix H V) as P. pose proof (exp_sum_pos _ (fun j => rat x (upd d j ix)) P) as S. unfold probability. erewrite rsumn_ext.
  2: { intros i Hi. cbn beta. unfold Rdiv. rewrite Rmult_comm. erewrite (rsumn_ext _ (fun j => exp (rat x (upd d j (upd d i ix))))) by (intros j Hj; rewrite (line_upd d (rshape x)) by assumption; reflexivity). reflexivity. }
  rewrite rsumn_scale. field. lra.
Qed.
(** derivative of one probability and of its logarithm in the direction h *)
Definition mean_dir (d : nat) (x h : rtensor) (ix : index) : R := rsumn (pos d (rshape x)) (fun j => probability d x (upd d j ix) * rat h (upd d j ix)).
Lemma moved_0 x h ix : rat (moved x h 0) ix = rat x ix. Proof. cbn. ring. Qed.
Lemma d_probability d x h ix : (d < length (rshape x))%nat -> valid (rshape x) ix ->
  derivable_pt_lim (fun t => probability d (moved x h t) ix) 0 (probability d x ix * (rat h ix - mean_dir d x h ix)).
Proof.
  intros H V. pose proof (dim_pos d _ ix H V) as P. unfold probability. cbn [moved rshape rat]. set (n := pos d (rshape x)) in *. pose proof (exp_sum_pos n (fun j => rat x (upd d j ix)) P) as S. set (Z := rsumn n (fun j => exp (rat x (upd d j ix)))) in *.
  assert (E0 : rsumn n (fun j => exp (rat x (upd d j ix) + 0 * rat h (upd d j ix))) = Z) by (apply rsumn_ext; intros; f_equal; ring).
  assert (DE : forall jx, derivable_pt_lim (fun t => exp (rat x jx + t * rat h jx)) 0 (exp (rat x jx) * rat h jx)).
  { intros jx. apply (d_comp (fun t => rat x jx + t * rat h jx) exp); [apply d_line|]. eapply d_val; [|apply derivable_pt_lim_exp]. f_equal. ring. }
  eapply d_val; [|apply (d_mult (fun t => exp (rat x ix + t * rat h ix))); [apply DE|apply (d_inv (fun t => rsumn n (fun j => exp (rat x (upd d j ix) + t * rat h (upd d j ix))))); [rewrite E0; lra|apply (d_rsumn n (fun j t => exp (rat x (upd d j ix) + t * rat h (upd d j ix)))); intros j _; apply DE]]].
  cbn beta. rewrite E0. replace (rat x ix + 0 * rat h ix) with (rat x ix) by ring.
  assert (M : mean_dir d x h ix = rsumn n (fun j => exp (rat x (upd d j ix)) * rat h (upd d j ix)) / Z).
  { unfold mean_dir. fold n. unfold Rdiv. rewrite Rmult_comm, <- rsumn_scale. apply rsumn_ext. intros j Hj. unfold probability. fold n. unfold Z. erewrite (rsumn_ext n (fun j0 => exp (rat x (upd d j0 (upd d j ix))))) by (intros k Hk; rewrite (line_upd d (rshape x)) by assumption; reflexivity). unfold Rdiv. ring. }
  rewrite M. field. lra.
Qed.
Lemma d_log_probability d x h ix : (d < length (rshape x))%nat -> valid (rshape x) ix ->
  derivable_pt_lim (fun t => ln (probability d (moved x h t) ix)) 0 (rat h ix - mean_dir d x h ix).
Proof.
  intros H V. assert (E : probability d (moved x h 0) ix = probability d x ix). { unfold probability. cbn [moved rshape rat]. f_equal; [f_equal; ring|]. apply rsumn_ext. intros. f_equal. ring. }
  pose proof (probability_pos d x ix H V) as P. eapply d_val; [|apply (d_comp (fun t => probability d (moved x h t) ix) ln); [apply d_probability; assumption|apply derivable_pt_lim_ln; rewrite E; exact P]]. rewrite E. field. lra.
Qed.
(** exchanging the two sums of a line: the sum over an array of a_ix * (line sum of b) = the sum of b_ix * (line sum of a) *)
Lemma line_exchange d s (a b : index -> R) : (d < length s)%nat ->
  rsums s (fun ix => a ix * rsumn (pos d s) (fun j => b (upd d j ix))) = rsums s (fun ix => b ix * rsumn (pos d s) (fun j => a (upd d j ix))).
Proof.
  intros H. rewrite !(rsums_dim d s) by exact H. apply rsums_ext. intros ix V. assert (L : (d <= length ix)%nat) by (rewrite (valid_length _ _ V), del_length by exact H; lia).
  erewrite rsumn_ext by (intros i Hi; cbn beta; erewrite (rsumn_ext _ (fun j => b (upd d j (ins d i ix)))) by (intros j Hj; rewrite upd_ins by exact L; reflexivity); rewrite Rmult_comm; reflexivity).
  rewrite rsumn_scale, Rmult_comm, <- rsumn_scale. apply rsumn_ext. intros i Hi. rewrite Rmult_comm. f_equal. apply rsumn_ext. intros j Hj. now rewrite upd_ins by exact L.
Qed.
(** *** Reducing a claim to the derivative of each output entry *)
Lemma pointwise {C} (forward : rtensor -> C * rtensor) backward x so :
  (forall x', rshape x' = rshape x -> rshape (snd (forward x')) = so) ->
  (forall g, rshape g = so -> rshape (backward (fst (forward x)) g) = rshape x /\
    forall h, rshape h = rshape x -> exists D, (forall ix, valid so ix -> derivable_pt_lim (fun t => rat (snd (forward (moved x h t))) ix) 0 (D ix)) /\ rsums so (fun ix => rat g ix * D ix) = rinner (backward (fst (forward x)) g) h) ->
  differentiates forward backward x.
Proof.
  intros S H g Hg. rewrite (S x eq_refl) in Hg. destruct (H g Hg) as [SB D]. split; [exact SB|]. intros h Hh. destruct (D h Hh) as (D' & DD & E). split; [intros t; rewrite (S (moved x h t) eq_refl); now rewrite (S x eq_refl)|].
  rewrite <- E. unfold rinner. rewrite Hg. apply (d_rsums so (fun ix t => rat g ix * rat (snd (forward (moved x h t))) ix)). intros ix V. apply d_scal, DD, V.
Qed.
(** C67: softmax along a dimension gives exp(x_i) / sum_j exp(x_j), a positive vector with sum 1 ... *)
Lemma k_C67_softmax_value d x ix : (d < length (rshape x))%nat -> valid (rshape x) ix ->
  rat (softmax d x) ix = probability d x ix /\ 0 < probability d x ix /\ rsumn (pos d (rshape x)) (fun j => rat (softmax d x) (upd d j ix)) = 1 /\ rat (log_softmax d x) ix = ln (probability d x ix).
Proof.
  intros H V. split; [now apply softmax_value|]. split; [now apply probability_pos|]. split; [|now apply log_softmax_value]. rewrite <- (probability_sum d x ix H V). apply rsumn_ext. intros j Hj. apply softmax_value; [exact H|now apply line_valid].
Qed.
(** C67: ... and its gradient is exact. *)
Lemma k_C67_softmax d x : (d < length (rshape x))%nat -> differentiates (softmax_forward d) softmax_backward x.
Proof.
  intros H. apply (pointwise _ _ x (rshape x)); [intros x' E; cbn; now rewrite softmax_shape|]. intros g Hg.
  assert (B : rshape (softmax_backward (softmax d x, d) g) = rshape x /\ forall ix, valid (rshape x) ix -> rat (softmax_backward (softmax d x, d) g) ix = (rat g ix - rsumn (pos d (rshape x)) (fun j => probability d x (upd d j ix) * rat g (upd d j ix))) * probability d x ix).
  { unfold softmax_backward. destruct (is_0d g) eqn:E; [apply is_0d_shape in E; rewrite <- Hg, E in H; cbn in H; lia|]. cbn [orb]. unfold size. rewrite Hg. destruct (Nat.eqb (pos d (rshape x)) 1) eqn:E1.
    - split; [exact Hg|]. intros ix V. cbn [rmap rat]. apply Nat.eqb_eq in E1. pose proof (probability_sum d x ix H V) as S1. rewrite E1 in *. rewrite rsumn_S in *. unfold rsumn, rsum in *. cbn [seq map fold_right] in *.
      assert (A : upd d 0 ix = ix). { pose proof (valid_at d _ ix H V) as Q. rewrite E1 in Q. replace O with (pos d ix) by lia. apply upd_pos. now rewrite (valid_length _ _ V). } rewrite A in *. replace (probability d x ix) with 1 by lra. ring.
    - split; [exact Hg|]. intros ix V. unfold rmul, rmap2, rmap, along, line. cbn [rat rshape]. rewrite softmax_value by assumption. unfold Rminus. f_equal. f_equal. f_equal. apply rsumn_ext. intros j Hj. rewrite softmax_value by (try assumption; now apply line_valid). reflexivity. }
  destruct B as [SB VB]. split; [exact SB|]. intros h Hh. exists (fun ix => probability d x ix * (rat h ix - mean_dir d x h ix)). split.
  - intros ix V. eapply d_ext; [|apply (d_probability d x h ix H V)]. intros t. symmetry. exact (softmax_value d (moved x h t) ix H V).
  - unfold rinner. cbn [softmax_forward fst]. rewrite SB. erewrite (rsums_ext _ (fun ix => rat (softmax_backward _ g) ix * rat h ix)); [|intros ix V; rewrite VB by exact V; reflexivity].
    transitivity (rsums (rshape x) (fun ix => rat g ix * probability d x ix * rat h ix) - rsums (rshape x) (fun ix => (probability d x ix * rat g ix) * rsumn (pos d (rshape x)) (fun j => probability d x (upd d j ix) * rat h (upd d j ix)))).
    + rewrite <- rsums_minus. apply rsums_ext. intros ix V. unfold mean_dir. ring.
    + rewrite (line_exchange d (rshape x) (fun ix => probability d x ix * rat g ix) (fun ix => probability d x ix * rat h ix) H). rewrite <- rsums_minus. apply rsums_ext. intros ix V. ring.
Qed.
(** C67: the gradient of log_softmax is exact. *)
Lemma k_C67_log_softmax d x : (d < length (rshape x))%nat -> differentiates (log_softmax_forward d) log_softmax_backward x.
Proof.
  intros H. apply (pointwise _ _ x (rshape x)); [intros x' E; cbn; now rewrite log_softmax_shape|]. intros g Hg.
  assert (B : rshape (log_softmax_backward (log_softmax d x, d) g) = rshape x /\ forall ix, valid (rshape x) ix -> rat (log_softmax_backward (log_softmax d x, d) g) ix = rat g ix - probability d x ix * rsumn (pos d (rshape x)) (fun j => rat g (upd d j ix))).
  { unfold log_softmax_backward. destruct (is_0d g) eqn:E; [apply is_0d_shape in E; rewrite <- Hg, E in H; cbn in H; lia|]. cbn [orb]. unfold size. rewrite Hg. destruct (Nat.eqb (pos d (rshape x)) 1) eqn:E1.
    - split; [exact Hg|]. intros ix V. cbn [rmap rat]. apply Nat.eqb_eq in E1. pose proof (probability_sum d x ix H V) as S1. rewrite E1 in *. rewrite rsumn_S in *. unfold rsumn, rsum in *. cbn [seq map fold_right] in *.
      assert (A : upd d 0 ix = ix). { pose proof (valid_at d _ ix H V) as Q. rewrite E1 in Q. replace O with (pos d ix) by lia. apply upd_pos. now rewrite (valid_length _ _ V). } rewrite A in *. replace (probability d x ix) with 1 by lra. ring.
    - split; [exact Hg|]. intros ix V. unfold rmul, rmap2, rmap, along, line. cbn [rat rshape]. rewrite log_softmax_value by assumption. rewrite exp_ln by (now apply probability_pos). reflexivity. }
  destruct B as [SB VB]. split; [exact SB|]. intros h Hh. exists (fun ix => rat h ix - mean_dir d x h ix). split.
  - intros ix V. eapply d_ext; [|apply (d_log_probability d x h ix H V)]. intros t. symmetry. exact (log_softmax_value d (moved x h t) ix H V).
  - unfold rinner. cbn [log_softmax_forward fst]. rewrite SB. erewrite (rsums_ext _ (fun ix => rat (log_softmax_backward _ g) ix * rat h ix)); [|intros ix V; rewrite VB by exact V; reflexivity].
    transitivity (rsums (rshape x) (fun ix => rat g ix * rat h ix) - rsums (rshape x) (fun ix => rat g ix * rsumn (pos d (rshape x)) (fun j => probability d x (upd d j ix) * rat h (upd d j ix)))).
    + rewrite <- rsums_minus. apply rsums_ext. intros ix V. unfold mean_dir. ring.
    + rewrite (line_exchange d (rshape x) (rat g) (fun ix => probability d x ix * rat h ix) H). rewrite <- rsums_minus. apply rsums_ext. intros ix V. ring.
Qed.
(** C67: the 0-d cases: softmax is 1, log_softmax is 0, and both gradients are 0. *)
Lemma k_C67_softmax_0d x : rshape x = [] -> rat (softmax 0 x) [] = 1 /\ rat (log_softmax 0 x) [] = 0 /\ differentiates (softmax_forward 0) softmax_backward x /\ differentiates (log_softmax_forward 0) log_softmax_backward x.
Proof.
  intros H. assert (Z : forall x', rshape x' = [] -> is_0d x' = true) by (intros x' E; unfold is_0d; now rewrite E). unfold softmax, log_softmax. rewrite (Z x H). split; [reflexivity|]. split; [reflexivity|].
  split; [apply (elementwise_at _ _ (fun _ _ => 1) (fun _ => 0))|apply (elementwise_at _ _ (fun _ _ => 0) (fun _ => 0))].
  - intros x' E. unfold softmax_forward, softmax. rewrite (Z x') by congruence. split; [exact E|]. intros ix _. reflexivity.
  - intros g E. unfold softmax_forward, softmax_backward. cbn [fst]. rewrite (Z g) by congruence. split; [exact E|]. intros ix _. cbn. ring.
  - intros ix _. apply d_const.
  - intros x' E. unfold log_softmax_forward, log_softmax. rewrite (Z x') by congruence. split; [exact E|]. intros ix _. reflexivity.
  - intros g E. unfold log_softmax_forward, log_softmax_backward. cbn [fst]. rewrite (Z g) by congruence. split; [exact E|]. intros ix _. cbn. ring.
  - intros ix _. apply d_const.
Qed.

(** *** Losses: one number *)
Lemma to_scalar {C} (forward : rtensor -> C * rtensor) backward x (L : rtensor -> R) (d : index -> R) :
  (forall x', rshape x' = rshape x -> rshape (snd (forward x')) = [] /\ rat (snd (forward x')) [] = L x') ->
  (forall g, rshape g = [] -> rshape (backward (fst (forward x)) g) = rshape x /\ forall ix, valid (rshape x) ix -> rat (backward (fst (forward x)) g) ix = d ix * rat g []) ->
  (forall h, rshape h = rshape x -> derivable_pt_lim (fun t => L (moved x h t)) 0 (rsums (rshape x) (fun ix => d ix * rat h ix))) ->
  differentiates forward backward x.
Proof.
  intros F B D. apply (pointwise _ _ x []); [intros x' E; now apply F|]. intros g Hg. destruct (B g Hg) as [SB VB]. split; [exact SB|]. intros h Hh. exists (fun _ => rsums (rshape x) (fun ix => d ix * rat h ix)). split.
  - intros ix V. destruct ix; [|destruct V]. eapply d_ext; [|apply D, Hh]. intros t. symmetry. apply (F (moved x h t)). reflexivity.
  - rewrite rsums_nil. unfold rinner. rewrite SB, <- rsums_scale. apply rsums_ext. intros ix V. rewrite VB by exact V. ring.
Qed.
(** an average of terms, one per entry *)
Lemma d_average x h (f : index -> R -> R) (d : index -> R) c : (forall ix, valid (rshape x) ix -> derivable_pt_lim (f ix) (rat x ix) (d ix)) ->
  derivable_pt_lim (fun t => - (rsums (rshape x) (fun ix => f ix (rat (moved x h t) ix)) / c)) 0 (rsums (rshape x) (fun ix => (- d ix / c) * rat h ix)).
Proof.
  intros D. eapply d_val; [|apply d_opp, (d_mult (fun t => rsums (rshape x) (fun ix => f ix (rat (moved x h t) ix))) (fun _ => / c)); [|apply d_const]].
  2: { apply (d_rsums (rshape x) (fun ix t => f ix (rat (moved x h t) ix))). intros ix V. apply (d_comp (fun t => rat (moved x h t) ix) (f ix)); [apply d_line|]. rewrite moved_0. exact (D ix V). }
  cbn beta. rewrite Rmult_0_r, Rplus_0_r, Rmult_comm. unfold Rdiv. rewrite <- Ropp_mult_distr_l_reverse. rewrite <- rsums_scale. apply rsums_ext. intros ix V. ring.
Qed.
Lemma d_likelihood (p : R -> R) t v p' : 0 < p v < 1 -> derivable_pt_lim p v p' ->
  derivable_pt_lim (fun u => t * ln (p u) + (1 - t) * ln (1 - p u)) v ((t / p v - (1 - t) / (1 - p v)) * p').
Proof.
  intros P D. eapply d_val; [|apply d_plus; apply d_scal; [apply (d_comp p ln); [exact D|apply derivable_pt_lim_ln; lra]|apply (d_comp (fun u => 1 - p u) ln); [apply d_minus; [apply d_const|exact D]|apply derivable_pt_lim_ln; lra]]].
  field. split; lra.
Qed.
Lemma logistic_01 v : 0 < logistic v < 1.
Proof. unfold logistic. pose proof (exp_pos (- v)) as E. split; [apply Rdiv_lt_0_compat; lra|]. apply (Rmult_lt_reg_r (1 + exp (- v))); [lra|]. unfold Rdiv. rewrite Rmult_assoc, Rinv_l by lra. lra. Qed.
Lemma d_logistic v : derivable_pt_lim logistic v (logistic v * (1 - logistic v)).
Proof. unfold logistic. eapply d_val; [|eapply d_ext; [|apply d_sigmoid]]; [unfold sigmoid; field; apply sigmoid_ne|]. intros t. unfold sigmoid. lra. Qed.
Lemma sigmoid_logistic v : sigmoid v = logistic v. Proof. unfold sigmoid, logistic. lra. Qed.

(** C67: binary cross entropy of predictions strictly between 0 and 1. *)
Lemma k_C67_binary_cross_entropy target x : rshape target = rshape x -> entries (fun v => 0 < v < 1) x ->
  rat (snd (bce_forward target x)) [] = binary_loss (fun v => v) target x /\ differentiates (bce_forward target) bce_backward x.
Proof.
  intros S P. assert (V : forall x', rshape x' = rshape x -> rshape (snd (bce_forward target x')) = [] /\ rat (snd (bce_forward target x')) [] = binary_loss (fun v => v) target x').
  { intros x' E. split; [reflexivity|]. unfold binary_loss. cbn [bce_forward snd neg rmap mean_all reduce_all rat]. unfold nelement. cbn [log_likelihood rmap2 rmap rmul rshape rat]. rewrite S, E. reflexivity. }
  split; [now apply V|]. apply (to_scalar _ _ x (binary_loss (fun v => v) target) (fun ix => - ((rat target ix / rat x ix - (1 - rat target ix) / (1 - rat x ix)) * 1) / INR (product (rshape x)))); [exact V| |].
  - intros g Hg. split; [reflexivity|]. intros ix Vx. cbn [bce_forward fst bce_backward times rmap rmap2 rmul rat nelement]. unfold nelement. rewrite S. unfold Rdiv. ring.
  - intros h Hh. apply (d_average x h (fun ix v => rat target ix * ln v + (1 - rat target ix) * ln (1 - v)) _ (INR (product (rshape x)))). intros ix Vx. apply (d_likelihood (fun v => v)); [now apply P|apply d_id].
Qed.
(** C67: the same computed from logits, for any logits. *)
Lemma k_C67_binary_cross_entropy_with_logits target x : rshape target = rshape x ->
  rat (snd (bce_logits_forward target x)) [] = binary_loss logistic target x /\ differentiates (bce_logits_forward target) bce_logits_backward x.
Proof.
  intros S. assert (V : forall x', rshape x' = rshape x -> rshape (snd (bce_logits_forward target x')) = [] /\ rat (snd (bce_logits_forward target x')) [] = binary_loss logistic target x').
  { intros x' E. split; [reflexivity|]. unfold binary_loss. cbn [bce_logits_forward snd neg rmap mean_all reduce_all rat]. unfold nelement. cbn [log_likelihood rmap2 rmap rmul rshape rat]. rewrite S, E. do 2 f_equal. apply rsums_ext. intros ix _. now rewrite sigmoid_logistic. }
  split; [now apply V|]. apply (to_scalar _ _ x (binary_loss logistic target) (fun ix => - ((rat target ix / logistic (rat x ix) - (1 - rat target ix) / (1 - logistic (rat x ix))) * (logistic (rat x ix) * (1 - logistic (rat x ix)))) / INR (product (rshape x)))); [exact V| |].
  - intros g Hg. split; [reflexivity|]. intros ix Vx. cbn [bce_logits_forward fst bce_logits_backward times rmap rmap2 rmul rat]. unfold nelement. rewrite S, sigmoid_logistic. pose proof (logistic_01 (rat x ix)). unfold Rdiv. set (c := / INR (product (rshape x))). field. split; lra.
  - intros h Hh. apply (d_average x h (fun ix v => rat target ix * ln (logistic v) + (1 - rat target ix) * ln (1 - logistic v)) _ (INR (product (rshape x)))). intros ix Vx. apply d_likelihood; [apply logistic_01|apply d_logistic].
Qed.
Lemma kept_01 alpha v : 0 < alpha <= 1 -> 0 < kept alpha v < 1. Proof. intros A. unfold kept. pose proof (logistic_01 v). nra. Qed.
Lemma d_kept alpha v : derivable_pt_lim (kept alpha) v ((2 * alpha - 1) * (logistic v * (1 - logistic v))).
Proof. unfold kept. eapply d_val; [|apply d_plus; apply d_scal; [apply d_logistic|apply d_minus; [apply d_const|apply d_logistic]]]. ring. Qed.
(** C67: the RAPPOR loss with 0 < alpha <= 1 is the documented formula, and its gradient is exact ... *)
Lemma k_C67_rappor alpha target x : 0 < alpha <= 1 -> rshape target = rshape x ->
  rat (snd (rappor_forward alpha target x)) [] = binary_loss (kept alpha) target x /\ differentiates (rappor_forward alpha target) rappor_backward x.
Proof.
  intros A S. assert (V : forall x', rshape x' = rshape x -> rshape (snd (rappor_forward alpha target x')) = [] /\ rat (snd (rappor_forward alpha target x')) [] = binary_loss (kept alpha) target x').
  { intros x' E. unfold rappor_forward. destruct (Req_EM_T alpha 0); [lra|]. split; [reflexivity|]. unfold binary_loss. cbn [snd neg rmap mean_all reduce_all rat]. unfold nelement. cbn [log_likelihood rmap2 rmap rmul rshape rat]. rewrite S, E. do 2 f_equal. apply rsums_ext. intros ix _. unfold kept. now rewrite sigmoid_logistic. }
  split; [now apply V|]. apply (to_scalar _ _ x (binary_loss (kept alpha) target) (fun ix => - ((rat target ix / kept alpha (rat x ix) - (1 - rat target ix) / (1 - kept alpha (rat x ix))) * ((2 * alpha - 1) * (logistic (rat x ix) * (1 - logistic (rat x ix))))) / INR (product (rshape x)))); [exact V| |].
  - intros g Hg. unfold rappor_forward. destruct (Req_EM_T alpha 0); [lra|]. split; [cbn; exact eq_refl|]. intros ix Vx. cbn [fst rappor_backward times rmap rmap2 rmul rat]. unfold nelement. rewrite S, sigmoid_logistic. fold (kept alpha (rat x ix)). pose proof (kept_01 alpha (rat x ix) A). unfold Rdiv. set (c := / INR (product (rshape x))). field. split; lra.
  - intros h Hh. apply (d_average x h (fun ix v => rat target ix * ln (kept alpha v) + (1 - rat target ix) * ln (1 - kept alpha v)) _ (INR (product (rshape x)))). intros ix Vx. apply d_likelihood; [now apply kept_01|apply d_kept].
Qed.
(** C67: ... but alpha = 0 is treated as no noise: the loss is that of alpha = 1 (gradient exact), not the formula's, which swaps the labels. *)
Lemma k_C67_rappor_zero_refuted target x : rshape target = rshape x ->
  rat (snd (rappor_forward 0 target x)) [] = binary_loss (kept 1) target x /\ differentiates (rappor_forward 0 target) rappor_backward x /\
  binary_loss (kept 0) target x = binary_loss (kept 1) (rmap (fun v => 1 - v) target) x.
Proof.
  intros S. destruct (k_C67_binary_cross_entropy_with_logits target x S) as [V D].
  assert (F : forall x', snd (rappor_forward 0 target x') = snd (bce_logits_forward target x')) by (intros x'; unfold rappor_forward; destruct (Req_EM_T 0 0); [reflexivity|contradiction]).
  assert (B : forall g, rappor_backward (fst (rappor_forward 0 target x)) g = bce_logits_backward (fst (bce_logits_forward target x)) g) by (intros g; unfold rappor_forward; destruct (Req_EM_T 0 0); [reflexivity|contradiction]).
  split; [|split].
  - rewrite F, V. unfold binary_loss, kept. do 2 f_equal. apply rsums_ext. intros ix _. do 2 f_equal; f_equal; ring.
  - intros g Hg. rewrite F in Hg. destruct (D g Hg) as [SB H]. rewrite B. split; [exact SB|]. intros h Hh. destruct (H h Hh) as [E L]. split; [intros t; rewrite !F; apply E|]. eapply d_ext; [|exact L]. intros t. now rewrite F.
  - unfold binary_loss, kept. cbn [rmap rat]. do 2 f_equal. apply rsums_ext. intros ix _. replace (0 * logistic (rat x ix) + (1 - 0) * (1 - logistic (rat x ix))) with (1 - (1 * logistic (rat x ix) + (1 - 1) * (1 - logistic (rat x ix)))) by ring. set (q := 1 * logistic (rat x ix) + _). replace (1 - (1 - q)) with q by ring. ring.
Qed.

(** cross entropy: -(sum of target * ln softmax) / size(0) *)
Definition categorical_loss (target x : rtensor) : R :=
  - (rsums (rshape x) (fun ix => rat target ix * ln (probability (class_dim x) x ix)) / INR (pos 0 (rshape x))).
Lemma class_dim_ok x : rshape x <> [] -> (class_dim x < length (rshape x))%nat.
Proof. intros N. unfold class_dim. destruct (rshape x) as [|n [|m s]]; [contradiction| |]; cbn; lia. Qed.
Lemma cross_entropy_value target x : rshape target = rshape x -> rshape x <> [] -> rat (snd (cross_entropy_forward target x)) [] = categorical_loss target x.
Proof.
  intros S N. unfold categorical_loss. cbn [cross_entropy_forward snd reduce_all rat neg rmap rmul rmap2 rshape]. unfold size. rewrite S. unfold Rdiv. rewrite Ropp_mult_distr_l. f_equal. rewrite <- (Rmult_1_l (rsums (rshape x) (fun ix => rat target ix * _))), Ropp_mult_distr_l, <- rsums_scale. apply rsums_ext. intros ix V. rewrite softmax_value by (try apply class_dim_ok; assumption). ring.
Qed.
Lemma d_categorical target x h : rshape target = rshape x -> rshape x <> [] ->
  derivable_pt_lim (fun t => categorical_loss target (moved x h t)) 0
    (rsums (rshape x) (fun ix => (probability (class_dim x) x ix * rsumn (pos (class_dim x) (rshape x)) (fun j => rat target (upd (class_dim x) j ix)) - rat target ix) / INR (pos 0 (rshape x)) * rat h ix)).
Proof.
  intros S N. pose proof (class_dim_ok x N) as K. unfold categorical_loss. cbn [moved rshape]. change (class_dim (mkR (rshape x) _)) with (class_dim x).
  set (d := class_dim x) in *. set (c := INR (pos 0 (rshape x))).
  eapply d_val; [|apply d_opp, (d_mult (fun t => rsums (rshape x) (fun ix => rat target ix * ln (probability d (moved x h t) ix))) (fun _ => / c)); [|apply d_const]].
  2: { apply (d_rsums (rshape x) (fun ix t => rat target ix * ln (probability d (moved x h t) ix))). intros ix V. apply d_scal, d_log_probability; assumption. }
  cbn beta. rewrite Rmult_0_r, Rplus_0_r.
  transitivity (/ c * (rsums (rshape x) (fun ix => rat target ix * rsumn (pos d (rshape x)) (fun j => probability d x (upd d j ix) * rat h (upd d j ix))) - rsums (rshape x) (fun ix => rat target ix * rat h ix))).
  - rewrite <- rsums_minus. rewrite Rmult_comm, Ropp_mult_distr_r. f_equal. rewrite <- (Rmult_1_l (rsums (rshape x) _)), Ropp_mult_distr_l, <- rsums_scale. apply rsums_ext. intros ix V. unfold mean_dir. ring.
  - rewrite (line_exchange d (rshape x) (rat target) (fun ix => probability d x ix * rat h ix) K). rewrite <- rsums_minus, <- rsums_scale. apply rsums_ext. intros ix V. unfold Rdiv. ring.
Qed.
(** C67: cross entropy against targets that are distributions over the classes. *)
Lemma k_C67_cross_entropy target x : rshape target = rshape x -> rshape x <> [] -> distribution (class_dim x) target ->
  rat (snd (cross_entropy_forward target x)) [] = categorical_loss target x /\ differentiates (cross_entropy_forward target) cross_entropy_backward x.
Proof.
  intros S N T. split; [now apply cross_entropy_value|]. pose proof (class_dim_ok x N) as K.
  apply (to_scalar _ _ x (categorical_loss target) (fun ix => (probability (class_dim x) x ix - rat target ix) / INR (pos 0 (rshape x)))).
  - intros x' E. split; [reflexivity|]. apply cross_entropy_value; congruence.
  - intros g Hg. cbn [cross_entropy_forward fst cross_entropy_backward times rmap rmap2 rat rshape]. split; [apply softmax_shape|]. intros ix V. rewrite softmax_value by assumption. unfold size. now rewrite S.
  - intros h Hh. eapply d_val; [|apply d_categorical; assumption]. apply rsums_ext. intros ix V. do 2 f_equal. rewrite <- S. rewrite T by (now rewrite S). ring.
Qed.
(** C67 refuted for other targets: wherever a line of the target does not sum to 1 (and some entry is used), the gradient is not the derivative. *)
Lemma k_C67_cross_entropy_refuted target x ix : rshape target = rshape x -> rshape x <> [] -> valid (rshape x) ix ->
  rsumn (pos (class_dim x) (rshape x)) (fun j => rat target (upd (class_dim x) j ix)) <> 1 -> ~ differentiates (cross_entropy_forward target) cross_entropy_backward x.
Proof.
  intros S N V T D. pose proof (class_dim_ok x N) as K. destruct (D (scalar 1) eq_refl) as [_ H].
  pose (h := mkR (rshape x) (fun jx => if index_eqb jx ix then 1 else 0)). destruct (H h eq_refl) as [_ L].
  pose proof (d_categorical target x h S N) as L'. eapply d_ext in L. 2: { intros t. rewrite inner_scalar by reflexivity. cbn [scalar rat]. rewrite Rmult_1_l. apply (cross_entropy_value target (moved x h t)); assumption. }
  pose proof (uniqueness_limite _ _ _ _ L L') as E. clear L L' H D. unfold rinner in E. cbn [cross_entropy_forward fst cross_entropy_backward times rmap rmap2 rat rshape] in E. rewrite softmax_shape in E.
  assert (O : forall f, rsums (rshape x) (fun jx => f jx * rat h jx) = f ix).
  { intros f. transitivity (rsums (rshape x) (fun jx => if index_eqb jx ix then f ix else 0)).
    - apply rsums_ext. intros jx _. cbn [h rat]. destruct (index_eqb jx ix) eqn:E'; [apply index_eqb_spec in E' as ->|]; ring.
    - unfold rsums. pose proof (proj2 (in_indices _ _) V) as I. pose proof (NoDup_indices (rshape x)) as ND. induction (indices (rshape x)) as [|a l IH]; [destruct I|]. inversion ND as [|? ? A B]; subst. cbn [map]. unfold rsum. cbn [fold_right]. fold (rsum (map (fun jx => if index_eqb jx ix then f ix else 0) l)). destruct I as [->|I].
      + rewrite index_eqb_refl. rewrite rs_zero; [ring|]. intros jx J. destruct (index_eqb jx ix) eqn:E'; [apply index_eqb_spec in E' as ->; contradiction|reflexivity].
      + rewrite (IH I B). destruct (index_eqb a ix) eqn:E'; [apply index_eqb_spec in E' as ->; contradiction|ring]. }
  rewrite (O (fun jx => (rat (softmax (class_dim x) x) jx - rat target jx) / INR (size 0 target) * rat (scalar 1) [])) in E. rewrite (O (fun jx => (probability (class_dim x) x jx * rsumn (pos (class_dim x) (rshape x)) (fun j => rat target (upd (class_dim x) j jx)) - rat target jx) / INR (pos 0 (rshape x)))) in E.
  cbn [scalar rat] in E. rewrite softmax_value in E by assumption. unfold size in E. rewrite S in E.
  assert (C : INR (pos 0 (rshape x)) <> 0). { apply not_0_INR. pose proof (valid_at 0 (rshape x) ix ltac:(destruct (rshape x); [contradiction|cbn; lia]) V). lia. }
  apply T. pose proof (probability_pos (class_dim x) x ix K V) as P. set (q := probability (class_dim x) x ix) in *. set (w := rsumn _ _) in *. set (c := INR _) in *.
  assert (q - rat target ix = q * w - rat target ix). { apply (Rmult_eq_reg_r (/ c)); [|now apply Rinv_neq_0_compat]. unfold Rdiv in E. lra. }
  apply (Rmult_eq_reg_l q); lra.
Qed.

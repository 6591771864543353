(** C68, C69: reductions and batch normalisation (model: Realred.v). *)
Require Import List Reals ZArith Arith Bool Lia Lra.
From Verif Require Import Ring64 Tensor Tensor_proofs Rtensor Rtensor_proofs Realgrad Realgrad_claims Realloss Realloss_claims Realred Realred_claims.
Import ListNotations.
Open Scope R_scope.

(** C68: the mean is the sum of the entries divided by their number. *)
Theorem C68_mean_value : forall m x, reduces m x -> gives m x (mean m x) (average m x).
Proof. exact k_C68_mean_value. Qed.
Print Assumptions C68_mean_value.
(** C68: the gradient of the mean (of everything, or along a dimension) is exact. *)
Theorem C68_mean : forall m x, reduces m x -> (forall d, m <> Except d) -> differentiates (mean_forward m) mean_backward x.
Proof. exact k_C68_mean. Qed.
Print Assumptions C68_mean.
(** C68: [var(unbiased=True)] is the mean square deviation (divided by the number of entries). *)
Theorem C68_var_true : forall m x, reduces m x -> gives m x (var m true x) (fun o => deviation m x o / count m x o).
Proof. exact k_C68_var_true. Qed.
Print Assumptions C68_var_true.
(** C68: [var()] (unbiased=False) divides by one less (at least two entries). *)
Theorem C68_var_false : forall m x, reduces m x -> (forall o, valid (result_size m (rshape x)) o -> 2 <= count m x o) -> gives m x (var m false x) (fun o => deviation m x o / (count m x o - 1)).
Proof. exact k_C68_var_false. Qed.
Print Assumptions C68_var_false.
(** C68: so the flag is the wrong way round: with unbiased=True the result is never the unbiased estimate, unless all entries are equal. *)
Theorem C68_var_refuted : forall m x o, reduces m x -> valid (result_size m (rshape x)) o -> 2 <= count m x o -> deviation m x o <> 0 ->
  rat (var m true x) o <> deviation m x o / (count m x o - 1) /\ rat (var m false x) o = deviation m x o / (count m x o - 1).
Proof. exact k_C68_var_refuted. Qed.
Print Assumptions C68_var_refuted.
(** C68: the gradient of the variance is exact for either flag. *)
Theorem C68_var : forall m u x, reduces m x -> differentiates (var_forward m u) var_backward x.
Proof. exact k_C68_var. Qed.
Print Assumptions C68_var.
(** C68: the maximum of every non-empty group is the value of a largest entry. *)
Theorem C68_max_value : forall pick m x ix, picks pick -> reduces m x -> valid (rshape x) ix ->
  rshape (snd (max_forward pick m x)) = result_size m (rshape x) /\
  exists a, valid (rshape x) a /\ place m a = place m ix /\ largest m x a /\ rat (snd (max_forward pick m x)) (place m ix) = rat x a.
Proof. exact k_C68_max_value. Qed.
Print Assumptions C68_max_value.
(** C68: where every group has a strictly largest entry, the gradient of the maximum is exact. *)
Theorem C68_max : forall pick m x, picks pick -> reduces m x -> unique_maxima m x -> (forall o, valid (result_size m (rshape x)) o -> exists ix, valid (rshape x) ix /\ place m ix = o) ->
  differentiates (max_forward pick m) max_backward x.
Proof. exact k_C68_max. Qed.
Print Assumptions C68_max.
(** C68: with ties the gradient is a subgradient (of the convex function x -> sum of g times the maxima, g >= 0). *)
Theorem C68_max_ties : forall pick m x y g, picks pick -> reduces m x -> rshape y = rshape x -> rshape g = result_size m (rshape x) -> entries (fun v => 0 <= v) g ->
  (forall o, valid (result_size m (rshape x)) o -> exists ix, valid (rshape x) ix /\ place m ix = o) ->
  rinner g (snd (max_forward pick m x)) + rinner (max_backward (fst (max_forward pick m x)) g) (rmap2 Rminus y x) <= rinner g (snd (max_forward pick m y)).
Proof. exact k_C68_max_ties. Qed.
Print Assumptions C68_max_ties.
(** C68: the minimum of every non-empty group is the value of a smallest entry. *)
Theorem C68_min_value : forall pick m x ix, picks pick -> reduces m x -> valid (rshape x) ix ->
  rshape (snd (min_forward pick m x)) = result_size m (rshape x) /\
  exists a, valid (rshape x) a /\ place m a = place m ix /\ (forall jx, valid (rshape x) jx -> place m jx = place m a -> rat x a <= rat x jx) /\ rat (snd (min_forward pick m x)) (place m ix) = rat x a.
Proof. exact k_C68_min_value. Qed.
Print Assumptions C68_min_value.
(** C68: where every group has a strictly smallest entry, the gradient of the minimum is exact. *)
Theorem C68_min : forall pick m x, picks pick -> reduces m x -> unique_maxima m (rmap Ropp x) -> (forall o, valid (result_size m (rshape x)) o -> exists ix, valid (rshape x) ix /\ place m ix = o) ->
  differentiates (min_forward pick m) min_backward x.
Proof. exact k_C68_min. Qed.
Print Assumptions C68_min.
(** C68: the 2-norm, of everything or along a kept dimension, where it is not zero. *)
Theorem C68_norm2 : forall m x, reduces m x -> (m = All \/ exists d, m = Dim d true) -> (forall o, valid (result_size m (rshape x)) o -> 0 < squares m x o) ->
  gives m x (snd (norm2_forward m x)) (fun o => sqrt (squares m x o)) /\ differentiates (norm2_forward m) norm2_backward x.
Proof. exact k_C68_norm2. Qed.
Print Assumptions C68_norm2.
(** C68: the 1-norm, where no entry is zero. *)
Theorem C68_norm1 : forall m x, reduces m x -> (m = All \/ exists d, m = Dim d true) -> entries (fun v => v <> 0) x ->
  gives m x (snd (norm1_forward m x)) (absolutes m x) /\ differentiates (norm1_forward m) normp_backward x.
Proof. exact k_C68_norm1. Qed.
Print Assumptions C68_norm1.
(** C68: the p-norm for a fractional p > 1 or p = 3, 4, where no entry is zero. *)
Theorem C68_normp : forall e m x, exact_exponent e -> reduces m x -> (m = All \/ exists d, m = Dim d true) -> entries (fun v => v <> 0) x ->
  (forall o, valid (result_size m (rshape x)) o -> exists ix, valid (rshape x) ix /\ place m ix = o) ->
  gives m x (snd (normp_forward e m x)) (fun o => Rpower (powers (exp_value e) m x o) (1 / exp_value e)) /\ differentiates (normp_forward e m) normp_backward x.
Proof. exact k_C68_normp. Qed.
Print Assumptions C68_normp.
(** C68: for other whole exponents it is not a norm: the 5-norm of a single number v > 0 other than 1 is not v. *)
Theorem C68_norm5_refuted : forall v, 0 < v -> v <> 1 -> rat (snd (normp_forward (Whole 5) All (scalar v))) [] <> v.
Proof. exact k_C68_norm5_refuted. Qed.
Print Assumptions C68_norm5_refuted.
(** C68: without keepdim the gradient is exact along dimension 0. *)
Theorem C68_norm2_first : forall x, rshape x <> [] -> (forall o, valid (result_size (Dim 0 false) (rshape x)) o -> 0 < squares (Dim 0 false) x o) ->
  (forall g, rshape g = result_size (Dim 0 false) (rshape x) -> norm2_backward_nokeep (fst (norm2_forward (Dim 0 false) x)) g <> None) /\
  differentiates (norm2_forward (Dim 0 false)) norm2_nokeep x.
Proof. exact k_C68_norm2_first. Qed.
Print Assumptions C68_norm2_first.
(** C68: along dimension 1 of a matrix (not kept) the backward pass raises unless the sizes broadcast... *)
Theorem C68_norm2_raises_refuted : forall n k x g, rshape x = [n; k] -> rshape g = [n] -> n <> k -> n <> 1%nat -> k <> 1%nat -> norm2_backward_nokeep (fst (norm2_forward (Dim 1 false) x)) g = None.
Proof. exact k_C68_norm2_raises_refuted. Qed.
Print Assumptions C68_norm2_raises_refuted.
(** C68: ... and for square matrices it returns a wrong gradient. *)
Theorem C68_norm2_square_refuted : exists x g h d l, rshape x = [2; 2]%nat /\ rshape g = [2]%nat /\ rshape h = [2; 2]%nat /\ entries (fun v => 0 < v) x /\
  norm2_backward_nokeep (fst (norm2_forward (Dim 1 false) x)) g = Some d /\ rshape d = rshape x /\
  derivable_pt_lim (fun t => rinner g (snd (norm2_forward (Dim 1 false) (moved x h t)))) 0 l /\ l <> rinner d h.
Proof. exact k_C68_norm2_square_refuted. Qed.
Print Assumptions C68_norm2_square_refuted.
(** C68: the cosine similarity along a dimension of size other than 1 (counted from the front), where both norms are not zero. *)
Theorem C68_cosine : forall d x y, (d < length (rshape x))%nat -> rshape y = rshape x ->
  (forall o, valid (result_size (Dim d false) (rshape x)) o -> 0 < squares (Dim d false) x o /\ 0 < squares (Dim d false) y o) ->
  gives (Dim d false) x (snd (cosine_forward d x y)) (fun o => products (Dim d false) x y o / (sqrt (squares (Dim d false) x o) * sqrt (squares (Dim d false) y o))) /\
  differentiates2 (cosine_forward d) cosine_backward x y.
Proof. exact k_C68_cosine. Qed.
Print Assumptions C68_cosine.
(** C68: ... along a dimension of size 1, where no entry is zero. *)
Theorem C68_cosine_size1 : forall d x y, (d < length (rshape x))%nat -> rshape y = rshape x -> pos d (rshape x) = 1%nat -> entries (fun v => v <> 0) x -> entries (fun v => v <> 0) y ->
  gives (Dim d false) x (snd (cosine1_forward d x y)) (fun o => products (Dim d false) x y o / (sqrt (squares (Dim d false) x o) * sqrt (squares (Dim d false) y o))) /\
  differentiates2 (cosine1_forward d) (cosine1_backward d (rshape x)) x y.
Proof. exact k_C68_cosine_size1. Qed.
Print Assumptions C68_cosine_size1.
(** C68: with dim = -1 (PyTorch: the last dimension) the result is wrong: for x = y = (1, 2) it is 5/4 instead of 1. *)
Theorem C68_cosine_negative_refuted : exists x y, rshape x = [2]%nat /\ rshape y = [2]%nat /\ products All x y [] / (sqrt (squares All x []) * sqrt (squares All y [])) = 1 /\ cosine_last_forward x y = 5 / 4.
Proof. exact k_C68_cosine_negative_refuted. Qed.
Print Assumptions C68_cosine_negative_refuted.
(** C68: ... and of two vectors of two entries whose result is finite in both, it agrees with PyTorch only when they are orthogonal or entries on a diagonal have the same magnitude. *)
Theorem C68_cosine_negative : forall x y, rshape x = [2]%nat -> rshape y = [2]%nat ->
  let a := rat x [0%nat] in let b := rat x [1%nat] in let c := rat y [0%nat] in let d := rat y [1%nat] in
  0 < a * a + b * b -> 0 < c * c + d * d -> 0 < a * a + c * c -> 0 < b * b + d * d ->
  (cosine_last_forward x y = products All x y [] / (sqrt (squares All x []) * sqrt (squares All y [])) <-> a * c + b * d = 0 \/ Rabs a = Rabs d \/ Rabs b = Rabs c).
Proof. exact k_C68_cosine_negative. Qed.
Print Assumptions C68_cosine_negative.
(** C69: batch normalisation in training: the value, from the mean and the (biased) variance of each channel of the batch. *)
Theorem C69_train_value : forall eps x w b ix, (1 < length (rshape x))%nat -> valid (rshape x) ix -> 0 < deviation (Except 1) x [nth 1 ix O] / count (Except 1) x [nth 1 ix O] + eps ->
  rshape (snd (bn_train_forward eps x w b)) = rshape x /\
  rat (snd (bn_train_forward eps x w b)) ix = normalised eps (average (Except 1) x) (fun c => deviation (Except 1) x c / count (Except 1) x c) x w b ix.
Proof. exact k_C69_train_value. Qed.
Print Assumptions C69_train_value.
(** C69: ... and the gradients for the input, the weight and the bias, including the terms through mean and variance. *)
Theorem C69_train : forall eps x w b, (1 < length (rshape x))%nat -> per_channel (rshape x) w -> per_channel (rshape x) b ->
  (forall ix, valid (rshape x) ix -> 0 < deviation (Except 1) x [nth 1 ix O] / count (Except 1) x [nth 1 ix O] + eps) ->
  differentiates3 (bn_train_forward eps) (bn_backward true) x w b.
Proof. exact k_C69_train. Qed.
Print Assumptions C69_train.
(** C69: in evaluation mode the running statistics take the place of those of the batch, and the gradients are exact with these held constant. *)
Theorem C69_eval : forall eps mean variance x w b, (1 < length (rshape x))%nat -> per_channel (rshape x) w -> per_channel (rshape x) b ->
  (forall ix, valid (rshape x) ix -> rat (snd (bn_eval_forward eps mean variance x w b)) ix = normalised eps (rat mean) (rat variance) x w b ix) /\
  differentiates3 (bn_eval_forward eps mean variance) (bn_backward false) x w b.
Proof. exact k_C69_eval. Qed.
Print Assumptions C69_eval.
(** C69: the running statistics move by momentum towards those of the batch; the variance is the biased one. *)
Theorem C69_running : forall momentum x r o, (1 < length (rshape x))%nat -> rshape r = [nth 1 (rshape x) O] -> valid (rshape r) o ->
  rat (bn_running momentum r (fst (moments x))) o = (1 - momentum) * rat r o + momentum * average (Except 1) x o /\
  rat (bn_running momentum r (snd (moments x))) o = (1 - momentum) * rat r o + momentum * (deviation (Except 1) x o / count (Except 1) x o).
Proof. exact k_C69_running. Qed.
Print Assumptions C69_running.
(** C69: PyTorch uses the unbiased variance there; the results differ whenever the entries of a channel do. *)
Theorem C69_running_refuted : forall momentum x r o, (1 < length (rshape x))%nat -> rshape r = [nth 1 (rshape x) O] -> valid (rshape r) o -> momentum <> 0 -> 2 <= count (Except 1) x o -> deviation (Except 1) x o <> 0 ->
  rat (bn_running momentum r (snd (moments x))) o <> (1 - momentum) * rat r o + momentum * (deviation (Except 1) x o / (count (Except 1) x o - 1)).
Proof. exact k_C69_running_refuted. Qed.
Print Assumptions C69_running_refuted.

(** *** Cases *)
Ltac lst := repeat (apply (f_equal2 (@cons R)); [unfold Rdiv; try lra; field|]); reflexivity.
(** 1 5 / 7 3 *)
Definition table := mkR [2; 2]%nat (fun ix => match ix with [O; O] => 1 | [O; _] => 5 | [_; O] => 7 | _ => 3 end).
Definition ones (s : list nat) := mkR s (fun _ => 1).
Example C68_mean_case : reduces (Dim 1 false) table /\ map (rat (mean (Dim 1 false) table)) (indices [2]%nat) = [3; 5] /\ map (rat (mean (Dim 0 true) table)) (indices [1; 2]%nat) = [4; 4] /\ rat (mean All table) [] = 4 /\
  map (rat (mean_backward (fst (mean_forward (Dim 1 false) table)) (mkR [2]%nat (fun ix => INR (S (pos 0 ix)))))) (indices [2; 2]%nat) = [1/2; 1/2; 1; 1].
Proof. unfold mean, rreduce, divisor, nelement, rsum. cbn. split; [lia|]; split; [lst|]; split; [lst|]; split; [lra|lst]. Qed.
(** rows (1, 5) and (7, 3): squared deviations 8 and 8; divided by 2 with unbiased=True, by 1 without *)
Example C68_var_case : count (Dim 1 false) table [0%nat] = 2 /\ deviation (Dim 1 false) table [0%nat] = 8 /\ map (rat (var (Dim 1 false) true table)) (indices [2]%nat) = [4; 4] /\ map (rat (var (Dim 1 false) false table)) (indices [2]%nat) = [8; 8].
Proof. unfold count, deviation, average, count, total, rsums, rsum, var, mean, rreduce, divisor, nelement, rsum, Rsqr. cbn. split; [lra|]. split; [lra|]. split; lst. Qed.
(** a choice of the argmax protocol *)
Fixpoint first_max (l : list R) : nat := match l with [] => O | v :: l' => match l' with [] => O | _ => if Rle_dec (nth (first_max l') l' 0) v then O else S (first_max l') end end.
Example C68_picks_case : picks first_max.
Proof.
  intros l. induction l as [|v l IH]; [congruence|]. intros _. destruct l as [|w l]; [cbn; split; [lia|]; intros u [->|[]]; lra|]. destruct IH as [B U]; [discriminate|].
  change (first_max (v :: w :: l)) with (if Rle_dec (nth (first_max (w :: l)) (w :: l) 0) v then O else S (first_max (w :: l))). set (k := first_max (w :: l)) in *. set (l' := w :: l) in *.
  destruct (Rle_dec (nth k l' 0) v) as [L|L]; cbn [length nth]; (split; [lia|]); intros u [->|I]; try specialize (U u I); lra.
Qed.
Example C68_max_case : unique_maxima (Dim 1 false) table /\ place (Dim 1 false) [0; 1]%nat = [0]%nat /\ map (rat (snd (max_forward first_max (Dim 1 false) table))) (indices [2]%nat) = [5; 7] /\
  map (rat (max_backward (fst (max_forward first_max (Dim 1 false) table)) (ones [2]%nat))) (indices [2; 2]%nat) = [0; 1; 1; 0].
Proof.
  assert (P1 : first_max [1; 5] = 1%nat) by (cbn; destruct (Rle_dec 5 1); [lra|reflexivity]). assert (P2 : first_max [7; 3] = 0%nat) by (cbn; destruct (Rle_dec 3 7); [reflexivity|lra]).
  split; [|split; [reflexivity|]].
  - intros ix V. destruct ix as [|[|[|i]] [|j [|? ?]]]; cbn in V; try lia.
    + exists [0; 1]%nat. split; [cbn; lia|]. split; [reflexivity|]. intros jx VJ PJ NJ. destruct jx as [|[|[|a]] [|[|[|c]] [|? ?]]]; cbn in VJ, PJ; try lia; try congruence; cbn; lra.
    + exists [1; 0]%nat. split; [cbn; lia|]. split; [reflexivity|]. intros jx VJ PJ NJ. destruct jx as [|[|[|a]] [|[|[|c]] [|? ?]]]; cbn in VJ, PJ; try lia; try congruence; cbn; lra.
  - unfold max_forward, max_backward, one_hot, rreduce, rmul, rmap2, rsum, spread. cbn [fst snd rat rshape members oshape pos nth map seq indices flat_map app table out ins firstn skipn del fold_right ones]. rewrite P1, P2. cbn. split; lst.
Qed.
(** rows (3, 4) and (6, 8): norms 5 and 10 *)
Example C68_norm_case : let x := mkR [2; 2]%nat (fun ix => match ix with [O; O] => 3 | [O; _] => 4 | [_; O] => 6 | _ => 8 end) in
  squares (Dim 1 true) x [0; 0]%nat = 25 /\ map (rat (snd (norm2_forward (Dim 1 true) x))) (indices [2; 1]%nat) = [5; 10] /\ map (rat (norm2_backward (fst (norm2_forward (Dim 1 true) x)) (ones [2; 1]%nat))) (indices [2; 2]%nat) = [3/5; 4/5; 3/5; 4/5].
Proof.
  intros x. assert (A : sqrt (3 * 3 + (4 * 4 + 0)) = 5) by (replace (3 * 3 + (4 * 4 + 0)) with (5 * 5) by ring; apply sqrt_square; lra). assert (B : sqrt (6 * 6 + (8 * 8 + 0)) = 10) by (replace (6 * 6 + (8 * 8 + 0)) with (10 * 10) by ring; apply sqrt_square; lra).
  split; [unfold squares, total, rsums, rsum, Rsqr; cbn; lra|]. unfold norm2_forward, norm2_backward, rreduce, rmul, rmap2, rmap, rsum, spread. cbn. rewrite A, B. split; lst.
Qed.
Example C68_exponent_case : exact_exponent (Whole 3) /\ exact_exponent (Whole 4) /\ exact_exponent (Fractional (5/2)) /\ ~ exact_exponent (Whole 5).
Proof.
  repeat split; try lia; try (cbn; lra).
  - right. exists 0%nat. right. reflexivity.
  - right. exists 1%nat. left. reflexivity.
  - right. exists 2%nat. left. reflexivity.
  - right. exists 0%nat. right. reflexivity.
  - intros [_ [E _]]. apply effectiveZ_exact in E. discriminate.
Qed.
Example C68_cosine_negative_case : let x := mkR [2]%nat (fun ix => match ix with [O] => 1 | _ => 2 end) in let y := mkR [2]%nat (fun ix => match ix with [O] => 3 | _ => 1 end) in
  cosine_last_forward x y = products All x y [] / (sqrt (squares All x []) * sqrt (squares All y [])).
Proof. intros x y. refine (proj2 (C68_cosine_negative x y eq_refl eq_refl _ _ _ _) _); cbn; [lra..|right; left; reflexivity]. Qed.
Example C68_cosine_case : let x := mkR [2]%nat (fun ix => match ix with [O] => 3 | _ => 4 end) in let y := mkR [2]%nat (fun ix => match ix with [O] => 4 | _ => 3 end) in
  squares (Dim 0 false) x [] = 25 /\ squares (Dim 0 false) y [] = 25 /\ rat (snd (cosine_forward 0 x y)) [] = 24 / 25 /\ map (rat (fst (cosine_backward (fst (cosine_forward 0 x y)) (ones [])))) (indices [2]%nat) = [28/625; -21/625].
Proof.
  intros x y. split; [unfold squares, total, rsums, rsum, Rsqr; cbn; lra|]. split; [unfold squares, total, rsums, rsum, Rsqr; cbn; lra|].
  assert (A : inv_sqrt (3 * 3 + (4 * 4 + 0)) = / 5) by (unfold inv_sqrt; f_equal; replace (3 * 3 + (4 * 4 + 0)) with (5 * 5) by ring; apply sqrt_square; lra). assert (B : inv_sqrt (4 * 4 + (3 * 3 + 0)) = / 5) by (unfold inv_sqrt; f_equal; replace (4 * 4 + (3 * 3 + 0)) with (5 * 5) by ring; apply sqrt_square; lra).
  unfold cosine_forward, cosine_backward, dot, inv_norm, rreduce, rmul, rmap2, rmap, rsum, spread, Rsqr. cbn. rewrite A, B. split; [lra|lst].
Qed.
(** a batch of two samples 1, 3 with one channel: mean 2, variance 1 *)
Definition batch := mkR [2; 1]%nat (fun ix => match ix with [O; _] => 1 | _ => 3 end).
Example C69_case : (1 < length (rshape batch))%nat /\ per_channel (rshape batch) (ones [1]%nat) /\ deviation (Except 1) batch [O] = 2 /\ count (Except 1) batch [O] = 2 /\
  map (rat (snd (bn_train_forward 0 batch (mkR [1]%nat (fun _ => 10)) (ones [1]%nat)))) (indices [2; 1]%nat) = [-9; 11] /\
  map (rat (fst (fst (bn_backward true (fst (bn_train_forward 3 batch (ones [1]%nat) (ones [1]%nat))) (mkR [2; 1]%nat (fun ix => match ix with [O; _] => 1 | _ => 0 end)))))) (indices [2; 1]%nat) = [3/16; -3/16].
Proof.
  split; [cbn; lia|]. split; [reflexivity|]. split; [unfold deviation, average, count, total, rsums, rsum, Rsqr; cbn; lra|]. split; [unfold count, total, rsums, rsum; cbn; lra|].
  assert (E : forall e r, r * r = 1 + e -> 0 < r -> forall v, v = 1 + e -> inv_sqrt v = / r). { intros e r Q P v ->. unfold inv_sqrt. rewrite <- Q. rewrite sqrt_square by lra. reflexivity. }
  split; unfold bn_train_forward, bn_backward, bn_output, bn_norm, moments, channel, var, mean, rreduce, rmul, rmap2, rmap, rsum, spread, divisor, nelement; cbn.
  - rewrite (E 0 1) by lra. lst.
  - rewrite (E 3 2) by lra. lst.
Qed.

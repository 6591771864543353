(** Property theorems C99: backpropagation through whole programs. *)
Require Import List Reals ZArith Arith Bool Lia Lra.
From Verif Require Import Autograd Autograd_claims Ring64 Tensor Rtensor Rtensor_proofs Realgrad Realgrad_claims Realloss Realloss_claims Realred Realred_claims Chain Chain_proofs Chain_claims.
Import ListNotations.
Open Scope R_scope.

Theorem C99_values p vals tape : train p = Some (vals, tape) -> smooth p -> length vals = length p /\ forall k, (k < length p)%nat -> rshape (nth k vals empty) = rshape (value p k) /\ forall ix, valid (rshape (value p k)) ix -> rat (nth k vals empty) ix = rat (value p k) ix.
Proof. exact (k_C99_values p vals tape). Qed.
Print Assumptions C99_values.

Theorem C99_gradient p vals tape t seed : train p = Some (vals, tape) -> smooth p -> tracked p t = true -> rshape seed = rshape (value p t) ->
  exists h runs, backward gplus (S t) t (Some (rat seed)) true (heap_of tape, []) = Some (h, runs) /\
    forall H, directions p H -> derivable_pt_lim (fun s => rinner seed (value (shifted p H s) t)) 0 (rate p H (fun k => grad (h k))).
Proof. exact (k_C99_gradient p vals tape t seed). Qed.
Print Assumptions C99_gradient.

Theorem C99_entries p vals tape t seed : train p = Some (vals, tape) -> smooth p -> tracked p t = true -> rshape seed = rshape (value p t) ->
  exists h runs, backward gplus (S t) t (Some (rat seed)) true (heap_of tape, []) = Some (h, runs) /\
    forall i x ix, nth_error p i = Some (Leaf true x) -> valid (rshape x) ix ->
      derivable_pt_lim (fun s => rinner seed (value (shifted p (only i (one_hot (rshape x) ix) p) s) t)) 0 (match grad (h i) with Some g => g ix | None => 0 end).
Proof. exact (k_C99_entries p vals tape t seed). Qed.
Print Assumptions C99_entries.

Theorem C99_loss p vals tape t ix : train p = Some (vals, tape) -> smooth p -> tracked p t = true -> nelement (value p t) = 1%nat -> valid (rshape (value p t)) ix ->
  exists h runs, backward gplus (S t) t None true (heap_of tape, []) = Some (h, runs) /\
    forall H, directions p H -> derivable_pt_lim (fun s => rat (value (shifted p H s) t) ix) 0 (rate p H (fun k => grad (h k))).
Proof. exact (k_C99_loss p vals tape t ix). Qed.
Print Assumptions C99_loss.

Theorem C99_untracked p vals tape t seed : train p = Some (vals, tape) -> smooth p -> tracked p t = true ->
  exists h runs, backward gplus (S t) t (Some seed) true (heap_of tape, []) = Some (h, runs) /\ forall i x, nth_error p i = Some (Leaf false x) -> grad (h i) = None.
Proof. exact (k_C99_untracked p vals tape t seed). Qed.
Print Assumptions C99_untracked.

Theorem C99_descent p vals tape t ix : train p = Some (vals, tape) -> smooth p -> tracked p t = true -> nelement (value p t) = 1%nat -> valid (rshape (value p t)) ix ->
  exists h runs, backward gplus (S t) t None true (heap_of tape, []) = Some (h, runs) /\
    ((exists i x g jx, nth_error p i = Some (Leaf true x) /\ grad (h i) = Some g /\ valid (rshape x) jx /\ g jx <> 0) ->
     exists eps, 0 < eps /\ forall rate, 0 < rate < eps -> rat (value (shifted p (downhill p (fun k => grad (h k))) rate) t) ix < rat (value p t) ix).
Proof. exact (k_C99_descent p vals tape t ix). Qed.
Print Assumptions C99_descent.

Theorem C99_target_refuted : exists vals tape h runs l, train soft_label = Some (vals, tape) /\ tracked soft_label 2 = true /\ nelement (value soft_label 2) = 1%nat /\
  backward gplus 3 2 None true (heap_of tape, []) = Some (h, runs) /\ grad (h 1%nat) = None /\
  derivable_pt_lim (fun s => rat (value (shifted soft_label (only 1 (one_hot [1]%nat [0]%nat) soft_label) s) 2) []) 0 l /\ l <> 0.
Proof. exact k_C99_target_refuted. Qed.
Print Assumptions C99_target_refuted.

(** ** Examples *)
(** logistic regression: two samples of two features, a weight and a bias of zero, labels 1 and 0 *)
Definition features : rtensor := mkR [2; 2]%nat (fun ix => match ix with [O; O] => 1 | [O; _] => 2 | [_; O] => 3 | _ => 4 end).
Definition labels : rtensor := mkR [2; 1]%nat (fun ix => match ix with [O; O] => 1 | _ => 0 end).
Definition logistic_regression : list step :=
  [Leaf false features; Leaf true (mkR [2; 1]%nat (fun _ => 0)); Leaf true (mkR [1]%nat (fun _ => 0)); Call Matmul [0; 1]%nat; Call Add [3; 2]%nat; Leaf false labels; Call BceLogits [4; 5]%nat].
Example C99_regression_case : (exists vals tape, train logistic_regression = Some (vals, tape)) /\ smooth logistic_regression /\ tracked logistic_regression 6 = true /\ nelement (value logistic_regression 6) = 1%nat /\ valid (rshape (value logistic_regression 6)) [].
Proof.
  split; [eexists _, _; reflexivity|]. split; [|split; [reflexivity|split; [reflexivity|exact I]]].
  intros k o args H. destruct k as [|[|[|[|[|[|[|k]]]]]]]; try discriminate H; [injection H as <- <-..|destruct k; discriminate H].
  - split; [exact I|discriminate].
  - split; [cbn; discriminate|discriminate].
  - split; [exact I|]. intros _. split; [discriminate|]. eexists. reflexivity.
Qed.
Lemma half : sigmoid 0 = 1 / 2. Proof. unfold sigmoid. rewrite Ropp_0, exp_0. lra. Qed.
(** its gradients: 1/2 and 1/2 for the weight, 0 for the bias, and none for the features and the labels *)
Definition gradient_of (p : list step) (t i : nat) : option (index -> R) := match train p with Some (_, tape) => match backward gplus (S t) t None true (heap_of tape, []) with Some (h, _) => grad (h i) | None => None end | None => None end.
Definition entry (p : list step) (t i : nat) (ix : index) : option R := match gradient_of p t i with Some g => Some (g ix) | None => None end.
Example C99_regression_gradients : entry logistic_regression 6 1 [0; 0]%nat = Some (1 / 2) /\ entry logistic_regression 6 1 [1; 0]%nat = Some (1 / 2) /\ entry logistic_regression 6 2 [0]%nat = Some 0 /\
  gradient_of logistic_regression 6 0 = None /\ gradient_of logistic_regression 6 5 = None.
Proof.
  assert (Z : forall v, v = 0 -> sigmoid v = 1 / 2) by (intros v ->; exact half).
  split; [|split; [|split; [|split]]]; cbv -[Rplus Rmult Rinv Ropp Rminus Rdiv exp sigmoid IZR INR]; try reflexivity; f_equal; rewrite !Z by ring; cbn [INR]; field.
Qed.
(** a tensor used three times: the sum of relu (x * x + x) at 3 and at -2; the gradients of the uses of x add up to 2 x + 1 *)
Definition reused : list step := [Leaf true (mkR [2]%nat (fun ix => match ix with [O] => 3 | _ => -2 end)); Call Mul [0; 0]%nat; Call Add [1; 0]%nat; Call Relu [2]%nat; Call (Sum All) [3]%nat].
Example C99_reused_case : (exists vals tape, train reused = Some (vals, tape)) /\ smooth reused /\ tracked reused 4 = true /\ entry reused 4 0 [0]%nat = Some 7 /\ entry reused 4 0 [1]%nat = Some (-3).
Proof.
  split; [eexists _, _; reflexivity|]. split; [|split; [reflexivity|]].
  - intros k o args H. destruct k as [|[|[|[|[|k]]]]]; try discriminate H; [injection H as <- <-..|destruct k; discriminate H]; (split; [|discriminate]); try exact I; try (cbn; discriminate).
    intros ix V. destruct ix as [|i [|]]; cbn in V; try tauto. destruct V as [V _]. destruct i as [|[|]]; [| |lia]; cbn; lra.
  - assert (G : forall v, 0 < v -> gt v 0 = 1) by (intros v Hv; apply gt_1, Hv).
    split; cbv -[Rplus Rmult Rinv Ropp Rminus Rdiv gt IZR INR]; f_equal; rewrite G by lra; ring.
Qed.

(** C99: backpropagation through a program computes the derivative of the function the program computes: specification and proofs. *)
Require Import List Reals ZArith Arith Bool Lia Lra FunctionalExtensionality.
From Verif Require Import Autograd Autograd_proofs Autograd_claims Gradfn Ring64 Tensor Tensor_proofs Broadcast_claims Gradfn_claims4 Rtensor Rtensor_proofs Realgrad Realgrad_claims Realloss Realloss_claims Realred Realred_proofs Realred_claims Chain Chain_proofs.
Import ListNotations.
Open Scope R_scope.

(** *** Specification: the functions the operations are meant to compute *)
Definition each (f : R -> R) (x : rtensor) : rtensor := mkR (rshape x) (fun ix => f (rat x ix)).
Definition both (f : R -> R -> R) (x y : rtensor) : rtensor :=
  mkR (match bshape (rshape x) (rshape y) with Some t => t | None => [] end) (fun ix => f (rat x (bindex (rshape x) ix)) (rat y (bindex (rshape y) ix))).
Definition number (v : R) : rtensor := mkR [] (fun _ => v).
Definition math (o : op) (args : list rtensor) : rtensor :=
  match o, args with
  | Neg, [x] => each (fun v => - v) x
  | Relu, [x] => each (fun v => Rmax 0 v) x
  | Tanh, [x] => each tanh x
  | Sigmoid, [x] => each (fun v => 1 / (1 + exp (- v))) x
  | Exp, [x] => each exp x
  | Log, [x] => each ln x
  | Reciprocal, [x] => each (fun v => 1 / v) x
  | Sqrt, [x] => each sqrt x
  | Square, [x] => each (fun v => v ^ 2) x
  | Sin, [x] => each sin x
  | Cos, [x] => each cos x
  | Abs, [x] => each Rabs x
  | Scale c, [x] => each (fun v => c * v) x
  | Shift c, [x] => each (fun v => v + c) x
  | Rsub c, [x] => each (fun v => c - v) x
  | Add, [x; y] => both Rplus x y
  | Sub, [x; y] => both Rminus x y
  | Mul, [x; y] => both Rmult x y
  | Div, [x; y] => both Rdiv x y
  | Matmul, [x; y] => mkR [pos 0 (rshape x); pos 1 (rshape y)] (fun ix => rsumn (pos 1 (rshape x)) (fun l => rat x [pos 0 ix; l] * rat y [l; pos 1 ix]))
  | Transpose, [x] => mkR [pos 1 (rshape x); pos 0 (rshape x)] (fun ix => rat x [pos 1 ix; pos 0 ix])
  | Sum m, [x] => mkR (result_size m (rshape x)) (Realred_claims.total m (rshape x) (rat x))
  | Mean m, [x] => mkR (result_size m (rshape x)) (average m x)
  | Softmax d, [x] => mkR (rshape x) (probability d x)
  | LogSoftmax d, [x] => mkR (rshape x) (fun ix => ln (probability d x ix))
  | Bce, [x; y] => number (binary_loss (fun v => v) y x)
  | BceLogits, [x; y] => number (binary_loss logistic y x)
  | CrossEntropy, [x; y] => number (categorical_loss y x)
  | _, _ => empty
  end.
(** where the gradient functions are meant to be used: no kinks, no poles, no empty results, targets of cross entropy that are distributions *)
Definition regular (o : op) (args : list rtensor) : Prop :=
  match o, args with
  | (Relu | Abs | Reciprocal), [x] => entries (fun v => v <> 0) x
  | (Log | Sqrt), [x] => entries (fun v => 0 < v) x
  | (Add | Sub | Mul), [x; y] => nelement (math o args) <> O
  | Div, [x; y] => nelement (math o args) <> O /\ entries (fun v => v <> 0) y
  | Bce, [x; y] => entries (fun v => 0 < v < 1) x
  | CrossEntropy, [x; y] => distribution (class_dim x) y
  | _, _ => True
  end.
(** the values of all tensors of a program; replacing the value of an input *)
Definition values (p : list step) : list rtensor :=
  fold_left (fun vs i => vs ++ [match i with Leaf _ x => x | Call o args => math o (map (fun a => nth a vs empty) args) end]) p [].
Definition value (p : list step) (k : nat) : rtensor := nth k (values p) empty.
(** input [k], if it requires a gradient, moved by [t] along [H k]; only one input moved *)
Definition shifted (p : list step) (H : nat -> rtensor) (t : R) : list step :=
  map (fun e => match snd e with Leaf true x => Leaf true (moved x (H (fst e)) t) | s => s end) (combine (seq 0 (length p)) p).
Definition only (i : nat) (h : rtensor) (p : list step) : nat -> rtensor := fun k => if Nat.eqb k i then h else match nth_error p k with Some (Leaf _ x) => mkR (rshape x) (fun _ => 0) | _ => empty end.
Definition directions (p : list step) (H : nat -> rtensor) : Prop := forall k x, nth_error p k = Some (Leaf true x) -> rshape (H k) = rshape x.
(** the rate of change along [H] that the gradients [G] stand for: the sum of the inner products *)
Definition rate (p : list step) (H : nat -> rtensor) (G : nat -> option (index -> R)) : R :=
  rsum (map (fun k => match nth_error p k, G k with Some (Leaf true x), Some g => rinner (mkR (rshape x) g) (H k) | _, _ => 0 end) (seq 0 (length p))).
(** every operation is used where it is regular, and the target of a loss is an input without gradient, other than the prediction *)
Definition smooth (p : list step) : Prop := forall k o args, nth_error p k = Some (Call o args) ->
  regular o (map (value p) args) /\ (loss o = true -> nth 0 args O <> nth 1 args O /\ exists x, nth_error p (nth 1 args O) = Some (Leaf false x)).
(** tensors computed from an input that requires a gradient *)
Definition tracked (p : list step) (k : nat) : bool :=
  nth k (fold_left (fun l i => l ++ [match i with Leaf r _ => r | Call _ args => existsb (fun a => nth a l false) args end]) p []) false.
(** the tensor with a one at [ix]; a step of gradient descent with learning rate [t] is [shifted p (downhill p G) t] *)
Definition one_hot (s : list nat) (ix : index) : rtensor := mkR s (fun jx => if index_eqb ix jx then 1 else 0).
Definition downhill (p : list step) (G : nat -> option (index -> R)) : nat -> rtensor :=
  fun k => match nth_error p k with Some (Leaf _ x) => mkR (rshape x) (fun ix => match G k with Some g => - g ix | None => 0 end) | _ => empty end.

(** *** Curves of tensors *)
Definition curve (c : R -> rtensor) (x h : rtensor) : Prop :=
  rshape h = rshape x /\ (forall t, rshape (c t) = rshape x) /\ forall ix, valid (rshape x) ix -> rat (c 0) ix = rat x ix /\ derivable_pt_lim (fun t => rat (c t) ix) 0 (rat h ix).
Inductive tracks : list (R -> rtensor) -> list rtensor -> list rtensor -> Prop :=
| tracks_nil : tracks [] [] []
| tracks_cons c x h cs xs hs : curve c x h -> tracks cs xs hs -> tracks (c :: cs) (x :: xs) (h :: hs).
(** the first [k] arguments are differentiable, the others constant *)
Definition sound (F : list rtensor -> rtensor) (k : nat) (xs : list rtensor) (y : rtensor) (b : rtensor -> list rtensor) : Prop :=
  forall cs hs, tracks cs xs hs -> (forall j c, (k <= j)%nat -> nth_error cs j = Some c -> forall t, Some (c t) = nth_error xs j) ->
    exists d, curve (fun t => F (map (fun c => c t) cs)) y d /\ forall g, rshape g = rshape y ->
      Forall2 (fun z x => rshape z = rshape x) (firstn k (b g)) (firstn k xs) /\ rinner g d = rsum (map (fun e => rinner (fst e) (snd e)) (combine (firstn k (b g)) hs)).
Lemma rsum1 a : rsum [a] = a. Proof. unfold rsum. cbn. lra. Qed.
Lemma rsum2 a b : rsum [a; b] = a + b. Proof. unfold rsum. cbn. lra. Qed.
Ltac tracked H := repeat match type of H with tracks _ (_ :: _) _ => let c := fresh "c" in let h := fresh "h" in let cs := fresh "cs" in let hs := fresh "hs" in let K := fresh "K" in let T := fresh "T" in
    inversion H as [|c ? h cs ? hs K T]; subst; clear H; rename T into H | tracks _ [] _ => inversion H; subst; clear H end.
Lemma sound_one F x y b : (forall c h, curve c x h -> exists d, curve (fun t => F [c t]) y d /\ forall g, rshape g = rshape y -> exists gx r, b g = gx :: r /\ rshape gx = rshape x /\ rinner g d = rinner gx h) -> sound F 1 [x] y b.
Proof.
  intros H cs hs T _. tracked T. destruct (H _ _ K) as (d & C & G). exists d. split; [exact C|]. intros g Hg. destruct (G g Hg) as (gx & r & E & S & I). rewrite E. cbn [firstn combine map fst snd]. rewrite rsum1. split; [repeat constructor; exact S|exact I].
Qed.
Lemma sound_two F x y z b : (forall c h c' h', curve c x h -> curve c' y h' -> exists d, curve (fun t => F [c t; c' t]) z d /\ forall g, rshape g = rshape z -> exists gx gy, b g = [gx; gy] /\ rshape gx = rshape x /\ rshape gy = rshape y /\ rinner g d = rinner gx h + rinner gy h') -> sound F 2 [x; y] z b.
Proof.
  intros H cs hs T _. tracked T. destruct (H _ _ _ _ K K0) as (d & C & G). exists d. split; [exact C|]. intros g Hg. destruct (G g Hg) as (gx & gy & E & S & S' & I). rewrite E. cbn [firstn combine map fst snd]. rewrite rsum2. split; [repeat constructor; assumption|exact I].
Qed.
(** a loss: the target does not move *)
Lemma sound_loss F x y z b : (forall c h, curve c x h -> exists d, curve (fun t => F [c t; y]) z d /\ forall g, rshape g = rshape z -> exists gx r, b g = gx :: r /\ rshape gx = rshape x /\ rinner g d = rinner gx h) -> sound F 1 [x; y] z b.
Proof.
  intros H cs hs T C. tracked T. destruct (H _ _ K) as (d & D & G). assert (E : forall t, c0 t = y) by (intros t; specialize (C 1%nat c0 (le_n _) eq_refl t); cbn in C; congruence). exists d. split.
  - replace (fun t => F (map (fun c1 => c1 t) [c; c0])) with (fun t => F [c t; y]); [exact D|]. apply functional_extensionality. intros t. cbn [map]. now rewrite E.
  - intros g Hg. destruct (G g Hg) as (gx & r & Eb & S & I). rewrite Eb. cbn [firstn combine map fst snd]. rewrite rsum1. split; [repeat constructor; exact S|exact I].
Qed.

(** *** Elementwise operations *)
Lemma sound_each F f d x y b : (forall x', F [x'] = each f x') -> (forall ix, valid (rshape x) ix -> derivable_pt_lim f (rat x ix) (d ix)) -> rshape y = rshape x -> (forall ix, valid (rshape x) ix -> rat y ix = f (rat x ix)) ->
  (forall g, rshape g = rshape x -> exists gx r, b g = gx :: r /\ rshape gx = rshape x /\ forall h, rsums (rshape x) (fun ix => rat g ix * d ix * rat h ix) = rinner gx h) -> sound F 1 [x] y b.
Proof.
  intros HF D S V B. apply sound_one. intros c h (Sh & Sc & C). replace (fun t => F [c t]) with (fun t => each f (c t)) by (apply functional_extensionality; intros; now rewrite HF). exists (mkR (rshape y) (fun ix => d ix * rat h ix)). split.
  - split; [reflexivity|]. split; [intros t; cbn [each rshape]; now rewrite Sc|]. intros ix I. rewrite S in I. destruct (C ix I) as [C0 Cd]. cbn [each rat]. split; [now rewrite C0, V|].
    apply (d_comp (fun t => rat (c t) ix) f); [exact Cd|]. rewrite C0. now apply D.
  - intros g Hg. rewrite S in Hg. destruct (B g Hg) as (gx & r & E & Sg & I). exists gx, r. split; [exact E|]. split; [exact Sg|]. rewrite <- I. unfold rinner. cbn [rat]. rewrite Hg. apply rsums_ext. intros ix _. ring.
Qed.
Lemma inner_entries s gx (f : index -> R) h : rshape gx = s -> (forall ix, valid s ix -> rat gx ix = f ix) -> rsums s (fun ix => f ix * rat h ix) = rinner gx h.
Proof. intros <- E. unfold rinner. apply rsums_ext. intros ix V. now rewrite E. Qed.

Lemma bindex_in s t ix : broadcasts s t -> nonempty s t -> valid t ix -> valid s (bindex s ix).
Proof.
  intros [L B] N V. apply valid_pos in V as [Lx V]. assert (E : length (skipn (length ix - length s) ix) = length s) by (rewrite skipn_length; lia). apply valid_pos. unfold bindex. split; [apply clamp_length, E|]. intros d Hd. rewrite clamp_pos by assumption.
  destruct (Nat.eqb_spec (pos d s) 1) as [->|Ne]; [lia|]. destruct (B d Hd) as [Eq|Eq]; [|contradiction]. rewrite Eq. unfold pos at 1. rewrite nth_skipn_. specialize (V (length t - length s + d)%nat ltac:(lia)). unfold pos in *. now rewrite Lx.
Qed.
Lemma some_entries s t : broadcasts s t -> product t <> O -> nonempty s t.
Proof.
  intros [L _] P d Hd _ E. apply P. assert (G : forall l k, (k < length l)%nat -> pos k l = O -> product l = O).
  { induction l as [|a l IH]; intros [|k] Hk Ek; cbn [length] in Hk; try lia; unfold pos in Ek; cbn [nth] in Ek; cbn [product fold_right]; [subst; reflexivity|]. change (a * product l = 0)%nat. rewrite (IH k); [lia|lia|exact Ek]. }
  apply (G t (length t - length s + d)%nat); [lia|exact E].
Qed.
Lemma same_broadcasts s : broadcasts s s /\ nonempty s s. Proof. split; [apply broadcasts_refl|]. intros d Hd E. replace (length s - length s + d)%nat with d by lia. lia. Qed.
Lemma rinverse_same g s : rshape g = s -> rshape (rinverse_broadcast g s) = s /\ forall h, rsums s (fun ix => rat g ix * rat h ix) = rinner (rinverse_broadcast g s) h.
Proof.
  intros E. destruct (same_broadcasts s) as [B N]. destruct (rinverse_ok s s g B N E) as [Sg I]. split; [exact Sg|]. intros h. unfold rinner. rewrite Sg, <- I. apply rsums_ext. intros ix V. now rewrite bindex_id.
Qed.

(** *** Operations with broadcasting: [p] and [q] are the partial derivatives *)
Lemma sound_both F f (p q : index -> R) x y z b t : bshape (rshape x) (rshape y) = Some t -> product t <> O -> (forall x' y', F [x'; y'] = both f x' y') -> rshape z = t ->
  (forall ix, valid t ix -> rat z ix = f (rat x (bindex (rshape x) ix)) (rat y (bindex (rshape y) ix)) /\
    forall u v u' v', u 0 = rat x (bindex (rshape x) ix) -> v 0 = rat y (bindex (rshape y) ix) -> derivable_pt_lim u 0 u' -> derivable_pt_lim v 0 v' -> derivable_pt_lim (fun t => f (u t) (v t)) 0 (p ix * u' + q ix * v')) ->
  (forall g, rshape g = t -> exists gx gy, b g = [gx; gy] /\ rshape gx = rshape x /\ rshape gy = rshape y /\
    (forall h, rsums t (fun ix => rat g ix * p ix * rat h (bindex (rshape x) ix)) = rinner gx h) /\ (forall h, rsums t (fun ix => rat g ix * q ix * rat h (bindex (rshape y) ix)) = rinner gy h)) ->
  sound F 2 [x; y] z b.
Proof.
  intros E P HF Sz V G. destruct (bshape_ok _ _ _ E) as [B1 B2]. pose proof (some_entries _ _ B1 P) as N1. pose proof (some_entries _ _ B2 P) as N2.
  apply sound_two. intros c h c' h' (Sh & Sc & C) (Sh' & Sc' & C'). replace (fun t => F [c t; c' t]) with (fun t => both f (c t) (c' t)) by (apply functional_extensionality; intros; now rewrite HF).
  exists (mkR t (fun ix => p ix * rat h (bindex (rshape x) ix) + q ix * rat h' (bindex (rshape y) ix))). split.
  - split; [now rewrite Sz|]. split; [intros s; cbn [both rshape]; now rewrite Sc, Sc', E, Sz|]. rewrite Sz. intros ix I. destruct (V ix I) as [Vz Vd]. destruct (C _ (bindex_in _ _ _ B1 N1 I)) as [C0 Cd]. destruct (C' _ (bindex_in _ _ _ B2 N2 I)) as [C0' Cd']. cbn [both rat]. split.
    + rewrite Sc, Sc', C0, C0'. now rewrite Vz.
    + eapply d_ext; [|apply (Vd (fun t => rat (c t) (bindex (rshape x) ix)) (fun t => rat (c' t) (bindex (rshape y) ix))); [exact C0|exact C0'|exact Cd|exact Cd']]. intros s. cbn beta. now rewrite Sc, Sc'.
  - intros g Hg. rewrite Sz in Hg. destruct (G g Hg) as (gx & gy & Eb & S1 & S2 & I1 & I2). exists gx, gy. split; [exact Eb|]. split; [exact S1|]. split; [exact S2|]. rewrite <- I1, <- I2, <- rsums_plus. unfold rinner. rewrite Hg. cbn [rat]. apply rsums_ext. intros ix _. ring.
Qed.
Lemma pull_back s t g w : broadcasts s t -> nonempty s t -> rshape w = t -> (forall ix, valid t ix -> rat w ix = g ix) -> rshape (rinverse_broadcast w s) = s /\ forall h, rsums t (fun ix => g ix * rat h (bindex s ix)) = rinner (rinverse_broadcast w s) h.
Proof.
  intros B N E Eg. destruct (rinverse_ok s t w B N E) as [Sg I]. split; [exact Sg|]. intros h. unfold rinner. rewrite Sg, <- I. apply rsums_ext. intros ix V. now rewrite Eg.
Qed.
Lemma rinner_opp g h : rinner (rmap Ropp g) h = - rinner g h. Proof. unfold rinner. cbn [rmap rshape rat]. rewrite <- (Rmult_1_l (rsums (rshape g) (fun ix => rat g ix * _))), Ropp_mult_distr_l, <- rsums_scale. apply rsums_ext. intros. ring. Qed.

Lemma rbroadcast_both f x y z : rbroadcast f x y = Some z -> exists t, bshape (rshape x) (rshape y) = Some t /\ rshape z = t /\ rshape (both f x y) = t /\ forall ix, rat z ix = f (rat x (bindex (rshape x) ix)) (rat y (bindex (rshape y) ix)).
Proof. unfold rbroadcast, both. cbn [rshape]. destruct (bshape (rshape x) (rshape y)) as [t|]; [|discriminate]. intros [= <-]. exists t. auto. Qed.

(** *** Matrices *)
Lemma rsums_matrix n m f : rsums [n; m] f = rsumn n (fun i => rsumn m (fun j => f [i; j])).
Proof. rewrite rsums_cons. apply rsumn_ext. intros i _. rewrite rsums_cons. apply rsumn_ext. intros j _. apply rsums_nil. Qed.
Lemma valid_matrix n m ix : valid [n; m] ix -> exists i j, ix = [i; j] /\ (i < n)%nat /\ (j < m)%nat.
Proof. destruct ix as [|i [|j [|? ?]]]; cbn; intros H; try tauto. exists i, j. tauto. Qed.
Lemma sound_matmul x y n k m : rshape x = [n; k] -> rshape y = [k; m] -> sound (math Matmul) 2 [x; y] (rmatmul x y) (fun g => [rinverse_broadcast (rmatmul g (rtranspose y)) [n; k]; rinverse_broadcast (rmatmul (rtranspose x) g) [k; m]]).
Proof.
  intros Sx Sy. apply sound_two. intros c h c' h' (Sh & Sc & C) (Sh' & Sc' & C'). rewrite Sx in *. rewrite Sy in *.
  exists (mkR [n; m] (fun ix => rsumn k (fun l => rat h [pos 0 ix; l] * rat y [l; pos 1 ix] + rat x [pos 0 ix; l] * rat h' [l; pos 1 ix]))). split.
  - unfold curve. cbn [rmatmul rshape]. rewrite Sx, Sy. split; [reflexivity|]. split; [intros t; cbn [math rshape]; now rewrite Sc, Sc'|]. intros ix V. apply valid_matrix in V as (i & j & -> & Hi & Hj). unfold pos in Hi, Hj. cbn [nth] in Hi, Hj. cbn [math rat pos nth rmatmul]. rewrite Sx. change (pos 1 [n; k]) with k. split.
    + rewrite Sc. change (pos 1 [n; k]) with k. apply rsumn_ext. intros l Hl. rewrite (proj1 (C [i; l] ltac:(cbn; lia))), (proj1 (C' [l; j] ltac:(cbn; lia))). reflexivity.
    + eapply d_ext; [intros t; rewrite Sc; change (pos 1 [n; k]) with k; reflexivity|]. apply (d_rsumn k (fun l t => rat (c t) [i; l] * rat (c' t) [l; j])). intros l Hl. destruct (C [i; l] ltac:(cbn; lia)) as [C0 Cd]. destruct (C' [l; j] ltac:(cbn; lia)) as [C0' Cd'].
      eapply d_val; [|apply d_mult; [exact Cd|exact Cd']]. cbv beta. now rewrite C0, C0'.
  - cbn [rmatmul rshape]. rewrite Sx, Sy. cbn [pos nth]. intros g Hg. eexists; eexists. split; [reflexivity|].
    destruct (rinverse_same (rmatmul g (rtranspose y)) [n; k]) as [S1 I1]; [cbn [rmatmul rtranspose rshape]; rewrite Hg, Sy; reflexivity|]. destruct (rinverse_same (rmatmul (rtranspose x) g) [k; m]) as [S2 I2]; [cbn [rmatmul rtranspose rshape]; rewrite Hg, Sx; reflexivity|].
    split; [exact S1|]. split; [exact S2|]. rewrite <- I1, <- I2. unfold rinner. rewrite Hg. rewrite !rsums_matrix. cbn [rat rmatmul rtranspose pos nth rshape]. rewrite Hg, Sx. cbn [nth].
    transitivity (rsumn n (fun i => rsumn m (fun j => rsumn k (fun l => rat g [i; j] * rat y [l; j] * rat h [i; l]) + rsumn k (fun l => rat x [i; l] * rat g [i; j] * rat h' [l; j])))).
    { apply rsumn_ext. intros i _. apply rsumn_ext. intros j _. rewrite <- rsumn_plus, <- rsumn_scale. apply rsumn_ext. intros l _. ring. }
    erewrite rsumn_ext by (intros i _; apply rsumn_plus). rewrite rsumn_plus. f_equal.
    + apply rsumn_ext. intros i _. rewrite rsumn_swap. apply rsumn_ext. intros l _. rewrite <- rsumn_scale_r. reflexivity.
    + rewrite (rsumn_swap n m). erewrite rsumn_ext by (intros j _; apply rsumn_swap). rewrite (rsumn_swap m k). apply rsumn_ext. intros l _. apply rsumn_ext. intros j _. rewrite <- rsumn_scale_r. reflexivity.
Qed.
Lemma sound_transpose x n m : rshape x = [n; m] -> sound (math Transpose) 1 [x] (rtranspose x) (fun g => [rtranspose g]).
Proof.
  intros Sx. apply sound_one. intros c h (Sh & Sc & C). rewrite Sx in *. exists (rtranspose h). split.
  - unfold curve. cbn [rtranspose rshape]. rewrite Sh, Sx. split; [reflexivity|]. split; [intros t; cbn [math rshape]; now rewrite Sc|]. intros ix V. apply valid_matrix in V as (i & j & -> & Hi & Hj). unfold pos in Hi, Hj. cbn [nth] in Hi, Hj. cbn [math rat pos nth rtranspose]. apply C. cbn. lia.
  - cbn [rtranspose rshape]. rewrite Sx. cbn [pos nth]. intros g Hg. eexists; eexists. split; [reflexivity|]. cbn [rtranspose rshape]. rewrite Hg. split; [reflexivity|]. unfold rinner. cbn [rtranspose rshape]. rewrite Hg. cbn [pos nth]. rewrite !rsums_matrix. cbn [rat pos nth]. apply rsumn_swap.
Qed.

(** *** From lines to curves: an operation proved differentiable along lines, whose entries have a derivative along every curve that depends on the direction only *)
Lemma curve_line x h : rshape h = rshape x -> curve (moved x h) x h.
Proof. intros E. split; [exact E|]. split; [reflexivity|]. intros ix V. cbn [moved rat]. split; [ring|apply d_line]. Qed.
Lemma from_lines {C} (F : rtensor -> rtensor) (fw : rtensor -> C * rtensor) bw x so (D : rtensor -> index -> R) : differentiates fw bw x ->
  (forall x', rshape x' = rshape x -> rshape (snd (fw x')) = so /\ rshape (F x') = so /\ (forall ix, valid so ix -> rat (snd (fw x')) ix = rat (F x') ix)) ->
  (forall x', rshape x' = rshape x -> (forall ix, valid (rshape x) ix -> rat x' ix = rat x ix) -> forall ix, valid so ix -> rat (F x') ix = rat (F x) ix) ->
  (forall c h, curve c x h -> forall ix, valid so ix -> derivable_pt_lim (fun t => rat (F (c t)) ix) 0 (D h ix)) ->
  forall c h, curve c x h -> exists d, curve (fun t => F (c t)) (snd (fw x)) d /\ forall g, rshape g = rshape (snd (fw x)) -> exists gx r, [bw (fst (fw x)) g] = gx :: r /\ rshape gx = rshape x /\ rinner g d = rinner gx h.
Proof.
  intros DF V L DC c h K. destruct (V x eq_refl) as (S0 & SF & V0). exists (mkR so (D h)). split.
  - unfold curve. rewrite S0. split; [reflexivity|]. split; [intros t; apply (V (c t)), K|]. intros ix I. split; [|now apply (DC c h K)]. rewrite V0 by exact I. apply L; [apply K| |exact I]. intros jx J. apply K, J.
  - intros g Hg. exists (bw (fst (fw x)) g), []. split; [reflexivity|]. destruct (DF g Hg) as [SB DD]. split; [exact SB|]. destruct K as (Sh & _). destruct (DD h Sh) as [_ Q]. rewrite S0 in Hg.
    apply (uniqueness_limite (fun t => rinner g (snd (fw (moved x h t)))) 0); [|exact Q]. unfold rinner. rewrite Hg. eapply d_ext; [intros t; symmetry; apply rsums_ext; intros ix I; rewrite (proj2 (proj2 (V (moved x h t) eq_refl)) ix I); reflexivity|].
    cbn [rat]. apply (d_rsums so (fun ix t => rat g ix * rat (F (moved x h t)) ix)). intros ix I. apply d_scal. now apply (DC _ _ (curve_line x h Sh)).
Qed.
(** *** Reductions *)
Lemma d_total m c x h o : curve c x h -> derivable_pt_lim (fun t => Realred_claims.total m (rshape x) (rat (c t)) o) 0 (Realred_claims.total m (rshape x) (rat h) o).
Proof. intros (_ & _ & C). unfold Realred_claims.total. apply (d_rsums (rshape x) (fun ix t => if index_eqb (place m ix) o then rat (c t) ix else 0)). intros ix V. destruct (index_eqb (place m ix) o); [apply C, V|apply d_const]. Qed.
Lemma total_ext_ m s f g o : (forall ix, valid s ix -> f ix = g ix) -> Realred_claims.total m s f o = Realred_claims.total m s g o.
Proof. intros E. unfold Realred_claims.total. apply rsums_ext. intros ix V. destruct (index_eqb (place m ix) o); [now apply E|reflexivity]. Qed.
Lemma sound_sum m x bw : fits m (rshape x) -> (forall g, rshape g = oshape m (rshape x) -> rshape (bw g) = rshape x /\ forall ix, valid (rshape x) ix -> rat (bw g) ix = rat g (out m ix)) -> sound (math (Sum m)) 1 [x] (rreduce m rsum x) (fun g => [bw g]).
Proof.
  intros F B. apply sound_one. intros c h K. exists (mkR (oshape m (rshape x)) (Realred_claims.total m (rshape x) (rat h))). split.
  - split; [reflexivity|]. split; [intros t; cbn [math rshape]; now rewrite (proj1 (proj2 K)), result_oshape|]. cbn [rreduce rshape]. intros o V. cbn [math rat]. split.
    + rewrite (proj1 (proj2 K)). cbn [rreduce rat]. rewrite <- (total_members m (rshape x)) by assumption. apply total_ext_. intros ix I. apply K, I.
    + eapply d_ext; [|apply (d_total m c x h o K)]. intros t. cbv beta. now rewrite (proj1 (proj2 K)).
  - cbn [rreduce rshape]. intros g Hg. exists (bw g), []. split; [reflexivity|]. destruct (B g Hg) as [SB V]. split; [exact SB|]. unfold rinner. rewrite Hg, SB. cbn [rat].
    transitivity (rsums (oshape m (rshape x)) (fun o => rsum (map (fun ix => rat g o * rat h ix) (members m (rshape x) o)))).
    + apply rsums_ext. intros o I. rewrite total_members, rs_scale by assumption. reflexivity.
    + rewrite (exchange m (rshape x) (fun o ix => rat g o * rat h ix) F). apply rsums_ext. intros ix I. now rewrite V.
Qed.

(** *** Softmax and losses *)
Lemma probability_local d x x' ix : (d < length (rshape x))%nat -> rshape x' = rshape x -> (forall jx, valid (rshape x) jx -> rat x' jx = rat x jx) -> valid (rshape x) ix -> probability d x' ix = probability d x ix.
Proof. intros H S E V. unfold probability. rewrite S, (E ix V). f_equal. apply rsumn_ext. intros j Hj. now rewrite E by (now apply line_valid). Qed.
Lemma d_probability_curve d c x h ix : curve c x h -> (d < length (rshape x))%nat -> valid (rshape x) ix ->
  derivable_pt_lim (fun t => probability d (c t) ix) 0 (probability d x ix * (rat h ix - mean_dir d x h ix)).
Proof.
  intros (Sh & Sc & C) H V. pose proof (dim_pos d _ ix H V) as P. eapply d_ext; [intros t; unfold probability; rewrite Sc; reflexivity|]. unfold probability. set (n := pos d (rshape x)) in *. pose proof (exp_sum_pos n (fun j => rat x (upd d j ix)) P) as S. set (Z := rsumn n (fun j => exp (rat x (upd d j ix)))) in *.
  assert (E0 : rsumn n (fun j => exp (rat (c 0) (upd d j ix))) = Z) by (apply rsumn_ext; intros j Hj; f_equal; apply C, line_valid; assumption).
  assert (DE : forall jx, valid (rshape x) jx -> derivable_pt_lim (fun t => exp (rat (c t) jx)) 0 (exp (rat x jx) * rat h jx)).
  { intros jx J. apply (d_comp (fun t => rat (c t) jx) exp); [now apply C|]. eapply d_val; [|apply derivable_pt_lim_exp]. f_equal. now apply C. }
  eapply d_val; [|apply (d_mult (fun t => exp (rat (c t) ix))); [apply DE, V|apply (d_inv (fun t => rsumn n (fun j => exp (rat (c t) (upd d j ix))))); [rewrite E0; lra|apply (d_rsumn n (fun j t => exp (rat (c t) (upd d j ix)))); intros j Hj; apply DE, line_valid; assumption]]].
  cbn beta. rewrite E0. rewrite (proj1 (C ix V)).
  assert (M : mean_dir d x h ix = rsumn n (fun j => exp (rat x (upd d j ix)) * rat h (upd d j ix)) / Z).
  { unfold mean_dir. fold n. unfold Rdiv. rewrite Rmult_comm, <- rsumn_scale. apply rsumn_ext. intros j Hj. unfold probability. fold n. unfold Z. erewrite (rsumn_ext n (fun j0 => exp (rat x (upd d j0 (upd d j ix))))) by (intros k Hk; rewrite (line_upd d (rshape x)) by assumption; reflexivity). unfold Rdiv. ring. }
  rewrite M. field. lra.
Qed.
Lemma d_log_probability_curve d c x h ix : curve c x h -> (d < length (rshape x))%nat -> valid (rshape x) ix ->
  derivable_pt_lim (fun t => ln (probability d (c t) ix)) 0 (rat h ix - mean_dir d x h ix).
Proof.
  intros K H V. assert (E : probability d (c 0) ix = probability d x ix) by (apply probability_local; [exact H|apply K|intros jx J; apply K, J|exact V]).
  pose proof (probability_pos d x ix H V) as P. eapply d_val; [|apply (d_comp (fun t => probability d (c t) ix) ln); [apply d_probability_curve; eassumption|apply derivable_pt_lim_ln; rewrite E; exact P]]. rewrite E. field. lra.
Qed.
Lemma d_binary_curve (q q' : R -> R) target c x h : curve c x h -> (forall ix, valid (rshape x) ix -> 0 < q (rat x ix) < 1 /\ derivable_pt_lim q (rat x ix) (q' (rat x ix))) ->
  derivable_pt_lim (fun t => binary_loss q target (c t)) 0
    (- (rsums (rshape x) (fun ix => (rat target ix / q (rat x ix) - (1 - rat target ix) / (1 - q (rat x ix))) * q' (rat x ix) * rat h ix) * / INR (product (rshape x)))).
Proof.
  intros (Sh & Sc & C) Q. eapply d_ext; [intros t; unfold binary_loss, Rdiv; rewrite Sc; reflexivity|]. apply d_opp.
  eapply d_val; [|apply (d_mult (fun t => rsums (rshape x) (fun ix => rat target ix * ln (q (rat (c t) ix)) + (1 - rat target ix) * ln (1 - q (rat (c t) ix)))) (fun _ => / INR (product (rshape x)))); [|apply d_const]].
  2: { apply (d_rsums (rshape x) (fun ix t => rat target ix * ln (q (rat (c t) ix)) + (1 - rat target ix) * ln (1 - q (rat (c t) ix)))). intros ix V. destruct (C ix V) as [C0 Cd]. destruct (Q ix V) as [P D].
       apply (d_comp (fun t => rat (c t) ix) (fun u => rat target ix * ln (q u) + (1 - rat target ix) * ln (1 - q u))); [exact Cd|]. rewrite C0. exact (d_likelihood q (rat target ix) (rat x ix) (q' (rat x ix)) P D). }
  cbv beta. ring.
Qed.
Lemma d_categorical_curve target c x h : curve c x h -> rshape x <> [] ->
  derivable_pt_lim (fun t => categorical_loss target (c t)) 0 (- (rsums (rshape x) (fun ix => rat target ix * (rat h ix - mean_dir (class_dim x) x h ix)) * / INR (pos 0 (rshape x)))).
Proof.
  intros K N. pose proof K as (Sh & Sc & C). pose proof (class_dim_ok x N) as KD. eapply d_ext; [intros t; unfold categorical_loss, Rdiv, class_dim; rewrite Sc; reflexivity|]. apply d_opp. fold (class_dim x).
  eapply d_val; [|apply (d_mult (fun t => rsums (rshape x) (fun ix => rat target ix * ln (probability (class_dim x) (c t) ix))) (fun _ => / INR (pos 0 (rshape x)))); [|apply d_const]].
  2: { apply (d_rsums (rshape x) (fun ix t => rat target ix * ln (probability (class_dim x) (c t) ix))). intros ix V. apply d_scal. exact (d_log_probability_curve (class_dim x) c x h ix K KD V). }
  cbv beta. ring.
Qed.

(** *** Each operation *)
Ltac unfold_each := intros g Hg; eexists; eexists; split; [reflexivity|]; split; [exact Hg || reflexivity|intros h; apply inner_entries; [exact Hg || reflexivity|intros ix V]].
Lemma forward_sound o xs y b : forward o xs = Some (y, b) -> regular o xs -> sound (math o) (if loss o then 1 else length xs) xs y b.
Proof.
  intros H K. unfold forward in H. destruct o; cbn [loss]; forward_cases H; cbn [length]; unfold unary in H.
  - injection H as <- <-. apply (sound_each _ (fun v => - v) (fun _ => - 1)); [reflexivity|intros; apply d_opp, d_id|reflexivity|reflexivity|unfold_each]. cbn. ring.
  - injection H as <- <-. apply (sound_each _ (fun v => Rmax 0 v) (fun ix => gt (rat r ix) 0)); [reflexivity| |reflexivity| |unfold_each; reflexivity].
    + intros ix V. eapply d_ext; [|apply d_relu, K, V]. intros t. cbn beta. destruct (Rlt_dec 0 t); [rewrite gt_1, Rmax_right by lra; lra|rewrite gt_0, Rmax_left by lra; lra].
    + intros ix V. apply (proj2 (k_C66_relu_value r) ix V).
  - injection H as <- <-. apply (sound_each _ tanh (fun ix => - (tanh (rat r ix) * tanh (rat r ix)) + 1)); [reflexivity|intros; apply d_tanh|reflexivity|reflexivity|unfold_each; reflexivity].
  - injection H as <- <-. apply (sound_each _ (fun v => 1 / (1 + exp (- v))) (fun ix => sigmoid (rat r ix) * (1 - sigmoid (rat r ix)))); [reflexivity| |reflexivity| |unfold_each; cbn; ring].
    + intros ix V. eapply d_ext; [|apply d_sigmoid]. intros t. unfold sigmoid. lra.
    + intros ix V. cbn. unfold sigmoid. lra.
  - injection H as <- <-. apply (sound_each _ exp (fun ix => exp (rat r ix))); [reflexivity|intros; apply derivable_pt_lim_exp|reflexivity|reflexivity|unfold_each; cbn; ring].
  - injection H as <- <-. apply (sound_each _ ln (fun ix => / rat r ix)); [reflexivity|intros; apply derivable_pt_lim_ln, K; assumption|reflexivity|reflexivity|unfold_each; reflexivity].
  - injection H as <- <-. apply (sound_each _ (fun v => 1 / v) (fun ix => - (/ rat r ix * / rat r ix))); [reflexivity| |reflexivity| |unfold_each; cbn; ring].
    + intros ix V. eapply d_ext; [|apply d_inv_id, K, V]. intros t. lra.
    + intros ix V. cbn. lra.
  - injection H as <- <-. apply (sound_each _ sqrt (fun ix => inv_sqrt (rat r ix) / 2)); [reflexivity| |reflexivity| |unfold_each; cbn; ring].
    + intros ix V. eapply d_val; [|apply derivable_pt_lim_sqrt, K, V]. unfold inv_sqrt. field. apply Rgt_not_eq, sqrt_lt_R0, (K ix V).
    + intros ix V. cbn. unfold inv_sqrt. pose proof (K ix V) as P. cbn beta in P. rewrite <- (sqrt_sqrt (rat r ix)) at 2 by lra. field. apply Rgt_not_eq, sqrt_lt_R0, P.
  - injection H as <- <-. apply (sound_each _ (fun v => v ^ 2) (fun ix => rat r ix * 2)); [reflexivity| |reflexivity|intros; cbn; ring|unfold_each; reflexivity].
    intros ix V. eapply d_val; [|eapply d_ext; [|apply d_mult; apply d_id]]; [|intros t; cbn; ring]. cbn. ring.
  - injection H as <- <-. apply (sound_each _ sin (fun ix => cos (rat r ix))); [reflexivity|intros; apply derivable_pt_lim_sin|reflexivity|reflexivity|unfold_each; reflexivity].
  - injection H as <- <-. apply (sound_each _ cos (fun ix => - sin (rat r ix))); [reflexivity|intros; apply derivable_pt_lim_cos|reflexivity|reflexivity|unfold_each; reflexivity].
  - injection H as <- <-. apply (sound_each _ Rabs (fun ix => sign (rat r ix))); [reflexivity| |reflexivity| |unfold_each; reflexivity].
    + intros ix V. eapply d_ext; [|apply d_abs, K, V]. intros t. unfold sign. destruct (Rlt_dec t 0); [rewrite ltz_neg, Rabs_left by lra; lra|rewrite ltz_pos, Rabs_right by lra; lra].
    + intros ix V. cbn. unfold sign. destruct (Rlt_dec (rat r ix) 0); [rewrite ltz_neg, Rabs_left by lra; lra|rewrite ltz_pos, Rabs_right by lra; lra].
  - injection H as <- <-. apply (sound_each _ (fun v => c * v) (fun _ => c)); [reflexivity| |reflexivity|intros; cbn; ring|].
    + intros ix V. eapply d_val; [|apply d_scal, d_id]. ring.
    + intros g Hg. eexists; eexists. split; [reflexivity|]. destruct (rinverse_same (rmap (fun v => v * c) g) (rshape r) Hg) as [S I]. split; [exact S|]. intros h. rewrite <- I. reflexivity.
  - injection H as <- <-. apply (sound_each _ (fun v => v + c) (fun _ => 1)); [reflexivity| |reflexivity|intros; cbn; ring|].
    + intros ix V. eapply d_val; [|apply d_plus; [apply d_id|apply d_const]]. ring.
    + intros g Hg. eexists; eexists. split; [reflexivity|]. destruct (rinverse_same g (rshape r) Hg) as [S I]. split; [exact S|]. intros h. rewrite <- I. apply rsums_ext. intros. ring.
  - injection H as <- <-. apply (sound_each _ (fun v => c - v) (fun _ => - 1)); [reflexivity| |reflexivity|intros; cbn; ring|].
    + intros ix V. eapply d_val; [|apply d_minus; [apply d_const|apply d_id]]. ring.
    + intros g Hg. eexists; eexists. split; [reflexivity|]. destruct (rinverse_same g (rshape r) Hg) as [S I]. split; [exact S|]. intros h. rewrite rinner_opp, <- I. rewrite <- (Rmult_1_l (rsums (rshape r) (fun ix => rat g ix * rat h ix))), Ropp_mult_distr_l, <- rsums_scale. apply rsums_ext. intros. ring.
  - injection H as <- <-. destruct (rbroadcast_both _ _ _ _ Heqo) as (t & E & Sz & Sb & V). assert (P : product t <> O) by (cbn [regular math] in K; unfold nelement in K; now rewrite Sb in K). destruct (bshape_ok _ _ _ E) as [B1 B2]. pose proof (some_entries _ _ B1 P) as N1. pose proof (some_entries _ _ B2 P) as N2.
    apply (sound_both _ Rplus (fun _ => 1) (fun _ => 1) _ _ _ _ t E P); [reflexivity|exact Sz| |].
    + intros ix I. split; [apply V|]. intros u v u' v' _ _ Du Dv. eapply d_val; [|apply d_plus; [exact Du|exact Dv]]. ring.
    + intros g Hg. eexists; eexists. split; [reflexivity|]. destruct (pull_back _ t (fun ix => rat g ix * 1) g B1 N1 Hg) as [S1 I1]; [intros; ring|]. destruct (pull_back _ t (fun ix => rat g ix * 1) g B2 N2 Hg) as [S2 I2]; [intros; ring|]. auto.
  - injection H as <- <-. destruct (rbroadcast_both _ _ _ _ Heqo) as (t & E & Sz & Sb & V). assert (P : product t <> O) by (cbn [regular math] in K; unfold nelement in K; now rewrite Sb in K). destruct (bshape_ok _ _ _ E) as [B1 B2]. pose proof (some_entries _ _ B1 P) as N1. pose proof (some_entries _ _ B2 P) as N2.
    apply (sound_both _ Rminus (fun _ => 1) (fun _ => - 1) _ _ _ _ t E P); [reflexivity|exact Sz| |].
    + intros ix I. split; [apply V|]. intros u v u' v' _ _ Du Dv. eapply d_val; [|apply d_minus; [exact Du|exact Dv]]. ring.
    + intros g Hg. eexists; eexists. split; [reflexivity|]. destruct (pull_back _ t (fun ix => rat g ix * 1) g B1 N1 Hg) as [S1 I1]; [intros; ring|]. destruct (pull_back _ t (rat g) g B2 N2 Hg) as [S2 I2]; [reflexivity|]. split; [exact S1|]. split; [exact S2|]. split; [exact I1|].
      intros h. rewrite rinner_opp, <- I2. rewrite <- (Rmult_1_l (rsums t (fun ix => rat g ix * rat h _))), Ropp_mult_distr_l, <- rsums_scale. apply rsums_ext. intros. ring.
  - injection H as <- <-. destruct (rbroadcast_both _ _ _ _ Heqo) as (t & E & Sz & Sb & V). assert (P : product t <> O) by (cbn [regular math] in K; unfold nelement in K; now rewrite Sb in K). destruct (bshape_ok _ _ _ E) as [B1 B2]. pose proof (some_entries _ _ B1 P) as N1. pose proof (some_entries _ _ B2 P) as N2.
    apply (sound_both _ Rmult (fun ix => rat r0 (bindex (rshape r0) ix)) (fun ix => rat r (bindex (rshape r) ix)) _ _ _ _ t E P); [reflexivity|exact Sz| |].
    + intros ix I. split; [apply V|]. intros u v u' v' U0 V0 Du Dv. eapply d_val; [|apply d_mult; [exact Du|exact Dv]]. rewrite U0, V0. ring.
    + intros g Hg. eexists; eexists. split; [reflexivity|]. destruct (pull_back _ t (fun ix => rat g ix * rat r0 (bindex (rshape r0) ix)) (rmul_to g r0) B1 N1 Hg) as [S1 I1]; [reflexivity|]. destruct (pull_back _ t (fun ix => rat g ix * rat r (bindex (rshape r) ix)) (rmul_to g r) B2 N2 Hg) as [S2 I2]; [reflexivity|]. auto.
  - injection H as <- <-. destruct (rbroadcast_both _ _ _ _ Heqo) as (t & E & Sz & Sb & V). change (rshape (rmap Rinv r0)) with (rshape r0) in *. destruct K as [K Z]. cbn [math] in K. assert (P : product t <> O) by (unfold nelement, both in K; cbn [rshape] in K; now rewrite E in K). destruct (bshape_ok _ _ _ E) as [B1 B2]. pose proof (some_entries _ _ B1 P) as N1. pose proof (some_entries _ _ B2 P) as N2.
    apply (sound_both _ Rdiv (fun ix => / rat r0 (bindex (rshape r0) ix)) (fun ix => - (Rsqr (/ rat r0 (bindex (rshape r0) ix)) * rat r (bindex (rshape r) ix))) _ _ _ _ t E P); [reflexivity|exact Sz| |].
    + intros ix I. split; [apply V|]. pose proof (Z _ (bindex_in _ _ _ B2 N2 I)) as Nz. cbn beta in Nz. intros u v u' v' U0 V0 Du Dv. unfold Rdiv. eapply d_val; [|apply d_mult; [exact Du|apply d_inv; [rewrite V0; exact Nz|exact Dv]]]. rewrite U0, V0. unfold Rsqr. ring.
    + intros g Hg. eexists; eexists. split; [reflexivity|]. destruct (pull_back _ t (fun ix => rat g ix * / rat r0 (bindex (rshape r0) ix)) (rmul_to g (rmap Rinv r0)) B1 N1 Hg) as [S1 I1]; [reflexivity|].
      destruct (pull_back _ t (fun ix => rat g ix * - (Rsqr (/ rat r0 (bindex (rshape r0) ix)) * rat r (bindex (rshape r) ix))) (rmap Ropp (rmul_to (rmul_to g (rmap Rsqr (rmap Rinv r0))) r)) B2 N2 Hg) as [S2 I2]; [intros ix _; cbn [rmap rmul_to rat rshape]; ring|]. auto.
  - injection H as <- <-. subst. apply Nat.eqb_eq in Heqb0. subst. apply (sound_matmul _ _ n n1 n2); assumption.
  - injection H as <- <-. subst. apply (sound_transpose _ n n0); assumption.
  - injection H as <- <-. assert (m = All) as -> by (destruct m; [reflexivity| |discriminate]; unfold dim_ok in Heqb0; rewrite Heql1 in Heqb0; discriminate). apply (sound_sum All r (fun g => g)); [exact I|]. rewrite Heql1. intros g Hg. split; [exact Hg|]. intros ix V. destruct ix; [reflexivity|easy].
  - injection H as <- <-. rewrite <- Heql1. apply (sound_sum m r (fun g => spread m (rshape r) g)); [|intros g Hg; split; reflexivity]. destruct m; [exact I|apply Nat.ltb_lt, Heqb0|discriminate].
  - injection H as <- <-. apply andb_true_iff in Heqb0 as [Hd Hn]. assert (F : reduces m r) by (destruct m; [exact I|apply Nat.ltb_lt, Hd|discriminate]). assert (NE : forall d, m <> Except d) by (intros d ->; discriminate).
    apply sound_one. apply (from_lines (fun x => math (Mean m) [x]) (mean_forward m) mean_backward r (oshape m (rshape r)) (fun h o => Realred_claims.total m (rshape r) (rat h) o / count m r o)); [now apply k_C68_mean| | |].
    + intros x' S. assert (F' : reduces m x') by (destruct m; cbn [reduces] in *; rewrite ?S; exact F). destruct (k_C68_mean_value m x' F') as [A B]. cbn [mean_forward snd math rshape rat]. rewrite A, result_oshape, S. split; [reflexivity|]. split; [reflexivity|]. intros ix V. apply B. now rewrite A, result_oshape, S.
    + intros x' S E ix V. cbn [math rat]. unfold average, count. rewrite S. f_equal. apply total_ext_, E.
    + intros c h K' ix V. cbn [math rat]. unfold Rdiv. eapply d_val; [|eapply d_ext; [|apply (d_scal (/ count m r ix) (fun t => Realred_claims.total m (rshape r) (rat (c t)) ix)), (d_total m c r h ix K')]]; [ring|]. intros t. cbv beta. unfold average, count, Rdiv. rewrite (proj1 (proj2 K')). ring.
  - injection H as <- <-. apply Nat.ltb_lt in Heqb0. apply sound_one. apply (from_lines (fun x => math (Softmax d) [x]) (softmax_forward d) softmax_backward r (rshape r) (fun h ix => probability d r ix * (rat h ix - mean_dir d r h ix))); [now apply k_C67_softmax| | |].
    + intros x' S. cbn [softmax_forward snd math rshape rat]. rewrite softmax_shape, S. split; [reflexivity|]. split; [reflexivity|]. intros ix V. apply softmax_value; rewrite S; assumption.
    + intros x' S E ix V. cbn [math rat]. now apply probability_local.
    + intros c h K' ix V. cbn [math rat]. now apply d_probability_curve.
  - injection H as <- <-. apply Nat.ltb_lt in Heqb0. apply sound_one. apply (from_lines (fun x => math (LogSoftmax d) [x]) (log_softmax_forward d) log_softmax_backward r (rshape r) (fun h ix => rat h ix - mean_dir d r h ix)); [now apply k_C67_log_softmax| | |].
    + intros x' S. cbn [log_softmax_forward snd math rshape rat]. rewrite log_softmax_shape, S. split; [reflexivity|]. split; [reflexivity|]. intros ix V. apply log_softmax_value; rewrite S; assumption.
    + intros x' S E ix V. cbn [math rat]. f_equal. now apply probability_local.
    + intros c h K' ix V. cbn [math rat]. now apply d_log_probability_curve.
  - injection H as <- <-. unfold same_size in Heqb0. destruct (list_eq_dec Nat.eq_dec (rshape r) (rshape r0)) as [S0|]; [|discriminate]. apply sound_loss.
    apply (from_lines (fun x => math Bce [x; r0]) (bce_forward r0) bce_backward r [] (fun h _ => - (rsums (rshape r) (fun ix => (rat r0 ix / rat r ix - (1 - rat r0 ix) / (1 - rat r ix)) * 1 * rat h ix) * / INR (product (rshape r))))); [now apply k_C67_binary_cross_entropy| | |].
    + intros x' S. split; [reflexivity|]. split; [reflexivity|]. intros ix V. destruct ix; [|easy]. cbn [math number rat]. unfold binary_loss. cbn [bce_forward snd neg rmap mean_all reduce_all rat]. unfold nelement. cbn [log_likelihood rmap2 rmap rmul rshape rat]. rewrite <- S0, S. reflexivity.
    + intros x' S E ix V. cbn [math number rat]. unfold binary_loss. rewrite S. do 2 f_equal. apply rsums_ext. intros jx J. now rewrite E.
    + intros c h K' ix V. cbn [math number rat]. apply (d_binary_curve (fun v => v) (fun _ => 1)); [exact K'|]. intros jx J. split; [apply K, J|apply d_id].
  - injection H as <- <-. unfold same_size in Heqb0. destruct (list_eq_dec Nat.eq_dec (rshape r) (rshape r0)) as [S0|]; [|discriminate]. apply sound_loss.
    apply (from_lines (fun x => math BceLogits [x; r0]) (bce_logits_forward r0) bce_logits_backward r [] (fun h _ => - (rsums (rshape r) (fun ix => (rat r0 ix / logistic (rat r ix) - (1 - rat r0 ix) / (1 - logistic (rat r ix))) * (logistic (rat r ix) * (1 - logistic (rat r ix))) * rat h ix) * / INR (product (rshape r))))); [now apply k_C67_binary_cross_entropy_with_logits| | |].
    + intros x' S. split; [reflexivity|]. split; [reflexivity|]. intros ix V. destruct ix; [|easy]. cbn [math number rat]. unfold binary_loss. cbn [bce_logits_forward snd neg rmap mean_all reduce_all rat]. unfold nelement. cbn [log_likelihood rmap2 rmap rmul rshape rat]. rewrite <- S0, S. do 2 f_equal. apply rsums_ext. intros jx _. now rewrite sigmoid_logistic.
    + intros x' S E ix V. cbn [math number rat]. unfold binary_loss. rewrite S. do 2 f_equal. apply rsums_ext. intros jx J. now rewrite E.
    + intros c h K' ix V. cbn [math number rat]. apply (d_binary_curve logistic (fun v => logistic v * (1 - logistic v))); [exact K'|]. intros jx J. split; [apply logistic_01|apply d_logistic].
  - injection H as <- <-. apply andb_true_iff in Heqb0 as [Hs Hz]. unfold same_size in Hs. destruct (list_eq_dec Nat.eq_dec (rshape r) (rshape r0)) as [S0|]; [|discriminate]. assert (N : rshape r <> []) by (intros E; unfold is_0d in Hz; rewrite E in Hz; discriminate). apply sound_loss.
    apply (from_lines (fun x => math CrossEntropy [x; r0]) (cross_entropy_forward r0) cross_entropy_backward r [] (fun h _ => - (rsums (rshape r) (fun ix => rat r0 ix * (rat h ix - mean_dir (class_dim r) r h ix)) * / INR (pos 0 (rshape r))))); [now apply k_C67_cross_entropy| | |].
    + intros x' S. split; [reflexivity|]. split; [reflexivity|]. intros ix V. destruct ix; [|easy]. cbn [math number rat]. apply cross_entropy_value; congruence.
    + intros x' S E ix V. cbn [math number rat]. unfold categorical_loss, class_dim. rewrite S. fold (class_dim r). do 2 f_equal. apply rsums_ext. intros jx J. do 2 f_equal. apply probability_local; [now apply class_dim_ok|exact S|exact E|exact J].
    + intros c h K' ix V. cbn [math number rat]. now apply d_categorical_curve.
Qed.

(** *** Running a program *)
Definition recorded (p : list step) (vals : list rtensor) (tape : list (instr (index -> R))) : Prop :=
  length vals = length p /\ length tape = length p /\ forall k,
    match nth_error p k with
    | Some (Leaf r x) => nth k vals empty = x /\ nth_error tape k = Some (Input r (unit_of x))
    | Some (Call o args) => exists y b, forward o (map (fun a => nth a vals empty) args) = Some (y, b) /\ (forall a, In a args -> (a < k)%nat) /\ nth k vals empty = y /\
        nth_error tape k = Some (Apply args (unmarked o args) (fun g => map rat (b (mkR (rshape y) g))) (unit_of y))
    | None => True
    end.
Lemma execute_none q : fold_left execute q None = None. Proof. induction q; [reflexivity|assumption]. Qed.
Lemma map_nth_app {A} (l m : list A) d args : (forall a, In a args -> (a < length l)%nat) -> map (fun a => nth a (l ++ m) d) args = map (fun a => nth a l d) args.
Proof. intros H. apply map_ext_in. intros a I. now apply app_nth1, H. Qed.
Lemma train_recorded p vals tape : train p = Some (vals, tape) -> recorded p vals tape.
Proof.
  revert vals tape. induction p as [|i p IH] using rev_ind; intros vals tape H.
  - injection H as <- <-. split; [reflexivity|]. split; [reflexivity|]. intros k. now destruct k.
  - unfold train in H. rewrite fold_left_app in H. cbn [fold_left] in H. fold (train p) in H. destruct (train p) as [[vs tp]|]; [|discriminate]. destruct (IH vs tp eq_refl) as (L1 & L2 & R). clear IH. cbn [execute] in H.
    assert (K : forall v t, recorded p vs tp -> (match i with Leaf r x => v = x /\ t = Input r (unit_of x)
        | Call o args => exists y b, forward o (map (fun a => nth a vs empty) args) = Some (y, b) /\ (forall a, In a args -> (a < length p)%nat) /\ v = y /\ t = Apply args (unmarked o args) (fun g => map rat (b (mkR (rshape y) g))) (unit_of y) end) -> recorded (p ++ [i]) (vs ++ [v]) (tp ++ [t])).
    { intros v t _ N. split; [rewrite !app_length; cbn; lia|]. split; [rewrite !app_length; cbn; lia|]. intros k. destruct (Nat.lt_trichotomy k (length p)) as [Hk|[->|Hk]].
      - rewrite nth_error_app1 by exact Hk. specialize (R k). destruct (nth_error p k) as [[r x|o args]|]; [| |exact I].
        + rewrite app_nth1, nth_error_app1 by lia. exact R.
        + destruct R as (y & b & F & A & Y & T). exists y, b. rewrite app_nth1, nth_error_app1 by lia. split; [|auto]. rewrite map_nth_app; [exact F|]. intros a Ia. specialize (A a Ia). lia.
      - rewrite nth_error_app2, Nat.sub_diag by lia. cbn [nth_error]. rewrite app_nth2, nth_error_app2, L1, L2, Nat.sub_diag by lia. cbn [nth nth_error]. destruct i as [r x|o args].
        + destruct N as [-> ->]. auto.
        + destruct N as (y & b & F & A & -> & ->). exists y, b. split; [|auto]. rewrite map_nth_app; [exact F|]. intros a Ia. specialize (A a Ia). lia.
      - rewrite (proj2 (nth_error_None (p ++ [i]) k)); [exact I|]. rewrite app_length. cbn. lia. }
    destruct i as [r x|o args].
    + injection H as <- <-. apply K; [split; auto|auto].
    + destruct (forallb (fun a => Nat.ltb a (length vs)) args) eqn:FA; [|discriminate]. destruct (forward o (map (fun a => nth a vs empty) args)) as [[y b]|] eqn:F; [|discriminate]. injection H as <- <-. apply K; [split; auto|]. exists y, b. split; [reflexivity|]. split; [|auto].
      rewrite forallb_forall in FA. intros a Ia. specialize (FA a Ia). apply Nat.ltb_lt in FA. lia.
Qed.
(** the specification's values, by position *)
Lemma values_snoc p i : values (p ++ [i]) = values p ++ [match i with Leaf _ x => x | Call o args => math o (map (fun a => nth a (values p) empty) args) end]. Proof. unfold values. now rewrite fold_left_app. Qed.
Lemma values_length p : length (values p) = length p. Proof. induction p as [|i p IH] using rev_ind; [reflexivity|]. rewrite values_snoc, !app_length, IH. reflexivity. Qed.
Lemma value_at p k : match nth_error p k with
    | Some (Leaf _ x) => value p k = x
    | Some (Call o args) => (forall a, In a args -> (a < k)%nat) -> value p k = math o (map (value p) args)
    | None => True end.
Proof.
  induction p as [|i p IH] using rev_ind; [now destruct k|]. destruct (Nat.lt_trichotomy k (length p)) as [Hk|[->|Hk]].
  - rewrite nth_error_app1 by exact Hk. unfold value in *. rewrite values_snoc. rewrite app_nth1 by (rewrite values_length; lia). destruct (nth_error p k) as [[r x|o args]|]; [exact IH| |exact I]. intros A. rewrite map_nth_app; [now apply IH|]. intros a Ia. rewrite values_length. specialize (A a Ia). lia.
  - rewrite nth_error_app2, Nat.sub_diag by lia. cbn [nth_error]. unfold value. rewrite values_snoc. rewrite app_nth2; rewrite values_length; [|lia]. rewrite Nat.sub_diag. cbn [nth]. destruct i as [r x|o args]; [reflexivity|]. intros A. rewrite map_nth_app; [reflexivity|]. intros a Ia. rewrite values_length. now apply A.
  - rewrite (proj2 (nth_error_None (p ++ [i]) k)); [exact I|]. rewrite app_length. cbn. lia.
Qed.
Lemma nth_error_combine {A B} (l : list A) (m : list B) : length l = length m -> forall k, nth_error (combine l m) k = match nth_error l k, nth_error m k with Some a, Some b => Some (a, b) | _, _ => None end.
Proof. revert m. induction l as [|a l IH]; intros [|b m] E [|k]; try discriminate E; try reflexivity. cbn. apply IH. now injection E. Qed.
Lemma nth_error_seq n : forall s k, nth_error (seq s n) k = if Nat.ltb k n then Some (s + k)%nat else None.
Proof. induction n as [|n IH]; intros s [|k]; try reflexivity; cbn [seq nth_error]; [rewrite Nat.add_0_r; reflexivity|]. rewrite IH. change (Nat.ltb (S k) (S n)) with (Nat.ltb k n). destruct (Nat.ltb k n); [f_equal; lia|reflexivity]. Qed.
Lemma shifted_at p H t k : nth_error (shifted p H t) k = match nth_error p k with Some (Leaf true x) => Some (Leaf true (moved x (H k) t)) | s => s end.
Proof.
  unfold shifted. rewrite nth_error_map, nth_error_combine by (now rewrite seq_length). rewrite nth_error_seq. destruct (Nat.ltb_spec k (length p)) as [L|L].
  - destruct (nth_error p k) as [[[|] x|o args]|]; reflexivity.
  - cbn. now rewrite (proj2 (nth_error_None p k) L).
Qed.
Lemma moved_0 x h : moved x h 0 = x.
Proof. apply tensor_ext; [reflexivity|]. intros ix. cbn. ring. Qed.
Lemma nth_error_same {A} (l m : list A) : (forall k, nth_error l k = nth_error m k) -> l = m.
Proof. revert m. induction l as [|a l IH]; intros [|b m] E; [reflexivity|discriminate (E O)|discriminate (E O)|]. pose proof (E O) as E0. cbn in E0. injection E0 as ->. f_equal. apply IH. intros k. exact (E (S k)). Qed.
Lemma shifted_0 p H : shifted p H 0 = p.
Proof. apply nth_error_same. intros k. rewrite shifted_at. destruct (nth_error p k) as [[[|] x|o args]|]; try reflexivity. now rewrite moved_0. Qed.

(** *** What requires a gradient *)
Lemma existsb_in {A} (f g : A -> bool) l : (forall a, In a l -> f a = g a) -> existsb f l = existsb g l. Proof. induction l as [|a l IH]; intros H; [reflexivity|]. cbn [existsb]. rewrite (H a (or_introl eq_refl)), IH; [reflexivity|]. intros b Hb. apply H. now right. Qed.
Lemma requires_at {G} (p : list (instr G)) k : match nth_error p k with
    | Some (Input r _) => requires p k = r
    | Some (Apply args _ _ _) => (forall a, In a args -> (a < k)%nat) -> requires p k = existsb (requires p) args
    | None => requires p k = false end.
Proof.
  induction p as [|i p IH] using rev_ind; [destruct k; reflexivity|]. destruct (Nat.lt_trichotomy k (length p)) as [Hk|[->|Hk]].
  - rewrite nth_error_app1 by exact Hk. unfold requires in *. rewrite flags_snoc. rewrite app_nth1 by (rewrite flags_length; lia). destruct (nth_error p k) as [[r one|args nd f one]|]; [exact IH| |exact IH]. intros A. rewrite (IH A). apply existsb_in. intros a Ia. rewrite app_nth1; [reflexivity|]. rewrite flags_length. specialize (A a Ia). lia.
  - rewrite nth_error_app2, Nat.sub_diag by lia. cbn [nth_error]. unfold requires. rewrite flags_snoc. rewrite app_nth2; rewrite flags_length; [|lia]. rewrite Nat.sub_diag. cbn [nth]. destruct i as [r one|args nd f one]; [reflexivity|]. intros A. apply existsb_in. intros a Ia. rewrite app_nth1; [reflexivity|]. rewrite flags_length. exact (A a Ia).
  - rewrite (proj2 (nth_error_None (p ++ [i]) k)) by (rewrite app_length; cbn; lia). unfold requires. apply nth_overflow. rewrite flags_length, app_length. cbn. lia.
Qed.
Definition alike (x y : rtensor) : Prop := rshape x = rshape y /\ forall ix, valid (rshape y) ix -> rat x ix = rat y ix.
Lemma entries_alike P x y : alike x y -> entries P x -> entries P y. Proof. intros [S E] H ix V. rewrite <- E by exact V. apply H. now rewrite S. Qed.
Lemma regular_alike o xs ys : Forall2 alike xs ys -> (loss o = true -> nth 1 xs empty = nth 1 ys empty) -> regular o xs -> regular o ys.
Proof.
  intros F L K. destruct F as [|x y l m A F]; [|destruct F as [|x' y' l m A' F]; [|destruct F]]; destruct o; try exact I; cbn [regular] in *;
    try (eapply entries_alike; eassumption); try (unfold nelement, math, both in *; cbn [rshape] in *; rewrite (proj1 A), (proj1 A') in K; exact K).
  - destruct K as [K Z]. split; [unfold nelement, math, both in *; cbn [rshape] in *; rewrite (proj1 A), (proj1 A') in K; exact K|]. eapply entries_alike; eassumption.
  - specialize (L eq_refl). cbn [nth] in L. subst y'. unfold class_dim in *. now rewrite <- (proj1 A).
Qed.
Lemma forward_length o xs y b : forward o xs = Some (y, b) -> (if loss o then length xs = 2%nat else (0 < length xs)%nat) /\ forall g, ((if loss o then 1 else length xs) <= length (b g))%nat.
Proof.
  intros H. unfold forward in H. destruct o; forward_cases H; cbn [length loss]; unfold unary in H; injection H as <- <-; (split; [lia|]); intros g; cbn; lia.
Qed.

(** *** The chain rule *)
Definition arrive (p : list step) (H : nat -> rtensor) (l : list (nat * (index -> R))) : R := rsum (map (fun e => match nth_error p (fst e) with Some (Leaf true x) => rinner (mkR (rshape x) (snd e)) (H (fst e)) | _ => 0 end) l).
Lemma rsum_app l m : rsum (l ++ m) = rsum l + rsum m. Proof. unfold rsum. induction l as [|a l IH]; cbn; [lra|]. rewrite IH. lra. Qed.
Lemma arrive_flat {A} p H (f : A -> list (nat * (index -> R))) l : arrive p H (flat_map f l) = rsum (map (fun a => arrive p H (f a)) l).
Proof. induction l as [|a l IH]; [reflexivity|]. cbn [flat_map map]. unfold arrive in *. rewrite map_app, rsum_app, IH. reflexivity. Qed.
Definition gathered (i : nat) (l : list (nat * (index -> R))) : option (index -> R) := fold_right (fun e acc => if Nat.eqb (fst e) i then match acc with Some s => Some (gplus (snd e) s) | None => Some (snd e) end else acc) None l.
Lemma rsum_one (f : nat -> R) i n : forall s, rsum (map (fun k => if Nat.eqb i k then f k else 0) (seq s n)) = if (Nat.leb s i && Nat.ltb i (s + n))%bool then f i else 0.
Proof.
  induction n as [|n IH]; intros s; cbn [seq map].
  - destruct (Nat.leb_spec s i), (Nat.ltb_spec i (s + 0)); try lia; reflexivity.
  - change (rsum (?a :: ?r)) with (a + rsum r). rewrite IH. destruct (Nat.eqb_spec i s), (Nat.leb_spec s i), (Nat.leb_spec (S s) i), (Nat.ltb_spec i (s + S n)), (Nat.ltb_spec i (S s + n)); try lia; cbn [andb]; subst; lra.
Qed.
Lemma arrive_sum p H l : arrive p H l = rate p H (fun k => gathered k l).
Proof.
  unfold arrive, rate. induction l as [|[j g] l IH].
  - cbn. induction (seq 0 (length p)) as [|k m IHm]; [reflexivity|]. cbn [map]. change (rsum (?a :: ?r)) with (a + rsum r). rewrite <- IHm. destruct (nth_error p k) as [[[|]|]|]; lra.
  - cbn [map fst snd]. change (rsum (?a :: ?r)) with (a + rsum r) at 1. rewrite IH. clear IH. set (F := fun k => match nth_error p k with Some (Leaf true x) => rinner (mkR (rshape x) g) (H k) | _ => 0 end).
    assert (E : match nth_error p j with Some (Leaf true x) => rinner (mkR (rshape x) g) (H j) | _ => 0 end = rsum (map (fun k => if Nat.eqb j k then F k else 0) (seq 0 (length p)))).
    { rewrite rsum_one. cbn [Nat.leb andb]. rewrite Nat.add_0_l. fold (F j). destruct (Nat.ltb_spec j (length p)); [reflexivity|]. unfold F. now rewrite (proj2 (nth_error_None p j)). }
    rewrite E. clear E. induction (seq 0 (length p)) as [|k m IHm]; [cbn; lra|]. cbn [map]. repeat change (rsum (?a :: ?r)) with (a + rsum r). rewrite <- IHm. clear IHm. cbn [gathered fold_right fst snd]. fold (gathered k l). unfold F. clear F.
    destruct (Nat.eqb j k); [|lra]. destruct (nth_error p k) as [[[|] x|]|]; try (destruct (gathered k l); lra). destruct (gathered k l) as [s|]; [|lra]. unfold rinner. cbn [rshape rat].
    assert (Q : rsums (rshape x) (fun ix => gplus g s ix * rat (H k) ix) = rsums (rshape x) (fun ix => g ix * rat (H k) ix) + rsums (rshape x) (fun ix => s ix * rat (H k) ix)) by (rewrite <- rsums_plus; apply rsums_ext; intros ix _; unfold gplus; ring). rewrite Q. lra.
Qed.
Section Chain.
  Variables (p : list step) (vals : list rtensor) (tape : list (instr (index -> R))).
  Hypothesis T : train p = Some (vals, tape).
  Hypothesis SM : smooth p.
  Let v (k : nat) : rtensor := nth k vals empty.
  Lemma recorded_leaf k r x : nth_error p k = Some (Leaf r x) -> v k = x /\ nth_error tape k = Some (Input r (unit_of x)).
  Proof. intros H. destruct (train_recorded p vals tape T) as (_ & _ & K). specialize (K k). rewrite H in K. exact K. Qed.
  Lemma recorded_call k o args : nth_error p k = Some (Call o args) -> exists b, forward o (map v args) = Some (v k, b) /\ (forall a, In a args -> (a < k)%nat) /\
        nth_error tape k = Some (Apply args (unmarked o args) (fun g => map rat (b (mkR (rshape (v k)) g))) (unit_of (v k))).
  Proof. intros H. destruct (train_recorded p vals tape T) as (_ & _ & K). specialize (K k). rewrite H in K. destruct K as (y & b & F & A & Y & E). exists b. unfold v. rewrite Y. auto. Qed.
  Lemma targets_firstn k o args : nth_error p k = Some (Call o args) -> targets args (unmarked o args) = firstn (if loss o then 1 else length args) args.
  Proof.
    intros H. destruct (recorded_call k o args H) as (b & F & _). destruct (forward_length o _ _ _ F) as [L _]. destruct (SM k o args H) as [_ N]. rewrite map_length in L. unfold unmarked. destruct (loss o).
    - destruct args as [|a [|t [|]]]; try discriminate L. destruct (N eq_refl) as [D _]. cbn [nth] in D. cbn [skipn firstn]. unfold targets. cbn [filter]. destruct (in_dec Nat.eq_dec a [t]) as [[E|[]]|_]; [congruence|]. destruct (in_dec Nat.eq_dec t [t]) as [_|E]; [reflexivity|]. exfalso. apply E. now left.
    - rewrite firstn_all. unfold targets. clear. induction args as [|a l IH]; [reflexivity|]. cbn [filter]. destruct (in_dec Nat.eq_dec a []) as [[]|_]. now rewrite IH.
  Qed.
  Lemma tape_at k i : nth_error tape k = Some i -> exists s, nth_error p k = Some s.
  Proof. intros H. destruct (train_recorded p vals tape T) as (_ & L & _). destruct (nth_error p k) eqn:E; [eauto|]. exfalso. apply nth_error_None in E. assert (k < length tape)%nat by (apply nth_error_Some; congruence). lia. Qed.
  Lemma tape_program : program gplus tape.
  Proof.
    intros k args nd local one H. destruct (tape_at _ _ H) as [[r x|o args'] E]; [destruct (recorded_leaf _ _ _ E) as [_ K]; congruence|]. destruct (recorded_call _ _ _ E) as (b & F & A & K). rewrite K in H. injection H as <- <- <- <-.
    pose proof (targets_firstn _ _ _ E) as Tg. destruct (forward_length o _ _ _ F) as [L LB]. rewrite map_length in L, LB. destruct (SM _ _ _ E) as [_ N]. rewrite Tg. split; [exact A|]. split; [|split; [|split]].
    - destruct (loss o); destruct args'; try discriminate; cbn in L; lia.
    - intros g. rewrite map_length. specialize (LB (mkR (rshape (v k)) g)). rewrite firstn_length. lia.
    - intros g h. exact (forward_additive o _ _ _ F g h).
    - intros a Ia Ja. unfold unmarked in Ja. destruct (loss o); [|destruct Ja]. destruct args' as [|u [|t [|]]]; try discriminate L. cbn [skipn] in Ja. destruct Ja as [<-|[]]. destruct (N eq_refl) as (_ & z & Z). cbn [nth] in Z. unfold leaf. now rewrite (proj2 (recorded_leaf _ _ _ Z)).
  Qed.

  Variable H : nat -> rtensor.
  Hypothesis Hh : directions p H.
  Let c (k : nat) (t : R) : rtensor := value (shifted p H t) k.
  Lemma c_leaf k r y t : nth_error p k = Some (Leaf r y) -> c k t = if r then moved y (H k) t else y.
  Proof. intros E. unfold c. pose proof (value_at (shifted p H t) k) as K. rewrite shifted_at, E in K. destruct r; exact K. Qed.
  Lemma c_call k o args t : nth_error p k = Some (Call o args) -> (forall a, In a args -> (a < k)%nat) -> c k t = math o (map (fun a => c a t) args).
  Proof. intros E A. unfold c. pose proof (value_at (shifted p H t) k) as K. rewrite shifted_at, E in K. exact (K A). Qed.
  Lemma c_0 k : c k 0 = value p k. Proof. unfold c. now rewrite shifted_0. Qed.

  Definition chained (k : nat) (d : rtensor) : Prop := curve (c k) (v k) d /\ forall fuel g, (k < fuel)%nat -> rinner (mkR (rshape (v k)) g) d = arrive p H (paths tape fuel k g).
  Lemma gather args : (forall a, In a args -> exists d, chained a d) -> exists hs, tracks (map c args) (map v args) hs /\ Forall2 chained args hs.
  Proof.
    induction args as [|a args IH]; intros Q; [exists []; split; constructor|]. destruct (Q a (or_introl eq_refl)) as [d D]. destruct IH as (hs & Tr & F); [intros; apply Q; now right|]. exists (d :: hs). split; constructor; try assumption. exact (proj1 D).
  Qed.
  Lemma gather_alike args hs : Forall2 chained args hs -> Forall2 alike (map (value p) args) (map v args).
  Proof. intros Ch. induction Ch as [|a d args hs D Ch IHc]; [constructor|]. cbn [map]. constructor; [|exact IHc]. destruct D as [(_ & S & K) _]. split; [rewrite <- c_0; apply S|]. intros ix V. rewrite <- c_0. exact (proj1 (K ix V)). Qed.
  Lemma gather_sum n fuel : forall args hs zs, Forall2 chained args hs -> (forall a, In a args -> (a < fuel)%nat) -> Forall2 (fun z y => rshape z = rshape y) (firstn n zs) (firstn n (map v args)) ->
    rsum (map (fun e => rinner (fst e) (snd e)) (combine (firstn n zs) hs)) = rsum (map (fun e => arrive p H (paths tape fuel (fst e) (snd e))) (combine (firstn n args) (map rat zs))).
  Proof.
    induction n as [|n IH]; intros args hs zs F A Sh; [reflexivity|]. destruct F as [|a d args hs D F]; [destruct (firstn (S n) zs); reflexivity|]. destruct zs as [|z zs]; [reflexivity|]. cbn [firstn map combine fst snd] in *. inversion Sh as [|? ? ? ? Sz S']; subst. change (rsum (?a :: ?r)) with (a + rsum r). f_equal.
    - rewrite <- (proj2 D fuel (rat z)) by (apply A; now left). rewrite <- Sz. reflexivity.
    - apply IH; [exact F| |exact S']. intros b Hb. apply A. now right.
  Qed.
  Lemma idle fuel k g : requires tape k = false -> paths tape fuel k g = []. Proof. intros Q. destruct fuel; [reflexivity|]. cbn [paths]. now rewrite Q. Qed.
  Lemma chained_all k : (k < length p)%nat -> exists d, chained k d.
  Proof.
    induction k as [k IH] using lt_wf_ind. intros Hk. destruct (nth_error p k) as [[r' y|o args]|] eqn:E; [| |apply nth_error_None in E; lia].
    - destruct (recorded_leaf _ _ _ E) as [V Tp]. pose proof (requires_at tape k) as Rq. rewrite Tp in Rq. destruct r'.
      + exists (H k). split.
        * split; [rewrite V; exact (Hh k y E)|]. split; [intros t; rewrite (c_leaf k true y t E), V; reflexivity|]. intros ix Vx. split; [rewrite (c_leaf k true y 0 E), moved_0, V; reflexivity|].
          assert (D : derivable_pt_lim (fun t => rat y ix + t * rat (H k) ix) 0 (rat (H k) ix)) by apply d_line. eapply d_ext; [|exact D]. intros t. rewrite (c_leaf k true y t E). reflexivity.
        * intros fuel g Hf. destruct fuel as [|fuel]; [lia|]. cbn [paths]. rewrite Rq, Tp. unfold arrive. cbn [map fst snd]. rewrite E, rsum1, V. reflexivity.
      + exists (mkR (rshape y) (fun _ => 0)). split.
        * split; [cbn; now rewrite V|]. split; [intros t; rewrite (c_leaf k false y t E); now rewrite V|]. intros ix Vx. split; [rewrite (c_leaf k false y 0 E); now rewrite V|].
          eapply d_ext; [|apply (derivable_pt_lim_const (rat y ix))]. intros t. rewrite (c_leaf k false y t E). reflexivity.
        * intros fuel g Hf. assert (Z : rinner (mkR (rshape (v k)) g) (mkR (rshape y) (fun _ => 0)) = 0) by (unfold rinner; cbn [rshape rat]; apply rsums_zero; intros; ring). rewrite Z. rewrite (idle _ _ _ Rq). reflexivity.
    - destruct (recorded_call _ _ _ E) as (b & F & A & Tp). pose proof (targets_firstn _ _ _ E) as Tg. destruct (SM _ _ _ E) as [Rg N]. destruct (forward_length o _ _ _ F) as [L _]. rewrite map_length in L.
      destruct (gather args) as (hs & Tr & Ch); [intros a Ia; apply IH; specialize (A a Ia); lia|].
      assert (Al : Forall2 alike (map (value p) args) (map v args)) by (exact (gather_alike _ _ Ch)).
      assert (Rv : regular o (map v args)).
      { apply (regular_alike o (map (value p) args)); [exact Al| |exact Rg]. intros Lo. rewrite Lo in L. destruct args as [|u [|t [|]]]; try discriminate L. destruct (N Lo) as (_ & z & Z). cbn [nth] in Z. cbn [map nth]. rewrite (proj1 (recorded_leaf _ _ _ Z)). pose proof (value_at p t) as Vt. now rewrite Z in Vt. }
      destruct (forward_sound o _ _ _ F Rv (map c args) hs Tr) as (d & Cd & G).
      { intros j c' Hj Hc. rewrite map_length in Hj. destruct (loss o) eqn:Lo.
        - destruct args as [|u [|t [|]]]; try discriminate L. destruct j as [|[|j]]; [lia| |destruct j; discriminate Hc]. cbn in Hc. injection Hc as <-. intros t'. destruct (N eq_refl) as (_ & z & Z). cbn [nth] in Z. cbn [map nth_error]. f_equal. rewrite (proj1 (recorded_leaf _ _ _ Z)). now rewrite (c_leaf t false z t' Z).
        - exfalso. assert (j < length (map c args))%nat as Q by (apply nth_error_Some; congruence). rewrite map_length in Q. lia. }
      exists d. split.
      + destruct Cd as (S1 & S2 & K). split; [exact S1|]. assert (Ec : forall t, c k t = math o (map (fun c' => c' t) (map c args))) by (intros t; rewrite map_map; apply c_call; assumption). split; [intros t; rewrite Ec; apply S2|]. intros ix V. destruct (K ix V) as [K0 K1]. split; [rewrite Ec; exact K0|]. eapply d_ext; [|exact K1]. intros t. now rewrite Ec.
      + intros fuel g Hf. destruct fuel as [|fuel]; [lia|]. destruct (G (mkR (rshape (v k)) g) eq_refl) as [Sh ->]. rewrite map_length in Sh |- *.
        rewrite (gather_sum _ fuel args hs _ Ch); [|intros a Ia; specialize (A a Ia); lia|exact Sh].
        cbn [paths]. pose proof (requires_at tape k) as Rq. rewrite Tp in Rq. specialize (Rq A). destruct (requires tape k) eqn:Rk.
        * rewrite Tp, Tg. unfold arrive at 2. cbn [map fst snd]. rewrite E. change (rsum (?a :: ?r)) with (a + rsum r). rewrite Rplus_0_l. change (rsum (map _ (flat_map ?f ?l))) with (arrive p H (flat_map f l)). now rewrite arrive_flat.
        * assert (Z : forall a, In a args -> requires tape a = false). { intros a Ia. destruct (requires tape a) eqn:Ra; [|reflexivity]. symmetry in Rq. rewrite <- Rq. symmetry. apply existsb_exists. eauto. }
          unfold arrive at 2. cbn [map]. rewrite (map_ext_in _ (fun _ => 0)). 2:{ intros [a z] Ia. cbn [fst snd]. apply in_combine_l in Ia. rewrite idle; [reflexivity|]. apply Z. revert Ia. clear. intros Ia. rewrite <- (firstn_skipn (if loss o then 1 else length args) args). apply in_or_app. now left. }
          clear. induction (combine _ _) as [|e l IHl]; [reflexivity|]. cbn [map]. change (rsum (?a :: ?r)) with (a + rsum r). rewrite IHl. unfold rsum. cbn. lra.
  Qed.
End Chain.

Lemma tracked_requires p vals tape k : train p = Some (vals, tape) -> requires tape k = tracked p k.
Proof.
  intros T. pose proof (train_recorded p vals tape T) as Rc. unfold requires, tracked. f_equal. clear k.
  revert vals tape T Rc. induction p as [|i p IH] using rev_ind; intros vals tape T Rc; [injection T as <- <-; reflexivity|].
  unfold train in T. rewrite fold_left_app in T. cbn [fold_left] in T. fold (train p) in T. destruct (train p) as [[vs tp]|] eqn:T0; [|discriminate]. specialize (IH vs tp eq_refl (train_recorded _ _ _ T0)). rewrite fold_left_app. cbn [fold_left]. rewrite <- IH. cbn [execute] in T. destruct i as [r x|o args].
  - injection T as _ <-. now rewrite flags_snoc.
  - destruct (forallb _ args); [|discriminate]. destruct (forward o _) as [[y b]|]; [|discriminate]. injection T as _ <-. now rewrite flags_snoc.
Qed.
Lemma gplus_comm a b : gplus a b = gplus b a. Proof. apply functional_extensionality. intros ix. unfold gplus. ring. Qed.
Lemma gplus_assoc a b c : gplus a (gplus b c) = gplus (gplus a b) c. Proof. apply functional_extensionality. intros ix. unfold gplus. ring. Qed.
Lemma tracked_length p k : tracked p k = true -> (k < length p)%nat.
Proof.
  intros H. destruct (Nat.lt_ge_cases k (length p)) as [L|L]; [exact L|]. exfalso. unfold tracked in H. rewrite nth_overflow in H; [discriminate|]. clear H. assert (E : forall q l, length (fold_left (fun l i => l ++ [match i with Leaf r _ => r | Call _ args => existsb (fun a => nth a l false) args end]) q l) = (length l + length q)%nat).
  { induction q as [|i q IH]; intros l; cbn [fold_left length]; [lia|]. rewrite IH, app_length. cbn. lia. } rewrite E. cbn. lia.
Qed.
Definition still (p : list step) : nat -> rtensor := fun k => match nth_error p k with Some (Leaf _ x) => mkR (rshape x) (fun _ => 0) | _ => empty end.
Lemma still_directions p : directions p (still p). Proof. intros k x E. unfold still. now rewrite E. Qed.
Lemma values_alike p vals tape k : train p = Some (vals, tape) -> smooth p -> (k < length p)%nat -> alike (value p k) (nth k vals empty).
Proof.
  intros T S L. destruct (chained_all p vals tape T S (still p) (still_directions p) k L) as (d & (_ & Sh & K) & _). split; [rewrite <- (shifted_0 p (still p)) at 1; apply Sh|]. intros ix V. rewrite <- (shifted_0 p (still p)) at 1. exact (proj1 (K ix V)).
Qed.
Lemma rate_ext p H G G' : (forall k, G k = G' k) -> rate p H G = rate p H G'. Proof. intros E. unfold rate. f_equal. apply map_ext. intros k. now rewrite E. Qed.
Lemma rate_leaves p H G G' : (forall k r x, nth_error p k = Some (Leaf r x) -> G k = G' k) -> rate p H G = rate p H G'.
Proof. intros E. unfold rate. f_equal. apply map_ext. intros k. destruct (nth_error p k) as [[[|] x|]|] eqn:N; try reflexivity; [|now destruct (G k), (G' k)..]. now rewrite (E k true x N). Qed.

(** C99: a program that runs computes the mathematical value of each of its tensors. *)
Lemma k_C99_values p vals tape : train p = Some (vals, tape) -> smooth p -> length vals = length p /\ forall k, (k < length p)%nat -> rshape (nth k vals empty) = rshape (value p k) /\ forall ix, valid (rshape (value p k)) ix -> rat (nth k vals empty) ix = rat (value p k) ix.
Proof.
  intros T S. split; [apply (train_recorded p vals tape T)|]. intros k L. destruct (values_alike p vals tape k T S L) as [E V]. split; [now symmetry|]. intros ix Vx. symmetry. apply V. now rewrite <- E.
Qed.
(** C99: after backward from tensor t, the gradients give the derivative of the function the program computes, along every direction of all inputs together. *)
Lemma k_C99_gradient p vals tape t seed : train p = Some (vals, tape) -> smooth p -> tracked p t = true -> rshape seed = rshape (value p t) ->
  exists h runs, backward gplus (S t) t (Some (rat seed)) true (heap_of tape, []) = Some (h, runs) /\
    forall H, directions p H -> derivable_pt_lim (fun s => rinner seed (value (shifted p H s) t)) 0 (rate p H (fun k => grad (h k))).
Proof.
  intros T S Tr Sh. pose proof (tracked_length _ _ Tr) as L. rewrite <- (tracked_requires p vals tape t T) in Tr. pose proof (tape_program p vals tape T S) as P.
  destruct (k_C48_paths gplus gplus_comm gplus_assoc tape t (rat seed) P Tr) as (h & runs & B & Gr & _). exists h, runs. split; [exact B|]. intros H D.
  destruct (chained_all p vals tape T S H D t L) as (d & (_ & Sc & Kc) & In). destruct (values_alike p vals tape t T S L) as [Ea _]. assert (Es : rshape seed = rshape (nth t vals empty)) by congruence.
  specialize (In (Datatypes.S t) (rat seed) (Nat.lt_succ_diag_r t)). rewrite <- Es in In. rewrite arrive_sum in In. rewrite (rate_leaves p H (fun k => grad (h k)) (fun k => gathered k (paths tape (Datatypes.S t) t (rat seed)))).
  - rewrite <- In. unfold rinner. cbn [rshape rat]. apply d_rsums. intros ix V. rewrite Es in V. apply d_scal. exact (proj2 (Kc ix V)).
  - intros k r x E. rewrite Gr; [reflexivity|]. unfold leaf. destruct (recorded_leaf p vals tape T k r x E) as [_ ->]. exact I.
Qed.
Lemma rsums_at s : forall f ix0, valid s ix0 -> (forall ix, valid s ix -> ix <> ix0 -> f ix = 0) -> rsums s f = f ix0.
Proof.
  induction s as [|n s IH]; intros f [|a ix0] V Z; try contradiction; [apply rsums_nil|]. destruct V as [La V]. rewrite rsums_cons. rewrite (rsumn_one n a); [|exact La|].
  - apply (IH (fun ix => f (a :: ix)) ix0 V). intros ix Vx N. apply Z; [now split|congruence].
  - intros i Li N. apply rsums_zero. intros ix Vx. apply Z; [now split|congruence].
Qed.
Lemma index_eqb_same a : index_eqb a a = true. Proof. induction a as [|i a IH]; [reflexivity|]. cbn. now rewrite Nat.eqb_refl. Qed.
Lemma index_eqb_true a : forall b, index_eqb a b = true -> a = b. Proof. induction a as [|i a IH]; intros [|j b] H; try discriminate; [reflexivity|]. cbn in H. apply andb_prop in H as [H1 H2]. apply Nat.eqb_eq in H1. apply IH in H2. congruence. Qed.
Lemma rate_only p i x h G : nth_error p i = Some (Leaf true x) -> rate p (only i h p) G = match G i with Some g => rinner (mkR (rshape x) g) h | None => 0 end.
Proof.
  intros E. unfold rate. rewrite (map_ext_in _ (fun k => if Nat.eqb i k then match G k with Some g => rinner (mkR (rshape x) g) h | None => 0 end else 0)).
  - rewrite rsum_one. assert (L : (i < length p)%nat) by (apply nth_error_Some; congruence). destruct (Nat.leb_spec 0 i), (Nat.ltb_spec i (0 + length p)); try lia. reflexivity.
  - intros k _. unfold only. rewrite (Nat.eqb_sym k i). destruct (Nat.eqb_spec i k) as [<-|N]; [now rewrite E|]. destruct (nth_error p k) as [[[|] y|]|]; try reflexivity. destruct (G k) as [g|]; [|reflexivity]. unfold rinner. cbn [rshape rat]. apply rsums_zero. intros. ring.
Qed.
Lemma only_directions p i x h : nth_error p i = Some (Leaf true x) -> rshape h = rshape x -> directions p (only i h p).
Proof. intros E Sh k y Ey. unfold only. destruct (Nat.eqb_spec k i) as [->|]; [congruence|]. now rewrite Ey. Qed.
(** C99: the gradient of an input holds, entry by entry, the partial derivatives; an input without gradient has all partial derivatives zero. *)
Lemma k_C99_entries p vals tape t seed : train p = Some (vals, tape) -> smooth p -> tracked p t = true -> rshape seed = rshape (value p t) ->
  exists h runs, backward gplus (S t) t (Some (rat seed)) true (heap_of tape, []) = Some (h, runs) /\
    forall i x ix, nth_error p i = Some (Leaf true x) -> valid (rshape x) ix ->
      derivable_pt_lim (fun s => rinner seed (value (shifted p (only i (one_hot (rshape x) ix) p) s) t)) 0 (match grad (h i) with Some g => g ix | None => 0 end).
Proof.
  intros T S Tr Sh. destruct (k_C99_gradient p vals tape t seed T S Tr Sh) as (h & runs & B & D). exists h, runs. split; [exact B|]. intros i x ix E V. specialize (D _ (only_directions p i x (one_hot (rshape x) ix) E eq_refl)). rewrite (rate_only p i x _ _ E) in D.
  destruct (grad (h i)) as [g|]; [|exact D]. unfold rinner in D at 2. cbn [rshape rat one_hot] in D. rewrite (rsums_at _ _ ix V) in D. { rewrite index_eqb_same, Rmult_1_r in D. exact D. }
  intros jx _ N. destruct (index_eqb ix jx) eqn:Q; [apply index_eqb_true in Q; congruence|]. ring.
Qed.
Lemma identify_one {G} f : forall k (h : heap G) j, one (identify f k h j) = one (h j).
Proof.
  induction f as [|f IH]; intros k h j; [reflexivity|]. cbn [identify]. set (h1 := Autograd.upd h k (expect_more (h k))). assert (E : forall j, one (h1 j) = one (h j)) by (intros m; unfold h1, Autograd.upd; destruct (Nat.eqb_spec m k) as [->|]; reflexivity).
  destruct (Nat.eqb _ 1); [|apply E]. rewrite <- E. generalize (children (expect_more (h k))) as l. generalize h1 as h2. intros h2 l. revert h2. induction l as [|c l IHl]; intros h2; [reflexivity|]. cbn [fold_left]. rewrite IHl. apply IH.
Qed.
Lemma backward_default {G} (plus : G -> G -> G) f i h runs g : one (h i) = Some g -> backward plus f i None true (h, runs) = backward plus f i (Some g) true (h, runs).
Proof. intros E. destruct f; [reflexivity|]. cbn [backward]. now rewrite identify_one, E. Qed.
Lemma single s : product s = 1%nat -> forall ix jx, valid s ix -> valid s jx -> ix = jx.
Proof.
  induction s as [|n s IH]; intros P [|i ix] [|j jx] V W; try contradiction; [reflexivity|]. change (n * product s = 1)%nat in P. apply Nat.eq_mul_1 in P as [-> P]. destruct V as [V1 V2], W as [W1 W2]. f_equal; [lia|now apply IH].
Qed.
(** C99: backward() without an argument, from a tensor of one element, gives the derivative of that element. *)
Lemma k_C99_loss p vals tape t ix : train p = Some (vals, tape) -> smooth p -> tracked p t = true -> nelement (value p t) = 1%nat -> valid (rshape (value p t)) ix ->
  exists h runs, backward gplus (S t) t None true (heap_of tape, []) = Some (h, runs) /\
    forall H, directions p H -> derivable_pt_lim (fun s => rat (value (shifted p H s) t) ix) 0 (rate p H (fun k => grad (h k))).
Proof.
  intros T S Tr N V. pose proof (tracked_length _ _ Tr) as L. destruct (values_alike p vals tape t T S L) as [Ea _]. assert (U : one (heap_of tape t) = Some (fun _ => 1)).
  { rewrite heap_node. assert (U : unit_of (nth t vals empty) = Some (fun _ => 1)) by (unfold unit_of, nelement in *; rewrite <- Ea, N; reflexivity). destruct (nth_error p t) as [[r x|o args]|] eqn:E; [| |apply nth_error_None in E; lia].
    - destruct (recorded_leaf p vals tape T t r x E) as [Vx ->]. cbn [plain one]. congruence.
    - destruct (recorded_call p vals tape T t o args E) as (b & _ & _ & ->). destruct (requires tape t); exact U. }
  destruct (k_C99_gradient p vals tape t (mkR (rshape (value p t)) (fun _ => 1)) T S Tr eq_refl) as (h & runs & B & D). exists h, runs. split; [rewrite (backward_default gplus _ _ _ _ _ U); exact B|].
  intros H Hd. eapply d_ext; [|exact (D H Hd)]. intros s. cbv beta. unfold rinner. cbn [rshape rat]. rewrite (rsums_at _ _ ix V); [ring|]. intros jx Vj Nj. exfalso. apply Nj. exact (single _ N jx ix Vj V).
Qed.
(** C99: inputs that do not require a gradient are left without one. *)
Lemma k_C99_untracked p vals tape t seed : train p = Some (vals, tape) -> smooth p -> tracked p t = true ->
  exists h runs, backward gplus (S t) t (Some seed) true (heap_of tape, []) = Some (h, runs) /\ forall i x, nth_error p i = Some (Leaf false x) -> grad (h i) = None.
Proof.
  intros T S Tr. rewrite <- (tracked_requires p vals tape t T) in Tr. destruct (k_C48_paths gplus gplus_comm gplus_assoc tape t seed (tape_program p vals tape T S) Tr) as (h & runs & B & Gr & _). exists h, runs. split; [exact B|]. intros i x E. destruct (recorded_leaf p vals tape T i false x E) as [_ Tp]. rewrite Gr; [|unfold leaf; now rewrite Tp].
  pose proof (requires_at tape i) as Rq. rewrite Tp in Rq. unfold path_sum. assert (Np : forall f k g, Forall (fun e => fst e <> i) (paths tape f k g)).
  { induction f as [|f IH]; intros k g; [constructor|]. cbn [paths]. destruct (requires tape k) eqn:Rk; [|constructor]. constructor; [cbn; congruence|]. destruct (nth_error tape k) as [[|args nd local o1]|]; try constructor. apply Forall_flat_map. apply Forall_forall. intros e _. apply IH. }
  specialize (Np (Datatypes.S t) t seed). induction Np as [|e l Ne Np IH]; [reflexivity|]. cbn [fold_right]. rewrite IH. destruct (Nat.eqb_spec (fst e) i); [contradiction|reflexivity].
Qed.
Lemma below_near f l : derivable_pt_lim f 0 l -> l < 0 -> exists eps, 0 < eps /\ forall t, 0 < t < eps -> f t < f 0.
Proof.
  intros D Hl. destruct (D (- l / 2) ltac:(lra)) as [d K]. exists d. split; [apply cond_pos|]. intros t Ht. specialize (K t ltac:(lra)). rewrite Rabs_right in K by lra. specialize (K ltac:(lra)). rewrite Rplus_0_l in K. apply Rabs_def2 in K as [K _].
  assert (Q : (f t - f 0) / t < l / 2) by lra. assert (f t - f 0 < 0); [|lra]. replace (f t - f 0) with ((f t - f 0) / t * t) by (field; lra). nra.
Qed.
Lemma downhill_directions p G : directions p (downhill p G). Proof. intros k x E. unfold downhill. now rewrite E. Qed.
Lemma rsums_square s g : - rsums s (fun jx => g jx * - g jx) = rsums s (fun jx => g jx * g jx).
Proof. rewrite (rsums_ext s (fun jx => g jx * - g jx) (fun jx => -1 * (g jx * g jx))) by (intros; ring). rewrite rsums_scale. ring. Qed.
Lemma rate_downhill p G : (exists i x g ix, nth_error p i = Some (Leaf true x) /\ G i = Some g /\ valid (rshape x) ix /\ g ix <> 0) -> rate p (downhill p G) G < 0.
Proof.
  intros (i & x & g & ix & E & Eg & V & N). unfold rate. set (F := fun k => _). assert (Fle : forall k, 0 <= - F k).
  { intros k. unfold F, downhill. destruct (nth_error p k) as [[[|] y|]|]; [|destruct (G k); lra..]. destruct (G k) as [gk|]; [|lra]. unfold rinner. cbn [rshape rat]. rewrite rsums_square. apply rs_nonneg; intros; nra. }
  assert (Fi : 0 < - F i).
  { unfold F, downhill. rewrite E, Eg. unfold rinner. cbn [rshape rat]. rewrite rsums_square.
    apply in_indices in V. unfold rsums. revert V. generalize (indices (rshape x)) as l. induction l as [|a l IH]; intros V; [destruct V|]. cbn [map]. change (rsum (?a :: ?r)) with (a + rsum r). assert (0 <= rsum (map (fun jx => g jx * g jx) l)) by (apply rs_nonneg; intros; nra). destruct V as [->|V]; [nra|]. specialize (IH V). nra. }
  assert (In i (seq 0 (length p))) as Ii by (apply in_seq; split; [lia|]; apply nth_error_Some; congruence). revert Ii. generalize (seq 0 (length p)) as l. induction l as [|k l IH]; intros W; [destruct W|]. cbn [map]. change (rsum (?a :: ?r)) with (a + rsum r).
  assert (rsum (map F l) <= 0). { clear -Fle. induction l as [|k l IH]; [unfold rsum; cbn; lra|]. cbn [map]. change (rsum (?a :: ?r)) with (a + rsum r). specialize (Fle k). lra. }
  destruct W as [->|W]; [lra|]. specialize (IH W). specialize (Fle k). lra.
Qed.
(** C99: unless all gradients are zero, a step of gradient descent with a small enough learning rate, on all inputs together, makes the loss smaller. *)
Lemma k_C99_descent p vals tape t ix : train p = Some (vals, tape) -> smooth p -> tracked p t = true -> nelement (value p t) = 1%nat -> valid (rshape (value p t)) ix ->
  exists h runs, backward gplus (S t) t None true (heap_of tape, []) = Some (h, runs) /\
    ((exists i x g jx, nth_error p i = Some (Leaf true x) /\ grad (h i) = Some g /\ valid (rshape x) jx /\ g jx <> 0) ->
     exists eps, 0 < eps /\ forall rate, 0 < rate < eps -> rat (value (shifted p (downhill p (fun k => grad (h k))) rate) t) ix < rat (value p t) ix).
Proof.
  intros T S Tr N V. destruct (k_C99_loss p vals tape t ix T S Tr N V) as (h & runs & B & D). exists h, runs. split; [exact B|]. intros Nz. destruct (below_near _ _ (D _ (downhill_directions p (fun k => grad (h k)))) (rate_downhill p _ Nz)) as (eps & P & K). exists eps. split; [exact P|]. intros r Hr. specialize (K r Hr). now rewrite shifted_0 in K.
Qed.
(** one prediction 1/4 against the target 1, both requiring a gradient *)
Definition soft_label : list step := [Leaf true (mkR [1]%nat (fun _ => 1 / 4)); Leaf true (mkR [1]%nat (fun _ => 1)); Call Bce [0; 1]%nat].
(** C99: the condition on targets is needed: a target that requires a gradient gets none, though the loss depends on it. *)
Lemma k_C99_target_refuted : exists vals tape h runs l, train soft_label = Some (vals, tape) /\ tracked soft_label 2 = true /\ nelement (value soft_label 2) = 1%nat /\
  backward gplus 3 2 None true (heap_of tape, []) = Some (h, runs) /\ grad (h 1%nat) = None /\
  derivable_pt_lim (fun s => rat (value (shifted soft_label (only 1 (one_hot [1]%nat [0]%nat) soft_label) s) 2) []) 0 l /\ l <> 0.
Proof.
  eexists _, _, _, _, (- (ln (1 / 4) - ln (1 - 1 / 4))). split; [reflexivity|]. split; [reflexivity|]. split; [reflexivity|]. split; [reflexivity|]. split; [reflexivity|]. split.
  - eapply (d_ext (fun s => - ln (1 / 4) + s * - (ln (1 / 4) - ln (1 - 1 / 4)))); [|apply d_line]. intros s. cbv -[Rplus Rmult Rinv Ropp Rminus Rdiv ln IZR INR]. cbn [INR]. rewrite Rmult_0_r, !Rplus_0_r. field.
  - assert (ln (1 / 4) < ln (1 - 1 / 4)) by (apply ln_increasing; lra). lra.
Qed.

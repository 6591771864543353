(** Gradient descent on the logistic loss, over the real numbers: it does not increase distances, and it converges.  Used for C112. *)
Require Import List Bool Lia Reals Lra.
From Verif Require Import Rtensor_proofs Realgrad_claims Approxfn_claims.
Open Scope R_scope.

(** ** Finite sums *)
Fixpoint su (n : nat) (f : nat -> R) : R := match n with O => 0 | S n => su n f + f n end.
Lemma su_ext n f g : (forall i, (i < n)%nat -> f i = g i) -> su n f = su n g.
Proof. induction n as [|n IH]; intros H; [reflexivity|]. cbn [su]. rewrite IH, H by (try lia; intros; apply H; lia). reflexivity. Qed.
Lemma su_plus n f g : su n (fun i => f i + g i) = su n f + su n g. Proof. induction n as [|n IH]; cbn [su]; [ring|rewrite IH; ring]. Qed.
Lemma su_scal n c f : su n (fun i => c * f i) = c * su n f. Proof. induction n as [|n IH]; cbn [su]; [ring|rewrite IH; ring]. Qed.
Lemma su_minus n f g : su n (fun i => f i - g i) = su n f - su n g. Proof. induction n as [|n IH]; cbn [su]; [ring|rewrite IH; ring]. Qed.
Lemma su_le n f g : (forall i, (i < n)%nat -> f i <= g i) -> su n f <= su n g.
Proof. induction n as [|n IH]; intros H; cbn [su]; [lra|]. pose proof (H n ltac:(lia)). assert (su n f <= su n g) by (apply IH; intros; apply H; lia). lra. Qed.
Lemma su_const n c : su n (fun _ => c) = INR n * c. Proof. induction n as [|n IH]; cbn [su]; [cbn; ring|rewrite IH, S_INR; ring]. Qed.
Lemma su_pos n f : (forall i, (i < n)%nat -> 0 <= f i) -> 0 <= su n f.
Proof. intros H. replace 0 with (su n (fun _ => 0)) by (rewrite su_const; ring). now apply su_le. Qed.
Lemma su_abs n f : Rabs (su n f) <= su n (fun i => Rabs (f i)).
Proof. induction n as [|n IH]; cbn [su]; [rewrite Rabs_R0; lra|]. eapply Rle_trans; [apply Rabs_triang|]. lra. Qed.
Lemma su_swap n m f : su n (fun i => su m (fun j => f i j)) = su m (fun j => su n (fun i => f i j)).
Proof. induction n as [|n IH]; cbn [su]; [rewrite su_const; ring|]. rewrite IH, su_plus. reflexivity. Qed.
Lemma su_term n f k : (forall i, (i < n)%nat -> 0 <= f i) -> (k < n)%nat -> f k <= su n f.
Proof.
  induction n as [|n IH]; intros H K; [lia|]. cbn [su]. assert (0 <= su n f) by (apply su_pos; intros; apply H; lia). destruct (Nat.eq_dec k n) as [-> |]; [lra|].
  assert (f k <= su n f) by (apply IH; [intros; apply H; lia|lia]). pose proof (H n ltac:(lia)). lra.
Qed.
(** Cauchy-Schwarz with weights *)
Lemma su_cauchy n s t f : (forall i, (i < n)%nat -> 0 <= s i) -> su n (fun i => s i * t i * f i) * su n (fun i => s i * t i * f i) <= su n (fun i => s i * (t i * t i)) * su n (fun i => s i * (f i * f i)).
Proof.
  induction n as [|n IH]; intros H; cbn [su]; [lra|]. specialize (IH (fun i Hi => H i ltac:(lia))). pose proof (H n ltac:(lia)) as Hs.
  assert (P0 : 0 <= su n (fun i => s i * (t i * t i))) by (apply su_pos; intros i Hi; pose proof (H i ltac:(lia)); apply Rmult_le_pos; [lra|apply Rle_0_sqr]).
  assert (Q0 : 0 <= su n (fun i => s i * (f i * f i))) by (apply su_pos; intros i Hi; pose proof (H i ltac:(lia)); apply Rmult_le_pos; [lra|apply Rle_0_sqr]).
  set (A := su n (fun i => s i * t i * f i)) in *. set (P := su n (fun i => s i * (t i * t i))) in *. set (Q := su n (fun i => s i * (f i * f i))) in *. clearbody A P Q. set (a := t n). set (b := f n).
  assert (K : 2 * A * (a * b) <= P * (b * b) + Q * (a * a)).
  { assert (W0 : 0 <= P * (b * b) + Q * (a * a)) by (apply Rplus_le_le_0_compat; apply Rmult_le_pos; try assumption; apply Rle_0_sqr).
    apply Rle_trans with (1 := Rle_abs _). rewrite <- (Rabs_right (P * (b * b) + Q * (a * a))) by lra. apply Rsqr_le_abs_0. unfold Rsqr.
    assert (X : 0 <= (P * (b * b) - Q * (a * a)) * (P * (b * b) - Q * (a * a))) by apply Rle_0_sqr. assert (Y : (a * b) * (a * b) * (A * A) <= (a * b) * (a * b) * (P * Q)) by (apply Rmult_le_compat_l; [apply Rle_0_sqr|exact IH]). nra. }
  assert (s n * (2 * A * (a * b)) <= s n * (P * (b * b) + Q * (a * a))) by (apply Rmult_le_compat_l; assumption). nra.
Qed.

Lemma su_cs n t f : su n (fun i => t i * f i) * su n (fun i => t i * f i) <= su n (fun i => t i * t i) * su n (fun i => f i * f i).
Proof.
  pose proof (su_cauchy n (fun _ => 1) t f (fun _ _ => Rle_0_1)) as C. cbv beta in C.
  rewrite (su_ext n (fun i => 1 * t i * f i) (fun i => t i * f i)), (su_ext n (fun i => 1 * (t i * t i)) (fun i => t i * t i)), (su_ext n (fun i => 1 * (f i * f i)) (fun i => f i * f i)) in C by (intros; ring). exact C.
Qed.

(** ** The sigmoid and its integral *)
Notation sg := exact_sigmoid (only parsing).
Lemma sg_01 x : 0 < sg x < 1.
Proof. unfold exact_sigmoid. pose proof (exp_pos (- x)) as P. split; [apply Rinv_0_lt_compat; lra|]. replace 1 with (/ 1) at 2 by field. apply Rinv_lt_contravar; lra. Qed.
Lemma sg_slope a b : exists s, 0 <= s <= 1 / 4 /\ sg a - sg b = s * (a - b).
Proof.
  assert (K : forall a b, a < b -> exists s, 0 <= s <= 1 / 4 /\ sg b - sg a = s * (b - a)).
  { intros u v H. destruct (MVT_cor2 exact_sigmoid (fun x => exact_sigmoid x * (1 - exact_sigmoid x)) u v H (fun c _ => d_sigmoid c)) as (c & E & _). exists (sg c * (1 - sg c)). split; [|exact E]. pose proof (sg_01 c). pose proof (Rle_0_sqr (sg c - 1 / 2)) as Q. unfold Rsqr in Q. nra. }
  destruct (Rtotal_order a b) as [H|[->|H]].
  - destruct (K a b H) as (s & S & E). exists s. split; [exact S|lra].
  - exists 0. split; lra.
  - destruct (K b a H) as (s & S & E). exists s. split; [exact S|exact E].
Qed.
Lemma sg_near a b : Rabs (sg a - sg b) <= Rabs (a - b) / 4.
Proof. destruct (sg_slope a b) as (s & S & ->). rewrite Rabs_mult, (Rabs_right s) by lra. pose proof (Rabs_pos (a - b)). nra. Qed.
(** the quotient of differences *)
Definition quotient (a b : R) : R := if Req_EM_T a b then 0 else (sg a - sg b) / (a - b).
Lemma quotient_ok a b : 0 <= quotient a b <= 1 / 4 /\ sg a - sg b = quotient a b * (a - b).
Proof.
  unfold quotient. destruct (Req_EM_T a b) as [-> |N]; [split; lra|]. destruct (sg_slope a b) as (s & S & E). replace ((sg a - sg b) / (a - b)) with s; [split; assumption|]. rewrite E. field. lra.
Qed.
Definition softplus (x : R) : R := ln (1 + exp x).
Lemma d_softplus x : derivable_pt_lim softplus x (sg x).
Proof.
  unfold softplus. pose proof (exp_pos x) as P. replace (sg x) with (/ (1 + exp x) * (0 + exp x)).
  - apply (derivable_pt_lim_comp (fun t => 1 + exp t) ln); [apply derivable_pt_lim_plus; [apply derivable_pt_lim_const|apply derivable_pt_lim_exp]|apply derivable_pt_lim_ln; lra].
  - unfold exact_sigmoid. rewrite exp_Ropp. field. lra.
Qed.
Lemma sg_mono a b : a <= b -> sg a <= sg b. Proof. intros H. destruct (sg_slope b a) as (s & S & E). nra. Qed.
(** convex, and at most a parabola above its tangents *)
Lemma softplus_between a b : 0 <= softplus b - softplus a - sg a * (b - a) <= (b - a) * (b - a) / 8.
Proof.
  assert (M : forall (g g' : R -> R), (forall x, derivable_pt_lim g x (g' x)) -> (forall x, 0 <= g' x * (x - a)) -> g a <= g b).
  { intros g g' D S. destruct (Rtotal_order a b) as [H|[->|H]]; [|lra|].
    - destruct (MVT_cor2 g g' a b H (fun c _ => D c)) as (c & E & C). specialize (S c). assert (0 <= g' c) by (apply Rmult_le_reg_r with (c - a); [lra|]; rewrite Rmult_0_l; exact S). nra.
    - destruct (MVT_cor2 g g' b a H (fun c _ => D c)) as (c & E & C). specialize (S c). assert (g' c <= 0) by (apply Rmult_le_reg_r with (a - c); [lra|]; nra). nra. }
  assert (Lin : forall c x, derivable_pt_lim (fun x => c * x) x c). { intros c x. eapply d_val; [|apply (derivable_pt_lim_scal (fun t => t) c x 1), derivable_pt_lim_id]. ring. }
  assert (Sq : forall x, derivable_pt_lim (fun x => (x - a) * (x - a)) x (2 * (x - a))).
  { intros x. assert (I : derivable_pt_lim (fun t => t - a) x 1) by (replace 1 with (1 - 0) by ring; apply (derivable_pt_lim_minus (fun t => t) (fun _ => a)); [apply derivable_pt_lim_id|apply derivable_pt_lim_const]). replace (2 * (x - a)) with (1 * (x - a) + (x - a) * 1) by ring. apply (derivable_pt_lim_mult (fun t => t - a) (fun t => t - a)); exact I. }
  split.
  - pose proof (M (fun x => softplus x - sg a * x) (fun x => sg x - sg a)) as K. enough (softplus a - sg a * a <= softplus b - sg a * b) by lra. apply K.
    + intros x. apply (derivable_pt_lim_minus softplus (fun x => sg a * x)); [apply d_softplus|apply Lin].
    + intros x. destruct (sg_slope x a) as (s & S & ->). pose proof (Rle_0_sqr (x - a)) as Q. unfold Rsqr in Q. nra.
  - pose proof (M (fun x => (/ 8 * ((x - a) * (x - a)) + sg a * x) - softplus x) (fun x => (/ 8 * (2 * (x - a)) + sg a) - sg x)) as K.
    enough (/ 8 * ((a - a) * (a - a)) + sg a * a - softplus a <= / 8 * ((b - a) * (b - a)) + sg a * b - softplus b) by nra. apply K.
    + intros x. apply (derivable_pt_lim_minus (fun x => / 8 * ((x - a) * (x - a)) + sg a * x) softplus); [|apply d_softplus]. apply (derivable_pt_lim_plus (fun x => / 8 * ((x - a) * (x - a))) (fun x => sg a * x)); [|apply Lin]. apply (derivable_pt_lim_scal (fun x => (x - a) * (x - a))), Sq.
    + intros x. replace (/ 8 * (2 * (x - a)) + sg a - sg x) with (/ 4 * (x - a) - (sg x - sg a)) by field. destruct (sg_slope x a) as (s & S & ->). pose proof (Rle_0_sqr (x - a)) as Q. unfold Rsqr in Q. nra.
Qed.
Lemma softplus_step a b : Rabs (softplus a - softplus b) <= Rabs (a - b).
Proof.
  assert (K : forall a b, softplus a - softplus b <= Rabs (a - b)).
  { intros u v. pose proof (proj1 (softplus_between u v)) as H. pose proof (sg_01 u). pose proof (Rle_abs (u - v)). pose proof (Rle_abs (- (u - v))). rewrite Rabs_Ropp in *. pose proof (Rabs_pos (u - v)). nra. }
  apply Rabs_le. pose proof (K a b). pose proof (K b a). rewrite (Rabs_minus_sym b a) in *. lra.
Qed.

(** ** Gradient descent *)
Section Descent.
  (** the number of coordinates and of examples, the examples, their labels, the learning rate *)
  Variables (m N : nat) (F : nat -> nat -> R) (y : nat -> R) (r : R).
  Hypothesis HN : (0 < N)%nat.
  Hypothesis Hr : 0 <= r.
  Definition sc (th : nat -> R) (a : nat) : R := su m (fun j => F a j * th j).
  Definition gr (th : nat -> R) (j : nat) : R := su N (fun a => (sg (sc th a) - y a) * F a j) / INR N.
  Definition stp (th : nat -> R) (j : nat) : R := th j - r * gr th j.
  Definition d2 (u v : nat -> R) : R := su m (fun j => (u j - v j) * (u j - v j)).
  Definition energy : R := su N (fun a => su m (fun j => F a j * F a j)) / INR N.
  Definition loss (th : nat -> R) : R := su N (fun a => softplus (sc th a) - y a * sc th a) / INR N.
  Lemma N_pos : 1 <= INR N. Proof. replace 1 with (INR 1) by reflexivity. apply le_INR. lia. Qed.
  Lemma sc_diff u v a : sc u a - sc v a = su m (fun j => F a j * (u j - v j)).
  Proof. unfold sc. rewrite <- su_minus. apply su_ext. intros. ring. Qed.
  Lemma over_N x : INR N * (x / INR N) = x. Proof. pose proof N_pos. field. lra. Qed.
  (** distances do not grow *)
  Lemma stp_shrinks u v : r * energy <= 8 -> d2 (stp u) (stp v) <= d2 u v.
  Proof.
    intros HM. pose proof N_pos as N1. set (t := fun a => sc u a - sc v a). set (s := fun a => quotient (sc u a) (sc v a)). set (G := fun j => su N (fun a => s a * t a * F a j)). set (c := r / INR N).
    assert (C0 : 0 <= c) by (unfold c, Rdiv; apply Rmult_le_pos; [exact Hr|left; apply Rinv_0_lt_compat; lra]).
    assert (S0 : forall a, 0 <= s a <= 1 / 4) by (intros a; apply quotient_ok).
    assert (D : forall j, stp u j - stp v j = (u j - v j) - c * G j).
    { intros j. unfold stp, gr, G, c. replace (su N (fun a => s a * t a * F a j)) with (su N (fun a => (sg (sc u a) - y a) * F a j) - su N (fun a => (sg (sc v a) - y a) * F a j)); [field; lra|].
      rewrite <- su_minus. apply su_ext. intros a _. unfold s, t. rewrite <- (proj2 (quotient_ok (sc u a) (sc v a))). ring. }
    assert (X : d2 (stp u) (stp v) = d2 u v - 2 * c * su m (fun j => (u j - v j) * G j) + c * c * su m (fun j => G j * G j)).
    { unfold d2. rewrite <- su_scal, <- su_scal, <- su_minus, <- su_plus. apply su_ext. intros j _. rewrite D. ring. }
    set (S1 := su N (fun a => s a * (t a * t a))).
    assert (Y : su m (fun j => (u j - v j) * G j) = S1).
    { unfold G. rewrite (su_ext m _ (fun j => su N (fun a => (u j - v j) * (s a * t a * F a j)))) by (intros; now rewrite su_scal). rewrite su_swap. unfold S1. apply su_ext. intros a _. rewrite (su_ext m _ (fun j => (s a * t a) * (F a j * (u j - v j)))) by (intros; ring). rewrite su_scal, <- sc_diff. fold (t a). ring. }
    assert (P1 : 0 <= S1) by (apply su_pos; intros a _; apply Rmult_le_pos; [apply S0|apply Rle_0_sqr]).
    assert (Z : su m (fun j => G j * G j) <= S1 * (INR N * energy / 4)).
    { apply Rle_trans with (su m (fun j => S1 * su N (fun a => s a * (F a j * F a j)))); [apply su_le; intros j _; apply (su_cauchy N s t (fun a => F a j)); intros a _; apply S0|]. rewrite su_scal. apply Rmult_le_compat_l; [exact P1|]. rewrite <- su_swap. unfold energy. rewrite over_N. unfold Rdiv. rewrite (Rmult_comm _ (/ 4)), <- su_scal. apply su_le. intros a _.
      rewrite su_scal. apply Rmult_le_compat_r; [apply su_pos; intros; apply Rle_0_sqr|]. pose proof (S0 a). lra. }
    rewrite X, Y. assert (c * c * su m (fun j => G j * G j) <= c * c * (S1 * (INR N * energy / 4))) by (apply Rmult_le_compat_l; [now apply Rmult_le_pos|exact Z]).
    assert (c * c * (S1 * (INR N * energy / 4)) = c * S1 * (r * energy / 4)) by (unfold c; field; lra). assert (c * S1 * (r * energy / 4) <= c * S1 * 2) by (apply Rmult_le_compat_l; [now apply Rmult_le_pos|lra]). lra.
  Qed.
  (** convexity and smoothness of the loss *)
  Lemma loss_between u v : 0 <= loss v - loss u - su m (fun j => gr u j * (v j - u j)) <= energy / 8 * d2 v u.
  Proof.
    pose proof N_pos as N1. set (t := fun a => sc v a - sc u a).
    assert (G : su m (fun j => gr u j * (v j - u j)) = su N (fun a => (sg (sc u a) - y a) * t a) / INR N).
    { unfold gr. rewrite (su_ext m _ (fun j => / INR N * su N (fun a => (sg (sc u a) - y a) * F a j * (v j - u j)))).
      - rewrite su_scal, su_swap. unfold Rdiv. rewrite (Rmult_comm (su N _)). f_equal. apply su_ext. intros a _. unfold t. rewrite sc_diff, <- su_scal. apply su_ext. intros. ring.
      - intros j _. unfold Rdiv. rewrite (su_ext N (fun a => (sg (sc u a) - y a) * F a j * (v j - u j)) (fun a => (v j - u j) * ((sg (sc u a) - y a) * F a j))) by (intros; ring). rewrite su_scal. ring. }
    assert (L : loss v - loss u - su m (fun j => gr u j * (v j - u j)) = su N (fun a => softplus (sc v a) - softplus (sc u a) - sg (sc u a) * (sc v a - sc u a)) / INR N).
    { rewrite G. unfold loss, Rdiv. rewrite <- !Rmult_minus_distr_r, <- !su_minus. f_equal. apply su_ext. intros a _. unfold t. ring. }
    rewrite L. assert (I : 0 < / INR N) by (apply Rinv_0_lt_compat; lra). split.
    - unfold Rdiv. apply Rmult_le_pos; [|lra]. apply su_pos. intros a _. apply softplus_between.
    - unfold energy. replace (su N (fun a => su m (fun j => F a j * F a j)) / INR N / 8 * d2 v u) with (su N (fun a => su m (fun j => F a j * F a j)) * (d2 v u / 8) / INR N) by (field; lra). unfold Rdiv at 1 2. apply Rmult_le_compat_r; [lra|]. rewrite (Rmult_comm (su N (fun a => su m _))), <- su_scal. apply su_le. intros a _.
      apply Rle_trans with (1 := proj2 (softplus_between (sc u a) (sc v a))). rewrite sc_diff.
      pose proof (su_cs m (F a) (fun j => v j - u j)) as C. cbv beta in C. fold (d2 v u) in C. lra.
  Qed.
  Definition norm2 (g : nat -> R) : R := su m (fun j => g j * g j).
  Lemma norm2_pos g : 0 <= norm2 g. Proof. apply su_pos. intros. apply Rle_0_sqr. Qed.
  Lemma d2_stp u : d2 (stp u) u = r * r * norm2 (gr u).
  Proof. unfold d2, norm2. rewrite <- su_scal. apply su_ext. intros. unfold stp. ring. Qed.
  (** a step decreases the loss *)
  Lemma loss_falls u : r * energy <= 8 -> loss (stp u) <= loss u.
  Proof.
    intros HM. pose proof (proj2 (loss_between u (stp u))) as H. rewrite d2_stp in H. rewrite (su_ext m _ (fun j => (- r) * (gr u j * gr u j))) in H by (intros; unfold stp; ring). rewrite su_scal in H. fold (norm2 (gr u)) in H. pose proof (norm2_pos (gr u)) as P.
    assert (energy / 8 * (r * r * norm2 (gr u)) = r * norm2 (gr u) * (r * energy / 8)) by field. assert (r * norm2 (gr u) * (r * energy / 8) <= r * norm2 (gr u) * 1) by (apply Rmult_le_compat_l; [now apply Rmult_le_pos|lra]). lra.
  Qed.
  Lemma step_gain u v : r * energy <= 4 -> 2 * r * (loss (stp u) - loss v) <= d2 u v - d2 (stp u) v.
  Proof.
    intros HM. pose proof (proj2 (loss_between u (stp u))) as H. rewrite d2_stp in H. rewrite (su_ext m _ (fun j => (- r) * (gr u j * gr u j))) in H by (intros; unfold stp; ring). rewrite su_scal in H. fold (norm2 (gr u)) in H. pose proof (norm2_pos (gr u)) as P.
    assert (A : loss (stp u) <= loss u - r / 2 * norm2 (gr u)). { assert (energy / 8 * (r * r * norm2 (gr u)) = r * norm2 (gr u) * (r * energy / 8)) by field. assert (r * norm2 (gr u) * (r * energy / 8) <= r * norm2 (gr u) * (1 / 2)) by (apply Rmult_le_compat_l; [now apply Rmult_le_pos|lra]). lra. }
    pose proof (proj1 (loss_between u v)) as C.
    assert (D : d2 u v - d2 (stp u) v = 2 * r * su m (fun j => gr u j * (u j - v j)) - r * r * norm2 (gr u)). { unfold d2, norm2. rewrite <- su_minus, <- su_scal, <- su_scal, <- su_minus. apply su_ext. intros. unfold stp. ring. }
    assert (Sgn : su m (fun j => gr u j * (v j - u j)) = - su m (fun j => gr u j * (u j - v j))). { replace (- su m (fun j => gr u j * (u j - v j))) with ((-1) * su m (fun j => gr u j * (u j - v j))) by ring. rewrite <- su_scal. apply su_ext. intros. ring. }
    rewrite D. rewrite Sgn in C. assert (loss (stp u) - loss v <= su m (fun j => gr u j * (u j - v j)) - r / 2 * norm2 (gr u)) by lra. assert (2 * r * (loss (stp u) - loss v) <= 2 * r * (su m (fun j => gr u j * (u j - v j)) - r / 2 * norm2 (gr u))) by (apply Rmult_le_compat_l; lra). lra.
  Qed.
  Lemma stp_ext u v : (forall j, (j < m)%nat -> u j = v j) -> forall j, (j < m)%nat -> stp u j = stp v j.
  Proof. intros H j J. unfold stp, gr, sc. rewrite H by exact J. f_equal. f_equal. f_equal. apply su_ext. intros a _. f_equal. f_equal. f_equal. apply su_ext. intros i Hi. now rewrite H. Qed.
  Lemma loss_ext u v : (forall j, (j < m)%nat -> u j = v j) -> loss u = loss v.
  Proof. intros H. assert (E : forall a, sc u a = sc v a) by (intros a; apply su_ext; intros j J; now rewrite H). unfold loss. f_equal. apply su_ext. intros a _. now rewrite E. Qed.
  Lemma d2_pos u v : 0 <= d2 u v. Proof. apply su_pos. intros. apply Rle_0_sqr. Qed.
  Lemma converges u v t : r * energy <= 4 -> 2 * r * INR t * (loss (Nat.iter t stp u) - loss v) <= d2 u v - d2 (Nat.iter t stp u) v.
  Proof.
    intros HM. induction t as [|t IH]; [cbn; lra|]. change (Nat.iter (S t) stp u) with (stp (Nat.iter t stp u)). set (w := Nat.iter t stp u) in *. rewrite S_INR. pose proof (step_gain w v HM) as G. pose proof (loss_falls w ltac:(lra)) as Fl. pose proof (pos_INR t) as T0.
    assert (2 * r * INR t * (loss (stp w) - loss w) <= 0). { assert (0 <= 2 * r * INR t * (loss w - loss (stp w))); [|lra]. apply Rmult_le_pos; [apply Rmult_le_pos|]; lra. } lra.
  Qed.
  Lemma falls u t s : r * energy <= 8 -> (s <= t)%nat -> loss (Nat.iter t stp u) <= loss (Nat.iter s stp u).
  Proof. intros HM. induction 1 as [|t _ IH]; [lra|]. change (Nat.iter (S t) stp u) with (stp (Nat.iter t stp u)). eapply Rle_trans; [apply loss_falls, HM|exact IH]. Qed.
  (** the loss as a function of the parameters *)
  Lemma sc_step u v X a : 0 <= X -> (forall j, (j < m)%nat -> Rabs (F a j) <= X) -> Rabs (sc u a - sc v a) <= X * sqrt (INR m) * sqrt (d2 u v).
  Proof.
    intros X0 HX.
    rewrite sc_diff. pose proof (su_cs m (F a) (fun j => u j - v j)) as C. cbv beta in C. fold (d2 u v) in C.
    rewrite Rmult_assoc, <- sqrt_mult by (apply pos_INR || apply d2_pos).
    rewrite <- (sqrt_Rsqr_abs (su m _)). rewrite <- (sqrt_Rsqr X X0) at 1. rewrite <- sqrt_mult by (apply Rle_0_sqr || (apply Rmult_le_pos; [apply pos_INR|apply d2_pos])). apply sqrt_le_1_alt. unfold Rsqr. apply Rle_trans with (1 := C).
    replace (X * X * (INR m * d2 u v)) with (INR m * (X * X) * d2 u v) by ring. apply Rmult_le_compat_r; [apply d2_pos|]. rewrite <- su_const. apply su_le. intros j Hj. pose proof (HX j Hj) as B. apply (Rsqr_le_abs_1 (F a j) X). rewrite (Rabs_right X) by lra. exact B.
  Qed.
  Lemma loss_step u v X : 0 <= X -> (forall a j, (a < N)%nat -> (j < m)%nat -> Rabs (F a j) <= X) -> (forall a, (a < N)%nat -> 0 <= y a <= 1) -> Rabs (loss u - loss v) <= X * sqrt (INR m) * sqrt (d2 u v).
  Proof.
    intros X0 HX Hy. pose proof N_pos as N1. unfold loss, Rdiv. rewrite <- Rmult_minus_distr_r, Rabs_mult, (Rabs_right (/ INR N)) by (left; apply Rinv_0_lt_compat; lra). rewrite <- su_minus.
    apply Rmult_le_reg_l with (INR N); [lra|]. rewrite (Rmult_comm _ (/ INR N)), <- Rmult_assoc, Rinv_r, Rmult_1_l by lra. apply Rle_trans with (1 := su_abs _ _). rewrite <- su_const. apply su_le. intros a Ha.
    apply Rle_trans with (Rabs (sc u a - sc v a)).
    { assert (K : forall p q, softplus p - y a * p - (softplus q - y a * q) <= Rabs (p - q)).
      { intros p q. pose proof (proj1 (softplus_between p q)) as H. pose proof (sg_01 p). pose proof (Hy a Ha). assert (A : Rabs ((sg p - y a) * (p - q)) <= Rabs (p - q)) by (rewrite Rabs_mult; assert (Rabs (sg p - y a) <= 1) by (apply Rabs_le; lra); pose proof (Rabs_pos (p - q)); nra). pose proof (Rle_abs ((sg p - y a) * (p - q))). lra. }
      apply Rabs_le. pose proof (K (sc u a) (sc v a)). pose proof (K (sc v a) (sc u a)). rewrite (Rabs_minus_sym (sc v a)) in *. lra. }
    apply sc_step; [exact X0|]. intros j. now apply HX.
  Qed.
End Descent.
(** the Euclidean distance *)
Lemma d2_triangle m u v w : sqrt (d2 m u w) <= sqrt (d2 m u v) + sqrt (d2 m v w).
Proof.
  apply Rsqr_incr_0_var; [|apply Rplus_le_le_0_compat; apply sqrt_pos]. rewrite Rsqr_plus, !Rsqr_sqrt by apply d2_pos.
  assert (E : d2 m u w = d2 m u v + d2 m v w + 2 * su m (fun j => (u j - v j) * (v j - w j))). { unfold d2. rewrite <- su_scal, <- !su_plus. apply su_ext. intros. ring. }
  rewrite E. pose proof (su_cs m (fun j => u j - v j) (fun j => v j - w j)) as C. cbv beta in C. fold (d2 m u v) (d2 m v w) in C.
  enough (su m (fun j => (u j - v j) * (v j - w j)) <= sqrt (d2 m u v) * sqrt (d2 m v w)) by lra. rewrite <- sqrt_mult by apply d2_pos. apply Rle_trans with (1 := Rle_abs _). rewrite <- sqrt_Rsqr_abs. apply sqrt_le_1_alt. exact C.
Qed.
Lemma d2_small m u v e : 0 <= e -> (forall j, (j < m)%nat -> Rabs (u j - v j) <= e) -> sqrt (d2 m u v) <= sqrt (INR m) * e.
Proof.
  intros E0 H. rewrite <- (sqrt_Rsqr e E0), <- sqrt_mult by (apply pos_INR || apply Rle_0_sqr). apply sqrt_le_1_alt. rewrite <- su_const. apply su_le. intros j J. apply (Rsqr_le_abs_1 (u j - v j) e). rewrite (Rabs_right e) by lra. now apply H.
Qed.
Lemma d2_coordinate m u v j : (j < m)%nat -> Rabs (u j - v j) <= sqrt (d2 m u v).
Proof.
  intros J. rewrite <- sqrt_Rsqr_abs. apply sqrt_le_1_alt. apply (su_term m (fun j => (u j - v j) * (u j - v j)) j); [intros; apply Rle_0_sqr|exact J].
Qed.

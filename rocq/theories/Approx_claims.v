(** C70-C72: how far the approximated functions are from the functions they stand for. *)
Require Import List Reals ZArith Arith Bool Lia Lra.
From Verif Require Import Ring64 Tensor Rtensor Rtensor_proofs Realgrad Realgrad_claims Approx.
Import ListNotations.
Open Scope R_scope.

(** *** Powers *)
Lemma two_pow_INR n : INR (2 ^ n) = 2 ^ n. Proof. rewrite pow_INR. reflexivity. Qed.
Lemma two_pow_pos n : 0 < 2 ^ n. Proof. apply pow_lt. lra. Qed.
Lemma two_pow_ge n : 1 <= 2 ^ n. Proof. apply pow_R1_Rle. lra. Qed.
Lemma iter_square n r : Nat.iter n (fun r => r * r) r = r ^ (2 ^ n).
Proof.
  induction n as [|n IH]; [cbn; ring|]. change (Nat.iter (S n) (fun r => r * r) r) with (Nat.iter n (fun r => r * r) r * Nat.iter n (fun r => r * r) r). rewrite IH, Nat.pow_succ_r', Nat.mul_comm, pow_mult. ring.
Qed.
Lemma pow_even_nonneg r n : (1 <= n)%nat -> 0 <= r ^ (2 ^ n).
Proof. intros H. destruct n as [|n]; [lia|]. rewrite Nat.pow_succ_r', pow_mult. apply pow_le. rewrite <- Rsqr_pow2. apply Rle_0_sqr. Qed.
Lemma pow_even_abs r n : (1 <= n)%nat -> r ^ (2 ^ n) = Rabs r ^ (2 ^ n).
Proof. intros H. destruct n as [|n]; [lia|]. rewrite Nat.pow_succ_r', !pow_mult. f_equal. rewrite <- !Rsqr_pow2. apply Rsqr_abs. Qed.
Lemma exp_pow t m : exp t ^ m = exp (INR m * t).
Proof. induction m as [|m IH]; [cbn; rewrite Rmult_0_l, exp_0; reflexivity|]. rewrite S_INR. cbn [pow]. rewrite IH, <- exp_plus. f_equal. ring. Qed.
Lemma bernoulli m a : 0 <= a <= 1 -> 1 - INR m * a <= (1 - a) ^ m.
Proof.
  intros H. induction m as [|m IH]; [cbn; lra|]. rewrite S_INR. cbn [pow]. pose proof (pos_INR m). assert (0 <= (1 - a) ^ m) by (apply pow_le; lra).
  apply Rle_trans with ((1 - a) * (1 - INR m * a)); [|apply Rmult_le_compat_l; lra]. assert (0 <= INR m * (a * a)) by (apply Rmult_le_pos; [lra|apply Rmult_le_pos; lra]). lra.
Qed.
Lemma pow_le_1 a m : 0 <= a <= 1 -> 0 <= a ^ m <= 1.
Proof. intros H. split; [apply pow_le; lra|]. rewrite <- (pow1 m). apply pow_incr. lra. Qed.
Lemma cv_squares a : Rabs a < 1 -> Un_cv (fun k => a ^ (2 ^ k)) 0.
Proof.
  intros H e He. destruct (pow_lt_1_zero a H e He) as (n & Hn). exists n. intros k Hk. unfold R_dist. rewrite Rminus_0_r. apply Hn. assert (k < 2 ^ k)%nat by (apply Nat.pow_gt_lin_r; lia). lia.
Qed.
Lemma not_cv_squares a : 1 <= Rabs a -> ~ Un_cv (fun k => a ^ (2 ^ k)) 0.
Proof.
  intros H C. destruct (C (1 / 2)) as (n & Hn); [lra|]. specialize (Hn n (le_n _)). unfold R_dist in Hn. rewrite Rminus_0_r, <- RPow_abs in Hn. assert (1 <= Rabs a ^ (2 ^ n)) by (apply pow_R1_Rle; exact H). lra.
Qed.

Lemma cv_const a : Un_cv (fun _ => a) a. Proof. intros e He. exists 0%nat. intros. unfold R_dist. rewrite Rminus_diag_eq, Rabs_R0 by reflexivity. exact He. Qed.
Lemma cv_to u l l' : l = l' -> Un_cv u l -> Un_cv u l'. Proof. now intros ->. Qed.
Lemma cv_ext' u v l : (forall k, u k = v k) -> Un_cv u l -> Un_cv v l. Proof. intros E C e He. destruct (C e He) as (n & H). exists n. intros k Hk. rewrite <- E. now apply H. Qed.

(** *** C70: the exponential *)
Lemma exp_approx_power n x : exp_approx n x = (1 + x / 2 ^ n) ^ (2 ^ n). Proof. apply iter_square. Qed.
Lemma split_exp n x : exp x = exp (x / 2 ^ n) ^ (2 ^ n).
Proof. rewrite exp_pow, two_pow_INR. f_equal. field. pose proof (two_pow_pos n). lra. Qed.
Lemma approx_le_exp n x : - 2 ^ n <= x -> exp_approx n x <= exp x.
Proof.
  intros H. pose proof (two_pow_pos n). rewrite exp_approx_power, (split_exp n x). apply pow_incr. split; [|apply exp_ineq1_le].
  assert (-1 <= x / 2 ^ n) by (apply (Rmult_le_reg_r (2 ^ n)); [assumption|]; unfold Rdiv; rewrite Rmult_assoc, Rinv_l; lra). lra.
Qed.
Lemma approx_ge_exp n x : (1 <= n)%nat -> exp x * (1 - x * x / 2 ^ n) <= exp_approx n x.
Proof.
  intros Hn. pose proof (two_pow_pos n) as P. rewrite exp_approx_power. set (t := x / 2 ^ n). assert (Ex : x = 2 ^ n * t) by (unfold t; field; lra).
  assert (Ee : x * x / 2 ^ n = INR (2 ^ n) * (t * t)) by (rewrite two_pow_INR, Ex; field; lra). rewrite Ee.
  destruct (Rle_dec (t * t) 1) as [L|L].
  - assert (-1 <= t <= 1) by (split; destruct (Rle_dec 0 t); nra). rewrite (split_exp n x). fold t.
    apply Rle_trans with (exp t ^ (2 ^ n) * (1 - t * t) ^ (2 ^ n)).
    + apply Rmult_le_compat_l; [apply pow_le; left; apply exp_pos|]. apply bernoulli. nra.
    + rewrite <- Rpow_mult_distr. apply pow_incr. pose proof (exp_pos t) as Pe. split; [apply Rmult_le_pos; nra|]. pose proof (exp_ineq1_le (- t)) as Q. rewrite exp_Ropp in Q.
      assert (exp t * (1 - t) <= 1). { apply Rle_trans with (exp t * / exp t); [apply Rmult_le_compat_l; lra|]. rewrite Rinv_r; lra. }
      replace (exp t * (1 - t * t)) with ((1 + t) * (exp t * (1 - t))) by ring. rewrite <- (Rmult_1_r (1 + t)) at 2. apply Rmult_le_compat_l; lra.
  - apply Rle_trans with 0; [|now apply pow_even_nonneg]. assert (1 - INR (2 ^ n) * (t * t) <= 0) by (pose proof (two_pow_ge n); rewrite two_pow_INR; nra). pose proof (exp_pos x). nra.
Qed.
(** C70: never above the exponential down to -2^d, never below exp(x)(1 - x^2/2^d). *)
Lemma k_C70_exp c x : (1 <= exp_iterations c)%nat ->
  exp x * (1 - x * x / 2 ^ exp_iterations c) <= mpc_exp c x /\ 0 <= mpc_exp c x /\ (- 2 ^ exp_iterations c <= x -> mpc_exp c x <= exp x).
Proof. intros H. split; [now apply approx_ge_exp|]. split; [unfold mpc_exp; rewrite exp_approx_power; now apply pow_even_nonneg|apply approx_le_exp]. Qed.
(** C70: so the approximation tends to the exponential as the number of iterations grows. *)
Lemma k_C70_limit c x : Un_cv (fun d => mpc_exp (with_exp_iterations d c) x) (exp x).
Proof.
  intros e He. pose proof (exp_pos x) as P. destruct (cv_pow_half (exp x * (x * x)) e He) as (n1 & H1). destruct (cv_pow_half (Rabs x) 1 ltac:(lra)) as (n2 & H2).
  exists (S (max n1 n2)). intros n Hn. unfold R_dist, mpc_exp. cbn [with_exp_iterations exp_iterations]. specialize (H1 n ltac:(lia)). specialize (H2 n ltac:(lia)). unfold R_dist in *. pose proof (two_pow_pos n) as Q.
  rewrite Rminus_0_r in H1, H2. assert (0 <= exp x * (x * x) / 2 ^ n) by (unfold Rdiv; apply Rmult_le_pos; [apply Rmult_le_pos; [lra|nra]|left; now apply Rinv_0_lt_compat]).
  rewrite Rabs_right in H1 by lra. rewrite Rabs_right in H2 by (apply Rle_ge; unfold Rdiv; apply Rmult_le_pos; [apply Rabs_pos|left; now apply Rinv_0_lt_compat]).
  assert (Rabs x < 2 ^ n) by (apply (Rmult_lt_reg_r (/ 2 ^ n)); [now apply Rinv_0_lt_compat|]; rewrite Rinv_r; [exact H2|lra]).
  assert (L : - 2 ^ n <= x) by (unfold Rabs in H0; destruct (Rcase_abs x); lra).
  pose proof (approx_le_exp n x L). pose proof (approx_ge_exp n x ltac:(lia)). unfold Rdiv in *. rewrite Rabs_left1; lra.
Qed.
(** C70 refuted far below zero: from -2^(d+1) on the result is at least 1. *)
Lemma k_C70_far_refuted c x : x <= - (2 * 2 ^ exp_iterations c) -> (1 <= exp_iterations c)%nat -> 1 <= mpc_exp c x /\ exp x < 1.
Proof.
  intros H Hn. pose proof (two_pow_pos (exp_iterations c)) as P. split.
  - unfold mpc_exp. rewrite exp_approx_power, pow_even_abs by exact Hn. apply pow_R1_Rle. assert (x / 2 ^ exp_iterations c <= -2) by (apply (Rmult_le_reg_r (2 ^ exp_iterations c)); [assumption|]; unfold Rdiv; rewrite Rmult_assoc, Rinv_l; lra).
    rewrite Rabs_left; lra.
  - rewrite <- exp_0. apply exp_increasing. lra.
Qed.
Lemma exp_unit c x : (1 <= exp_iterations c)%nat -> - (2 * 2 ^ exp_iterations c) <= x <= 0 -> 0 <= mpc_exp c x <= 1.
Proof.
  intros Hn H. pose proof (two_pow_pos (exp_iterations c)) as P. unfold mpc_exp. rewrite exp_approx_power, pow_even_abs by exact Hn. apply pow_le_1. split; [apply Rabs_pos|].
  assert (-2 <= x / 2 ^ exp_iterations c <= 0) by (split; apply (Rmult_le_reg_r (2 ^ exp_iterations c)); try assumption; unfold Rdiv; rewrite Rmult_assoc, Rinv_l; lra). apply Rabs_le. lra.
Qed.

(** *** C71: the reciprocal *)
Lemma nr_error k x y : 1 - x * Nat.iter k (nr_step x) y = (1 - x * y) ^ (2 ^ k).
Proof.
  induction k as [|k IH]; [cbn; ring|]. change (Nat.iter (S k) (nr_step x) y) with (nr_step x (Nat.iter k (nr_step x) y)). rewrite Nat.pow_succ_r', Nat.mul_comm, pow_mult, <- IH. unfold nr_step. ring.
Qed.
Lemma times_sign' x : sign x * x = Rabs x.
Proof. unfold sign, ltz, Rabs. destruct (Rlt_dec x 0), (Rcase_abs x); lra. Qed.
Lemma sign_sq x : sign x * sign x = 1. Proof. unfold sign, ltz. destruct (Rlt_dec x 0); lra. Qed.
(** the number the Newton iteration works on *)
Definition argument (c : config) (x : R) : R := if reciprocal_all_pos c then x else Rabs x.
Lemma initial_all_pos c x : nr_initial (with_all_pos c) x = nr_initial c x. Proof. reflexivity. Qed.
Lemma signed_value c x : reciprocal_method c = NR ->
  exists r, reciprocal_signed c x = inr r /\ 1 - x * r = (1 - argument c x * nr_initial c (argument c x)) ^ (2 ^ reciprocal_nr_iters c).
Proof.
  intros M. unfold reciprocal_signed, argument. destruct (reciprocal_all_pos c).
  - unfold reciprocal_positive. rewrite M. eexists. split; [reflexivity|]. apply nr_error.
  - unfold reciprocal_positive. change (reciprocal_method (with_all_pos c)) with (reciprocal_method c). change (reciprocal_nr_iters (with_all_pos c)) with (reciprocal_nr_iters c). rewrite M. cbn [after bind]. eexists. split; [reflexivity|]. rewrite times_sign'. rewrite <- nr_error.
    change (nr_initial (with_all_pos c)) with (nr_initial c). rewrite <- times_sign'. ring.
Qed.
(** C71: the error 1 - x r of the Newton iteration is the error of the first estimate to the power 2^iterations. *)
Lemma k_C71_error c x : reciprocal_method c = NR ->
  (exists r, mpc_reciprocal c false x = inr r /\ 1 - x * r = (1 - argument c x * nr_initial c (argument c x)) ^ (2 ^ reciprocal_nr_iters c)) /\
  (exists r, mpc_reciprocal c true x = inr r /\ 1 - x * r = (1 - 64 * x * nr_initial c (64 * x)) ^ (2 ^ reciprocal_nr_iters c)).
Proof.
  intros M. split; [now apply signed_value|]. destruct (signed_value (with_all_pos c) (x * 64) M) as (r & E & V). unfold mpc_reciprocal. rewrite E. cbn [after bind]. eexists. split; [reflexivity|].
  change (argument (with_all_pos c) (x * 64)) with (x * 64) in V. change (reciprocal_nr_iters (with_all_pos c)) with (reciprocal_nr_iters c) in V. change (nr_initial (with_all_pos c)) with (nr_initial c) in V. rewrite (Rmult_comm x 64) in V. rewrite <- V. ring.
Qed.
Definition with_nr_iters (k : nat) (c : config) : config := with_reciprocal k (reciprocal_all_pos c) (reciprocal_initial c) c.
Definition value (r : outcome) : R := match r with inr v => v | inl _ => 0 end.
(** C71: the iterations tend to 1/x exactly when the first estimate is between 0 and 2/x. *)
Lemma k_C71_converges c x : reciprocal_method c = NR -> x <> 0 ->
  (Un_cv (fun k => value (mpc_reciprocal (with_nr_iters k c) false x)) (/ x) <-> 0 < argument c x * nr_initial c (argument c x) < 2).
Proof.
  intros M X. set (a := 1 - argument c x * nr_initial c (argument c x)).
  assert (E : forall k, value (mpc_reciprocal (with_nr_iters k c) false x) = / x - a ^ (2 ^ k) / x).
  { intros k. destruct (signed_value (with_nr_iters k c) x M) as (r & Er & V). unfold mpc_reciprocal. rewrite Er. cbn [value]. change (argument (with_nr_iters k c) x) with (argument c x) in V. change (nr_initial (with_nr_iters k c)) with (nr_initial c) in V. change (reciprocal_nr_iters (with_nr_iters k c)) with k in V. fold a in V. rewrite <- V. field. exact X. }
  assert (A : Rabs a < 1 <-> 0 < argument c x * nr_initial c (argument c x) < 2) by (unfold a; split; intros H; [apply Rabs_def2 in H; lra|apply Rabs_def1; lra]). rewrite <- A. split.
  - intros C. destruct (Rlt_dec (Rabs a) 1) as [L|L]; [exact L|exfalso]. apply (not_cv_squares a); [lra|]. apply (cv_ext' (fun k => (/ x - value (mpc_reciprocal (with_nr_iters k c) false x)) * x)); [intros k; rewrite E; field; exact X|].
    apply (cv_to _ ((/ x - / x) * x)); [ring|]. apply (CV_mult (fun k => / x - value (mpc_reciprocal (with_nr_iters k c) false x)) (fun _ => x)); [|apply cv_const]. apply (CV_minus (fun _ => / x)); [apply cv_const|exact C].
  - intros L. apply (cv_ext' (fun k => / x - a ^ (2 ^ k) * / x)); [intros k; now rewrite E|]. apply (cv_to _ (/ x - 0 * / x)); [ring|].
    apply (CV_minus (fun _ => / x)); [apply cv_const|]. apply (CV_mult (fun k => a ^ (2 ^ k)) (fun _ => / x)); [now apply cv_squares|apply cv_const].
Qed.
(** the first estimate *)
Lemma nr_initial_none c x : reciprocal_initial c = None -> nr_initial c x = 3 * mpc_exp c (1 - 2 * x) + 3 / 1000. Proof. intros E. unfold nr_initial. now rewrite E. Qed.
Lemma exp_hyperbola x : 0 < x -> x * exp (1 - 2 * x) <= 1 / 2.
Proof.
  intros H. pose proof (exp_ineq1_le (2 * x - 1)) as Q. replace (1 - 2 * x) with (- (2 * x - 1)) by ring. rewrite exp_Ropp. pose proof (exp_pos (2 * x - 1)) as P.
  apply (Rmult_le_reg_r (exp (2 * x - 1))); [exact P|]. rewrite Rmult_assoc, Rinv_l by lra. lra.
Qed.
Lemma initial_low c x : (1 <= exp_iterations c)%nat -> reciprocal_initial c = None -> 3 / 1000 <= nr_initial c x.
Proof. intros Hn I. rewrite nr_initial_none by exact I. destruct (k_C70_exp c (1 - 2 * x) Hn) as (_ & P & _). lra. Qed.
Lemma initial_high c x : (1 <= exp_iterations c)%nat -> reciprocal_initial c = None -> 0 < x -> 2 * x <= 2 ^ exp_iterations c + 1 -> x * nr_initial c x <= 3 / 2 + 3 / 1000 * x.
Proof.
  intros Hn I X H. rewrite nr_initial_none by exact I. destruct (k_C70_exp c (1 - 2 * x) Hn) as (_ & P & U). specialize (U ltac:(lra)). pose proof (exp_hyperbola x X). assert (x * mpc_exp c (1 - 2 * x) <= x * exp (1 - 2 * x)) by (apply Rmult_le_compat_l; lra). lra.
Qed.
(** C71: with the built-in first estimate the iteration converges for 0 < |x| <= 2^(d-1) up to 166. *)
Lemma k_C71_domain c x : reciprocal_method c = NR -> reciprocal_initial c = None -> (1 <= exp_iterations c)%nat ->
  0 < argument c x <= 166 -> 2 * argument c x <= 2 ^ exp_iterations c + 1 ->
  Un_cv (fun k => value (mpc_reciprocal (with_nr_iters k c) false x)) (/ x).
Proof.
  intros M I Hn A D. apply k_C71_converges; [exact M| |].
  - intros ->. unfold argument in A. rewrite Rabs_R0 in A. destruct (reciprocal_all_pos c); lra.
  - set (a := argument c x) in *. pose proof (initial_low c a Hn I). pose proof (initial_high c a Hn I (proj1 A) D). split; [apply Rmult_lt_0_compat; lra|lra].
Qed.
(** C71 refuted from 2^d + 1/2 on: the first estimate is above 3 and the iterations move away without bound. *)
Lemma k_C71_far_refuted c x : reciprocal_method c = NR -> reciprocal_initial c = None -> (1 <= exp_iterations c)%nat -> 2 ^ exp_iterations c + 1 / 2 <= argument c x ->
  ~ Un_cv (fun k => value (mpc_reciprocal (with_nr_iters k c) false x)) (/ x) /\
  exists r, mpc_reciprocal c false x = inr r /\ 1 - x * r = (1 - argument c x * nr_initial c (argument c x)) ^ (2 ^ reciprocal_nr_iters c) /\ 3 * argument c x <= argument c x * nr_initial c (argument c x) /\ ((1 <= reciprocal_nr_iters c)%nat -> x * r < 0).
Proof.
  intros M I Hn A. set (a := argument c x) in *. pose proof (two_pow_ge (exp_iterations c)) as T2. assert (G : 3 * a <= a * nr_initial c a). { rewrite nr_initial_none by exact I. destruct (k_C70_far_refuted c (1 - 2 * a)) as [G _]; [lra|exact Hn|]. rewrite (Rmult_comm 3). apply Rmult_le_compat_l; lra. } split.
  - intros C. apply k_C71_converges in C; [|exact M|intros ->; unfold a, argument in A; rewrite Rabs_R0 in A; destruct (reciprocal_all_pos c); lra]. fold a in C. lra.
  - destruct (k_C71_error c x M) as [(r & E & V) _]. fold a in V. exists r. split; [exact E|]. split; [exact V|]. split; [exact G|]. intros K. rewrite pow_even_abs in V by exact K. assert (1 < Rabs (1 - a * nr_initial c a)) by (rewrite Rabs_left; lra).
    assert (1 < Rabs (1 - a * nr_initial c a) ^ 2 ^ reciprocal_nr_iters c) by (apply Rlt_pow_R1; [assumption|]; pose proof (Nat.pow_nonzero 2 (reciprocal_nr_iters c)); lia). lra.
Qed.
(** *** C71 with the default configuration *)
Lemma exp_neg_ge n : / 3 ^ n <= exp (- INR n).
Proof. rewrite exp_Ropp. apply Rinv_le_contravar; [apply exp_pos|]. replace (INR n) with (INR n * 1) by ring. rewrite <- exp_pow. apply pow_incr. split; [left; apply exp_pos|apply exp_le_3]. Qed.
Lemma exp_neg_le n : exp (- INR n) <= / 2 ^ n.
Proof. rewrite exp_Ropp. apply Rinv_le_contravar; [apply two_pow_pos|]. replace (INR n) with (INR n * 1) by ring. rewrite <- exp_pow. apply pow_incr. split; [lra|]. pose proof (exp_ineq1_le 1). lra. Qed.
Lemma exp_mono a b : a <= b -> exp a <= exp b. Proof. intros [H| ->]; [left; now apply exp_increasing|right; reflexivity]. Qed.
Lemma default_estimate a : 1 / 100 <= a <= 250 -> 1 / 100 <= a * nr_initial default a <= 199 / 100.
Proof.
  intros [Lo Hi]. assert (Hn : (1 <= exp_iterations default)%nat) by (cbn; lia). assert (T8 : 2 ^ exp_iterations default = 256) by (cbn [exp_iterations default]; ring).
  rewrite nr_initial_none by reflexivity. destruct (k_C70_exp default (1 - 2 * a) Hn) as (L & P & U). rewrite T8 in L, U. set (E := mpc_exp default (1 - 2 * a)) in *. split.
  - destruct (Rle_dec (10 / 3) a) as [A|A]; [assert (0 <= a * E) by (apply Rmult_le_pos; lra); lra|].
    assert (G : forall n, - INR n <= 1 - 2 * a -> 0 <= 1 - (1 - 2 * a) * (1 - 2 * a) / 256 -> / 3 ^ n * (1 - (1 - 2 * a) * (1 - 2 * a) / 256) <= E).
    { intros n H1 H2. apply Rle_trans with (2 := L). apply Rmult_le_compat_r; [exact H2|]. apply Rle_trans with (1 := exp_neg_ge n). now apply exp_mono. }
    destruct (Rle_dec a (1 / 2)) as [B|B]; [|destruct (Rle_dec a 2) as [C|C]].
    + assert (0 <= (1 - 2 * a) * (1 - 2 * a) <= 1) by nra. specialize (G 0%nat ltac:(cbn; lra) ltac:(lra)). cbn [pow] in G. rewrite Rinv_1 in G. assert (254 / 256 <= E) by lra. assert (a * (254 / 256) <= a * E) by (apply Rmult_le_compat_l; lra). lra.
    + assert (0 <= (1 - 2 * a) * (1 - 2 * a) <= 9) by nra. specialize (G 3%nat ltac:(cbn; lra) ltac:(lra)). replace (/ 3 ^ 3) with (1 / 27) in G by (cbn; field). assert (1 / 30 <= E) by lra. assert (a * (1 / 30) <= a * E) by (apply Rmult_le_compat_l; lra). lra.
    + assert (0 <= (1 - 2 * a) * (1 - 2 * a) <= 33) by nra. specialize (G 6%nat ltac:(cbn; lra) ltac:(lra)). replace (/ 3 ^ 6) with (1 / 729) in G by (cbn; field). assert (1 / 900 <= E) by lra. assert (a * (1 / 900) <= a * E) by (apply Rmult_le_compat_l; lra). lra.
  - destruct (Rle_dec a 128) as [A|A].
    + pose proof (initial_high default a Hn eq_refl ltac:(lra) ltac:(lra)) as H. rewrite nr_initial_none in H by reflexivity. fold E in H. lra.
    + assert (E <= / 2 ^ 13).
      { unfold E, mpc_exp. cbn [exp_iterations default]. rewrite exp_approx_power, pow_even_abs by lia. apply Rle_trans with (exp_approx 8 (- INR 13)); [|apply Rle_trans with (2 := exp_neg_le 13); apply approx_le_exp; cbn; lra].
        rewrite exp_approx_power. apply pow_incr. split; [apply Rabs_pos|]. replace (2 ^ 8) with 256 by ring. apply Rabs_le. cbn [INR]. lra. }
      replace (/ 2 ^ 13) with (1 / 8192) in H by (cbn; field). assert (a * E <= a * (1 / 8192)) by (apply Rmult_le_compat_l; lra). lra.
Qed.
Lemma pow_99 : (99 / 100) ^ (2 ^ 10) <= 1 / 16384.
Proof.
  assert (H : (99 / 100) ^ 70 <= 1 / 2) by (cbn [pow]; lra). change (2 ^ 10)%nat with (70 * 14 + 44)%nat. rewrite pow_add, pow_mult. assert (0 <= ((99 / 100) ^ 70) ^ 14 <= (1 / 2) ^ 14) by (split; [apply pow_le, pow_le; lra|apply pow_incr; split; [apply pow_le; lra|exact H]]).
  pose proof (pow_le_1 (99 / 100) 44 ltac:(lra)). replace ((1 / 2) ^ 14) with (1 / 16384) in H0 by (cbn; field). nra.
Qed.
(** C71: with the default configuration and 0.01 <= |x| <= 250 the product x r is at most 1 and at least 1 - 2^-14. *)
Lemma k_C71_default x : 1 / 100 <= Rabs x <= 250 -> exists r, mpc_reciprocal default false x = inr r /\ 0 <= 1 - x * r <= 1 / 16384.
Proof.
  intros H. destruct (k_C71_error default x eq_refl) as [(r & E & V) _]. exists r. split; [exact E|]. change (argument default x) with (Rabs x) in V. cbn [reciprocal_nr_iters default] in V. fold default in V. rewrite V. pose proof (default_estimate (Rabs x) H).
  split; [apply pow_even_nonneg; lia|]. rewrite pow_even_abs by lia. apply Rle_trans with (2 := pow_99). apply pow_incr. split; [apply Rabs_pos|]. apply Rabs_le. lra.
Qed.
Definition with_log_iters (k : nat) (c : config) : config :=
  mkConfig (exp_iterations c) (reciprocal_method c) (reciprocal_nr_iters c) k (reciprocal_all_pos c) (reciprocal_initial c) (sqrt_nr_iters c) (sqrt_nr_initial c) (sigmoid_tanh_method c) (sigmoid_tanh_terms c) (log_iterations c) (log_exp_iterations c) (log_order c) (trig_iterations c) (erf_iterations c).
(** C71 refuted for reciprocal_log_iters: the number of logarithm iterations asked for is not used. *)
Lemma k_C71_log_iters_refuted c k in01 x : mpc_reciprocal (with_log_iters k c) in01 x = mpc_reciprocal c in01 x.
Proof. reflexivity. Qed.

(** *** C72: the square root *)
Definition sq_err (x y : R) : R := 1 - x * (y * y).
Lemma sqrt_err x y : sq_err x (sqrt_step x y) = sq_err x y * sq_err x y * (3 + sq_err x y) / 4. Proof. unfold sq_err, sqrt_step. field. Qed.
Lemma sqrt_step_odd x y : sqrt_step x (- y) = - sqrt_step x y. Proof. unfold sqrt_step. field. Qed.
Lemma iter_odd x k y : Nat.iter k (sqrt_step x) (- y) = - Nat.iter k (sqrt_step x) y.
Proof. induction k as [|k IH]; [reflexivity|]. change (Nat.iter (S k) (sqrt_step x) (- y)) with (sqrt_step x (Nat.iter k (sqrt_step x) (- y))). rewrite IH, sqrt_step_odd. reflexivity. Qed.
(** after the first step the error is in [0, 1) and is at least squared in each step *)
Lemma sqrt_inv x y : 0 <= x -> 0 < y -> x * (y * y) < 3 -> 0 < sqrt_step x y /\ 0 <= sq_err x (sqrt_step x y) <= 1.
Proof.
  intros X Y H. split; [unfold sqrt_step; assert (0 < y * (3 - x * (y * y))) by (apply Rmult_lt_0_compat; lra); lra|]. rewrite sqrt_err. assert (0 <= x * (y * y)) by (apply Rmult_le_pos; nra). unfold sq_err in *. set (e := 1 - x * (y * y)) in *. assert (-2 < e <= 1) by (unfold e; lra).
  assert (0 <= e * e) by nra. split; [assert (0 <= e * e * (3 + e)) by (apply Rmult_le_pos; lra); lra|]. assert (0 <= (1 - e) * ((e + 2) * (e + 2))) by (apply Rmult_le_pos; nra). lra.
Qed.
Lemma sqrt_first x y : 0 < x -> 0 < y -> x * (y * y) < 3 -> sq_err x (sqrt_step x y) < 1.
Proof.
  intros X Y H. rewrite sqrt_err. assert (P : 0 < x * (y * y)) by (apply Rmult_lt_0_compat; nra). unfold sq_err. set (e := 1 - x * (y * y)) in *. assert (-2 < e < 1) by (unfold e; lra). assert (0 < (1 - e) * ((e + 2) * (e + 2))) by (apply Rmult_lt_0_compat; nra). lra.
Qed.
Lemma sqrt_iter x y : 0 <= x -> 0 < y -> x * (y * y) < 3 -> forall k, 0 < Nat.iter (S k) (sqrt_step x) y /\ 0 <= sq_err x (Nat.iter (S k) (sqrt_step x) y) <= sq_err x (sqrt_step x y) ^ (2 ^ k).
Proof.
  intros X Y H. destruct (sqrt_inv x y X Y H) as [P1 E1]. induction k as [|k [IP IE]]; [cbn [Nat.iter nat_rect Nat.pow]; rewrite pow_1; lra|].
  change (Nat.iter (S (S k)) (sqrt_step x) y) with (sqrt_step x (Nat.iter (S k) (sqrt_step x) y)). set (z := Nat.iter (S k) (sqrt_step x) y) in *. pose proof (pow_le_1 (sq_err x (sqrt_step x y)) (2 ^ k) E1) as B.
  assert (Z3 : x * (z * z) < 3) by (unfold sq_err in IE; lra). destruct (sqrt_inv x z X IP Z3) as [P E]. split; [exact P|]. split; [apply E|]. rewrite sqrt_err, Nat.pow_succ_r', Nat.mul_comm, pow_mult. set (q := sq_err x (sqrt_step x y) ^ 2 ^ k) in *. set (e := sq_err x z) in *.
  apply Rle_trans with (e * e); [nra|]. cbn [pow]. rewrite Rmult_1_r. apply Rmult_le_compat; lra.
Qed.
Definition with_sqrt_iters (k : nat) (c : config) : config :=
  mkConfig (exp_iterations c) (reciprocal_method c) (reciprocal_nr_iters c) (reciprocal_log_iters c) (reciprocal_all_pos c) (reciprocal_initial c) k (sqrt_nr_initial c) (sigmoid_tanh_method c) (sigmoid_tanh_terms c) (log_iterations c) (log_exp_iterations c) (log_order c) (trig_iterations c) (erf_iterations c).
(** C72: if the first estimate y0 satisfies 0 < y0 and x y0^2 < 3 then from the first iteration on 0 <= 1 - x y^2 <= q^(2^k) with q < 1. *)
Lemma k_C72_error c x : sqrt_nr_initial c = None -> 0 < x -> 0 < sqrt_initial c x -> x * (sqrt_initial c x * sqrt_initial c x) < 3 ->
  exists q, 0 <= q < 1 /\ forall k, exists y, mpc_inv_sqrt (with_sqrt_iters (S k) c) x = inr y /\ 0 < y /\ 0 <= 1 - x * (y * y) <= q ^ (2 ^ k) /\ mpc_sqrt (with_sqrt_iters (S k) c) x = inr (y * x).
Proof.
  intros I X Y H. exists (sq_err x (sqrt_step x (sqrt_initial c x))). split; [split; [apply (sqrt_inv x _ ltac:(lra) Y H)|now apply sqrt_first]|]. intros k. exists (Nat.iter (S k) (sqrt_step x) (sqrt_initial c x)). destruct (sqrt_iter x _ ltac:(lra) Y H k) as [P E].
  assert (V : mpc_inv_sqrt (with_sqrt_iters (S k) c) x = inr (Nat.iter (S k) (sqrt_step x) (sqrt_initial c x))) by (unfold mpc_inv_sqrt; change (sqrt_nr_initial (with_sqrt_iters (S k) c)) with (sqrt_nr_initial c); rewrite I; reflexivity).
  split; [exact V|]. split; [exact P|]. split; [exact E|]. unfold mpc_sqrt. rewrite V. change (sqrt_nr_initial (with_sqrt_iters (S k) c)) with (sqrt_nr_initial c). now rewrite I.
Qed.
Lemma near_one u : 0 <= u -> Rabs (u - 1) <= Rabs (1 - u * u).
Proof. intros H. replace (1 - u * u) with (- ((u - 1) * (u + 1))) by ring. rewrite Rabs_Ropp, Rabs_mult, (Rabs_right (u + 1)) by lra. pose proof (Rabs_pos (u - 1)). nra. Qed.
Lemma cv_iter x y : 0 < x -> 0 < y -> x * (y * y) < 3 -> Un_cv (fun k => Nat.iter k (sqrt_step x) y) (/ sqrt x).
Proof.
  intros X Y H. set (q := sq_err x (sqrt_step x y)). assert (Q : Rabs q < 1) by (pose proof (sqrt_inv x y ltac:(lra) Y H) as [_ E]; pose proof (sqrt_first x y X Y H); rewrite Rabs_right; unfold q; lra).
  pose proof (sqrt_lt_R0 x X) as S. intros e He. destruct (cv_squares q Q (e * sqrt x)) as (n & Hn); [now apply Rmult_lt_0_compat|]. exists (Datatypes.S n). intros k Hk. destruct k as [|k]; [lia|]. specialize (Hn k ltac:(lia)). unfold R_dist in *. rewrite Rminus_0_r in Hn.
  destruct (sqrt_iter x y ltac:(lra) Y H k) as [P E]. fold q in E. set (z := Nat.iter (Datatypes.S k) (sqrt_step x) y) in *. rewrite (Rabs_right (q ^ _)) in Hn by lra.
  assert (B : Rabs (z * sqrt x - 1) < e * sqrt x). { apply Rle_lt_trans with (2 := Hn). apply Rle_trans with (1 := near_one (z * sqrt x) ltac:(apply Rmult_le_pos; lra)). replace (z * sqrt x * (z * sqrt x)) with (x * (z * z)) by (rewrite <- (sqrt_sqrt x) at 1 by lra; ring). fold (sq_err x z). rewrite Rabs_right; lra. }
  apply (Rmult_lt_reg_r (sqrt x)); [exact S|]. apply Rle_lt_trans with (2 := B). right. rewrite <- (Rabs_right (sqrt x)) at 2 by lra. rewrite <- Rabs_mult. f_equal. field. lra.
Qed.
Lemma iters_value c k x : sqrt_nr_initial c = None -> value (mpc_inv_sqrt (with_sqrt_iters k c) x) = Nat.iter k (sqrt_step x) (sqrt_initial c x) /\ value (mpc_sqrt (with_sqrt_iters k c) x) = Nat.iter k (sqrt_step x) (sqrt_initial c x) * x.
Proof. intros I. unfold mpc_sqrt, mpc_inv_sqrt. change (sqrt_nr_initial (with_sqrt_iters k c)) with (sqrt_nr_initial c). rewrite I. split; reflexivity. Qed.
(** C72: under the same condition the iterations tend to 1/sqrt(x) and sqrt(x); with a negative first estimate they tend to the negative roots. *)
Lemma k_C72_converges c x : sqrt_nr_initial c = None -> 0 < x -> x * (sqrt_initial c x * sqrt_initial c x) < 3 ->
  (0 < sqrt_initial c x -> Un_cv (fun k => value (mpc_inv_sqrt (with_sqrt_iters k c) x)) (/ sqrt x) /\ Un_cv (fun k => value (mpc_sqrt (with_sqrt_iters k c) x)) (sqrt x)) /\
  (sqrt_initial c x < 0 -> Un_cv (fun k => value (mpc_inv_sqrt (with_sqrt_iters k c) x)) (- / sqrt x) /\ Un_cv (fun k => value (mpc_sqrt (with_sqrt_iters k c) x)) (- sqrt x)).
Proof.
  intros I X H. pose proof (sqrt_lt_R0 x X) as S.
  assert (G : forall l, Un_cv (fun k => Nat.iter k (sqrt_step x) (sqrt_initial c x)) l -> Un_cv (fun k => value (mpc_inv_sqrt (with_sqrt_iters k c) x)) l /\ Un_cv (fun k => value (mpc_sqrt (with_sqrt_iters k c) x)) (l * x)).
  { intros l C. split; [apply (cv_ext' _ _ _ (fun k => eq_sym (proj1 (iters_value c k x I))) C)|]. apply (cv_ext' _ _ _ (fun k => eq_sym (proj2 (iters_value c k x I)))). apply (CV_mult _ (fun _ => x)); [exact C|apply cv_const]. }
  assert (Rt : / sqrt x * x = sqrt x) by (rewrite <- (sqrt_sqrt x) at 2 by lra; field; lra). split; intros Y.
  - destruct (G (/ sqrt x)) as [A B]; [now apply cv_iter|]. split; [exact A|]. now rewrite <- Rt.
  - destruct (G (- / sqrt x)) as [A B].
    + apply (cv_ext' (fun k => - Nat.iter k (sqrt_step x) (- sqrt_initial c x))); [intros k; rewrite iter_odd; ring|]. apply CV_opp. apply cv_iter; [exact X|lra|]. replace (- sqrt_initial c x * - sqrt_initial c x) with (sqrt_initial c x * sqrt_initial c x) by ring. exact H.
    + split; [exact A|]. rewrite <- Rt. now rewrite Ropp_mult_distr_l.
Qed.
(** C72 refuted for a configured first estimate: a configuration can only hold a number, and numbers have no mul_. *)
Lemma k_C72_initial_refuted c v x : sqrt_nr_initial c = Some v -> mpc_sqrt c x = inl AttributeError /\ ((1 <= sqrt_nr_iters c)%nat -> mpc_inv_sqrt c x = inl AttributeError).
Proof. intros I. unfold mpc_sqrt, mpc_inv_sqrt. rewrite I. split; [reflexivity|]. destruct (sqrt_nr_iters c); [lia|reflexivity]. Qed.

Lemma default_exp z : -256 <= z -> 0 <= mpc_exp default z <= exp z.
Proof. intros H. destruct (k_C70_exp default z ltac:(cbn; lia)) as (_ & P & U). split; [exact P|]. apply U. cbn [exp_iterations default]. replace (2 ^ 8) with 256 by ring. lra. Qed.
Lemma exp_07 : exp (- (7 / 10)) <= 512 / 1000.
Proof.
  rewrite exp_Ropp. apply Rle_trans with (/ (1954 / 1000)); [|lra]. apply Rinv_le_contravar; [lra|]. apply Rle_trans with (2 := approx_le_exp 3 (7 / 10) ltac:(cbn; lra)). rewrite exp_approx_power. cbn [pow Nat.pow Nat.mul Nat.add]. lra.
Qed.
Lemma sqrt_estimate x : 0 < x <= 204 -> 0 < sqrt_initial default x /\ x * (sqrt_initial default x * sqrt_initial default x) < 3.
Proof.
  intros X. unfold sqrt_initial. pose proof (default_exp (- (x / 2 + 2 / 10)) ltac:(lra)) as [P U]. set (E := mpc_exp default (- (x / 2 + 2 / 10))) in *. split; [lra|].
  pose proof (sqrt_lt_R0 x ltac:(lra)) as S. pose proof (sqrt_sqrt x ltac:(lra)) as SS. set (s := sqrt x) in *.
  assert (Sq : x * ((E * (22 / 10) + 2 / 10 - x / 1024) * (E * (22 / 10) + 2 / 10 - x / 1024)) = (s * (E * (22 / 10) + 2 / 10 - x / 1024)) * (s * (E * (22 / 10) + 2 / 10 - x / 1024))) by (rewrite <- SS; ring). rewrite Sq. clear Sq.
  assert (B : 0 <= s * (E * (22 / 10) + 2 / 10 - x / 1024) <= 1731 / 1000); [|set (b := s * _) in *; nra]. split; [apply Rmult_le_pos; lra|].
  assert (SE : s * E <= s * exp (- (x / 2)) * exp (- (2 / 10))). { rewrite Rmult_assoc, <- exp_plus. apply Rmult_le_compat_l; [lra|]. replace (- (x / 2) + - (2 / 10)) with (- (x / 2 + 2 / 10)) by ring. exact U. }
  destruct (Rle_dec x 9) as [A|A].
  - assert (s <= 3) by (apply Rsqr_incr_0_var; unfold Rsqr; lra).
    assert (T : s * exp (- (x / 2)) <= exp (- (1 / 2))). { apply Rsqr_incr_0_var; [|left; apply exp_pos]. unfold Rsqr. replace (s * exp (- (x / 2)) * (s * exp (- (x / 2)))) with (s * s * (exp (- (x / 2)) * exp (- (x / 2)))) by ring. rewrite SS, <- !exp_plus.
      replace (- (x / 2) + - (x / 2)) with (- x) by field. replace (- (1 / 2) + - (1 / 2)) with (Ropp 1) by field. rewrite !exp_Ropp. pose proof (exp_ineq1_le (x - 1)) as Q. unfold Rminus in Q. rewrite exp_plus, exp_Ropp in Q. apply (Rmult_le_reg_r (exp x)); [apply exp_pos|]. rewrite Rmult_assoc, Rinv_l by (pose proof (exp_pos x); lra). rewrite (Rmult_comm (/ exp 1)). apply Rle_trans with (2 := Q). lra. }
    assert (T2 : s * E <= 512 / 1000). { apply Rle_trans with (1 := SE). apply Rle_trans with (2 := exp_07). replace (- (7 / 10)) with (- (1 / 2) + - (2 / 10)) by field. rewrite exp_plus. apply Rmult_le_compat_r; [left; apply exp_pos|exact T]. }
    assert (0 <= s * x) by (apply Rmult_le_pos; lra). lra.
  - assert (s <= 15) by (apply Rsqr_incr_0_var; unfold Rsqr; lra). assert (3 <= s) by (apply Rsqr_incr_0_var; unfold Rsqr; lra).
    assert (T : s * exp (- (x / 2)) <= 1 / 4). { apply Rsqr_incr_0_var; [|lra]. unfold Rsqr. replace (s * exp (- (x / 2)) * (s * exp (- (x / 2)))) with (s * s * (exp (- (x / 2)) * exp (- (x / 2)))) by ring. rewrite SS, <- exp_plus. replace (- (x / 2) + - (x / 2)) with (- (x / 2 - 1) + - (x / 2 + 1)) by field. rewrite exp_plus.
      pose proof (exp_ineq1_le (x / 2 - 1)) as Q. rewrite (exp_Ropp (x / 2 - 1)). assert (x * / exp (x / 2 - 1) <= 2) by (apply (Rmult_le_reg_r (exp (x / 2 - 1))); [apply exp_pos|]; rewrite Rmult_assoc, Rinv_l by (pose proof (exp_pos (x / 2 - 1)); lra); lra).
      assert (exp (- (x / 2 + 1)) <= / 2 ^ 5) by (apply Rle_trans with (2 := exp_neg_le 5); apply exp_mono; cbn [INR]; lra). replace (/ 2 ^ 5) with (1 / 32) in H2 by (cbn; field). pose proof (exp_pos (- (x / 2 + 1))). rewrite <- Rmult_assoc. apply Rle_trans with (2 * exp (- (x / 2 + 1))); [apply Rmult_le_compat_r; lra|lra]. }
    assert (exp (- (2 / 10)) <= 1) by (rewrite <- exp_0; apply exp_mono; lra). assert (0 <= s * exp (- (x / 2))) by (apply Rmult_le_pos; [lra|left; apply exp_pos]). assert (T2 : s * E <= 1 / 4) by nra.
    assert (s * x = s * s * s) by (rewrite <- SS; ring). assert (0 <= (s - 33 / 4) * (s - 33 / 4) * (s + 33 / 2)) by (apply Rmult_le_pos; [apply Rle_0_sqr|lra]). lra.
Qed.
(** C72: with the default configuration the iterations tend to 1/sqrt(x) and sqrt(x) for 0 < x <= 204. *)
Lemma k_C72_domain x : 0 < x <= 204 ->
  Un_cv (fun k => value (mpc_inv_sqrt (with_sqrt_iters k default) x)) (/ sqrt x) /\ Un_cv (fun k => value (mpc_sqrt (with_sqrt_iters k default) x)) (sqrt x).
Proof. intros X. destruct (sqrt_estimate x X) as [P B]. now apply (proj1 (k_C72_converges default x eq_refl (proj1 X) B)). Qed.
(** C72 refuted from 205 to 300: the first estimate is negative and every number of iterations gives a negative square root. *)
Lemma k_C72_negative_refuted x : 205 <= x <= 300 ->
  (forall k, value (mpc_sqrt (with_sqrt_iters k default) x) < 0) /\ Un_cv (fun k => value (mpc_sqrt (with_sqrt_iters k default) x)) (- sqrt x).
Proof.
  intros X. assert (N : sqrt_initial default x < 0 /\ x * (sqrt_initial default x * sqrt_initial default x) < 3).
  { unfold sqrt_initial. pose proof (default_exp (- (x / 2 + 2 / 10)) ltac:(lra)) as [P U]. set (E := mpc_exp default (- (x / 2 + 2 / 10))) in *. assert (E <= / 2 ^ 20) by (apply Rle_trans with (1 := U); apply Rle_trans with (2 := exp_neg_le 20); apply exp_mono; cbn [INR]; lra). replace (/ 2 ^ 20) with (1 / 1048576) in H by (cbn; field).
    set (y := E * (22 / 10) + 2 / 10 - x / 1024). assert (- (93 / 1000) <= y < 0) by (unfold y; lra). split; [lra|]. assert (0 <= y * y <= 8649 / 1000000) by nra. nra. }
  destruct N as [N B]. split; [|now apply (proj2 (k_C72_converges default x eq_refl ltac:(lra) B))]. intros k. rewrite (proj2 (iters_value default k x eq_refl)). rewrite <- (Ropp_involutive (sqrt_initial default x)), iter_odd.
  assert (0 < Nat.iter k (sqrt_step x) (- sqrt_initial default x)). { destruct k as [|k]; [cbn; lra|]. apply sqrt_iter; [lra|lra|]. replace (- sqrt_initial default x * - sqrt_initial default x) with (sqrt_initial default x * sqrt_initial default x) by ring. exact B. } nra.
Qed.
(** C72 refuted just below that: with the default three iterations the result is less than half the root. *)
Lemma k_C72_slow_refuted x : 195 <= x <= 204 -> value (mpc_sqrt default x) < sqrt x / 2.
Proof.
  intros X. destruct (sqrt_estimate x ltac:(lra)) as [P _]. change default with (with_sqrt_iters 3 default) at 1. rewrite (proj2 (iters_value default 3 x eq_refl)).
  assert (G : forall y, 0 <= y -> sqrt_step x y <= 3 / 2 * y) by (intros y Y; unfold sqrt_step; assert (0 <= y * (x * (y * y))) by (apply Rmult_le_pos; [lra|apply Rmult_le_pos; nra]); lra).
  assert (U : sqrt_initial default x <= 98 / 10000). { unfold sqrt_initial. pose proof (default_exp (- (x / 2 + 2 / 10)) ltac:(lra)) as [P' U]. set (E := mpc_exp default (- (x / 2 + 2 / 10))) in *. assert (E <= / 2 ^ 20) by (apply Rle_trans with (1 := U); apply Rle_trans with (2 := exp_neg_le 20); apply exp_mono; cbn [INR]; lra). replace (/ 2 ^ 20) with (1 / 1048576) in H by (cbn; field). lra. }
  assert (P3 : forall k, 0 <= Nat.iter k (sqrt_step x) (sqrt_initial default x)) by (intros [|k]; [cbn; lra|]; left; apply sqrt_iter; [lra|exact P|apply sqrt_estimate; lra]).
  assert (W : Nat.iter 3 (sqrt_step x) (sqrt_initial default x) <= 27 / 8 * (98 / 10000)). { change (Nat.iter 3 (sqrt_step x) (sqrt_initial default x)) with (sqrt_step x (Nat.iter 2 (sqrt_step x) (sqrt_initial default x))). pose proof (G _ (P3 2%nat)). change (Nat.iter 2 (sqrt_step x) (sqrt_initial default x)) with (sqrt_step x (Nat.iter 1 (sqrt_step x) (sqrt_initial default x))) in *. pose proof (G _ (P3 1%nat)). change (Nat.iter 1 (sqrt_step x) (sqrt_initial default x)) with (sqrt_step x (sqrt_initial default x)) in *. pose proof (G _ (Rlt_le _ _ P)). lra. }
  assert (139 / 10 <= sqrt x) by (apply Rsqr_incr_0_var; [|apply sqrt_pos]; rewrite Rsqr_sqrt by lra; unfold Rsqr; lra). pose proof (P3 3%nat). nra.
Qed.

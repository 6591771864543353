(** Approximated functions, second part: cosine and sine, logarithm, sigmoid and tanh, erf, softmax. *)
Require Import List Reals ZArith Lia Lra Arith Bool Psatz.
From Verif Require Import Ring64 Tensor Tensor_proofs Rtensor Rtensor_proofs Realgrad Realgrad_claims Approx Approx_claims.
Import ListNotations.
Open Scope R_scope.

(** *** C73: cosine and sine *)
(** the modulus and the argument of 1 + i x / N *)
Definition modulus (n x : R) : R := sqrt (1 + (x / n) * (x / n)).
Definition angle (n x : R) : R := atan (x / n).
Lemma modulus_sq n x : modulus n x * modulus n x = 1 + (x / n) * (x / n). Proof. unfold modulus. apply sqrt_sqrt. nra. Qed.
Lemma modulus_ge n x : 1 <= modulus n x.
Proof. unfold modulus. rewrite <- sqrt_1 at 1. apply sqrt_le_1_alt. nra. Qed.
Lemma modulus_cos n x : modulus n x * cos (angle n x) = 1.
Proof. unfold modulus, angle. rewrite cos_atan. unfold Rsqr. field. apply Rgt_not_eq, sqrt_lt_R0. nra. Qed.
Lemma modulus_sin n x : modulus n x * sin (angle n x) = x / n.
Proof. unfold modulus, angle. rewrite sin_atan. unfold Rsqr. set (t := x / n). field. apply Rgt_not_eq, sqrt_lt_R0. nra. Qed.
Lemma eix_iter k r a : Nat.iter k eix_step (r * cos a, r * sin a) = (r ^ (2 ^ k) * cos (2 ^ k * a), r ^ (2 ^ k) * sin (2 ^ k * a)).
Proof.
  induction k as [|k IH]; [cbn [Nat.iter nat_rect Nat.pow pow]; rewrite !Rmult_1_r, Rmult_1_l; reflexivity|]. change (Nat.iter (S k) eix_step (r * cos a, r * sin a)) with (eix_step (Nat.iter k eix_step (r * cos a, r * sin a))). rewrite IH. unfold eix_step. rewrite Nat.pow_succ_r', Nat.mul_comm, pow_mult. replace (2 ^ S k * a) with (2 * (2 ^ k * a)) by (cbn [pow]; ring). rewrite cos_2a, sin_2a. set (q := r ^ 2 ^ k). apply f_equal2; cbn [pow]; ring.
Qed.
Lemma eix_polar c x : (1 <= trig_iterations c)%nat -> let n := 2 ^ trig_iterations c in
  eix c x = (modulus n x ^ (2 ^ trig_iterations c) * cos (n * angle n x), modulus n x ^ (2 ^ trig_iterations c) * sin (n * angle n x)).
Proof.
  cbv zeta. unfold eix. destruct (trig_iterations c) as [|k]; [lia|]. intros _. replace (S k - 1)%nat with k by lia. set (n := 2 ^ S k).
  pose proof (modulus_cos n x) as C. pose proof (modulus_sin n x) as S. set (r := modulus n x) in *. set (a := angle n x) in *.
  replace (1 - x / n * (x / n), x / n * 2) with (r ^ 2 * cos (2 * a), r ^ 2 * sin (2 * a)).
  - rewrite eix_iter. rewrite <- pow_mult. change (2 * 2 ^ k)%nat with (2 ^ Datatypes.S k)%nat. replace (2 ^ k * (2 * a)) with (n * a) by (unfold n; cbn [pow]; ring). reflexivity.
  - rewrite cos_2a, sin_2a, <- S. apply f_equal2; [|transitivity (2 * ((r * cos a) * (r * sin a))); [ring|rewrite C; ring]]. transitivity ((r * cos a) * (r * cos a) - (r * sin a) * (r * sin a)); [ring|rewrite C; ring].
Qed.
(** C73: for at least one iteration, with N = 2^trig_iterations, cosine and sine are the real and imaginary part of (1 + i x / N)^N. *)
Lemma k_C73_polar c x : (1 <= trig_iterations c)%nat -> let n := 2 ^ trig_iterations c in let r := sqrt (1 + (x / n) * (x / n)) ^ (2 ^ trig_iterations c) in
  mpc_cos c x = r * cos (n * atan (x / n)) /\ mpc_sin c x = r * sin (n * atan (x / n)).
Proof. intros H. pose proof (eix_polar c x H) as E. cbv zeta in *. unfold mpc_cos, mpc_sin. rewrite E. split; reflexivity. Qed.
Lemma power_exp n m t : 0 <= t -> INR m = n -> (1 + t) ^ m <= exp (n * t).
Proof. intros H <-. rewrite <- exp_pow. apply pow_incr. split; [lra|apply exp_ineq1_le]. Qed.
(** C73: their squares do not add up to 1 but to (1 + x^2/N^2)^N, which is at least 1 + x^2/N and at most exp(x^2/N). *)
Lemma k_C73_modulus c x : (1 <= trig_iterations c)%nat -> let n := 2 ^ trig_iterations c in
  mpc_cos c x * mpc_cos c x + mpc_sin c x * mpc_sin c x = (1 + (x / n) * (x / n)) ^ (2 ^ trig_iterations c) /\
  1 + x * x / n <= mpc_cos c x * mpc_cos c x + mpc_sin c x * mpc_sin c x <= exp (x * x / n).
Proof.
  intros H. cbv zeta. set (n := 2 ^ trig_iterations c). pose proof (two_pow_pos (trig_iterations c)) as P. fold n in P. destruct (k_C73_polar c x H) as [C S]. fold n in C, S. fold (modulus n x) in C, S.
  assert (E : mpc_cos c x * mpc_cos c x + mpc_sin c x * mpc_sin c x = (1 + (x / n) * (x / n)) ^ (2 ^ trig_iterations c)).
  { rewrite C, S, <- modulus_sq, Rpow_mult_distr. set (q := modulus n x ^ _). set (a := n * atan (x / n)). pose proof (sin2_cos2 a) as T. unfold Rsqr in T. transitivity (q * q * (sin a * sin a + cos a * cos a)); [ring|rewrite T; ring]. }
  split; [exact E|]. rewrite E. assert (T : 0 <= x / n * (x / n)) by nra. assert (V : x * x / n = n * (x / n * (x / n))) by (field; lra). rewrite V. split.
  - destruct T as [T|T]; [|rewrite <- T, Rplus_0_r, Rmult_0_r, pow1; lra]. pose proof (poly (2 ^ trig_iterations c) _ T) as B. rewrite two_pow_INR in B. exact B.
  - apply power_exp; [exact T|apply two_pow_INR].
Qed.
Lemma lipschitz f f' a b : (forall t, derivable_pt_lim f t (f' t)) -> (forall t, Rabs (f' t) <= 1) -> Rabs (f b - f a) <= Rabs (b - a).
Proof.
  intros D B. destruct (Rtotal_order a b) as [H|[->|H]].
  - destruct (MVT_cor2 f f' a b H (fun t _ => D t)) as (t & E & _). rewrite E, Rabs_mult. pose proof (B t). pose proof (Rabs_pos (b - a)). nra.
  - rewrite !Rminus_diag_eq by reflexivity. lra.
  - destruct (MVT_cor2 f f' b a H (fun t _ => D t)) as (t & E & _). rewrite (Rabs_minus_sym (f b)), (Rabs_minus_sym b), E, Rabs_mult. pose proof (B t). pose proof (Rabs_pos (a - b)). nra.
Qed.
Lemma cos_lip a b : Rabs (cos b - cos a) <= Rabs (b - a).
Proof. apply (lipschitz cos (fun t => - sin t)); [apply derivable_pt_lim_cos|]. intros t. rewrite Rabs_Ropp. apply Rabs_le. pose proof (SIN_bound t). lra. Qed.
Lemma sin_lip a b : Rabs (sin b - sin a) <= Rabs (b - a).
Proof. apply (lipschitz sin cos); [apply derivable_pt_lim_sin|]. intros t. apply Rabs_le. pose proof (COS_bound t). lra. Qed.
Lemma atan_low_pos t : 0 <= t -> t - t * t * t / 3 <= atan t <= t.
Proof.
  intros [H|<-]; [|rewrite atan_0; lra]. split.
  - destruct (MVT_cor2 (fun u => atan u - (u - u * u * u / 3)) (fun u => / (1 + u ^ 2) - (1 - u * u)) 0 t H) as (u & E & _).
    + intros u _. apply d_minus; [apply derivable_pt_lim_atan|]. apply (d_ext (fun u => u - / 3 * u ^ 3)); [intros v; cbn [pow]; field|]. apply (d_val _ _ (1 - / 3 * (INR 3 * u ^ 2))); [cbn [pow INR]; field|]. apply d_minus; [apply d_id|]. apply (derivable_pt_lim_scal (fun v => v ^ 3)). apply (derivable_pt_lim_pow u 3).
    + cbv beta in E. rewrite atan_0 in E. cbn [pow] in E; rewrite Rmult_1_r in E. assert (0 <= (/ (1 + u * u) - (1 - u * u)) * (t - 0)); [|lra]. apply Rmult_le_pos; [|lra]. replace (/ (1 + u * u) - (1 - u * u)) with (u * u * (u * u) * / (1 + u * u)) by (field; nra). apply Rmult_le_pos; [nra|]. left. apply Rinv_0_lt_compat. nra.
  - destruct (MVT_cor2 atan (fun u => / (1 + u ^ 2)) 0 t H (fun u _ => derivable_pt_lim_atan u)) as (u & E & _). rewrite atan_0 in E. cbn [pow] in E; rewrite Rmult_1_r in E. assert (/ (1 + u * u) <= 1) by (rewrite <- Rinv_1; apply Rinv_le_contravar; nra). nra.
Qed.
Lemma atan_near t : Rabs (atan t - t) <= Rabs t * (t * t) / 3.
Proof.
  unfold Rabs at 2. destruct (Rcase_abs t) as [H|H].
  - pose proof (atan_low_pos (- t) ltac:(lra)) as B. rewrite atan_opp in B. apply Rabs_le. nra.
  - pose proof (atan_low_pos t ltac:(lra)) as B. apply Rabs_le. nra.
Qed.

Lemma exp_minus_1 u : 0 <= u <= 1 / 2 -> exp u - 1 <= 2 * u.
Proof. intros H. pose proof (exp_ineq1_le (- u)) as B. rewrite exp_Ropp in B. pose proof (exp_pos u) as P. assert (1 = exp u * / exp u) by (field; lra). assert (exp u * (1 - u) <= 1) by (rewrite H0 at 2; apply Rmult_le_compat_l; lra). assert (exp u * (1 / 2) <= 1) by nra. nra. Qed.
Lemma polar_near r f a b : 1 <= r -> Rabs (f a) <= 1 -> Rabs (f a - f b) <= Rabs (a - b) -> Rabs (r * f a - f b) <= (r - 1) + Rabs (a - b).
Proof. intros R1 F L. replace (r * f a - f b) with ((r - 1) * f a + (f a - f b)) by ring. apply Rle_trans with (1 := Rabs_triang _ _). apply Rplus_le_compat; [|exact L]. rewrite Rabs_mult, (Rabs_right (r - 1)) by lra. pose proof (Rabs_pos (f a)). nra. Qed.
Lemma modulus_power c x : let n := 2 ^ trig_iterations c in (1 <= trig_iterations c)%nat -> 1 <= modulus n x ^ (2 ^ trig_iterations c) <= exp (x * x / (2 * n)).
Proof.
  cbv zeta. intros H. set (n := 2 ^ trig_iterations c). pose proof (two_pow_pos (trig_iterations c)) as P. fold n in P. split; [apply pow_R1_Rle, modulus_ge|].
  destruct (trig_iterations c) as [|k] eqn:K; [exfalso; clear - H; lia|]. change (2 ^ S k)%nat with (2 * 2 ^ k)%nat. rewrite pow_mult. cbn [pow]. rewrite Rmult_1_r, modulus_sq. replace (x * x / (2 * n)) with (2 ^ k * (x / n * (x / n))) by (unfold n; cbn [pow]; field; apply Rgt_not_eq, two_pow_pos). apply power_exp; [nra|apply two_pow_INR].
Qed.
Lemma angle_near c x : let n := 2 ^ trig_iterations c in Rabs (n * angle n x - x) <= Rabs x * (x * x) / (3 * (n * n)).
Proof.
  cbv zeta. set (n := 2 ^ trig_iterations c). pose proof (two_pow_pos (trig_iterations c)) as P. fold n in P. unfold angle. replace (n * atan (x / n) - x) with (n * (atan (x / n) - x / n)) by (field; lra). rewrite Rabs_mult, (Rabs_right n) by lra.
  apply Rle_trans with (1 := Rmult_le_compat_l n _ _ (Rlt_le _ _ P) (atan_near (x / n))). right. unfold Rdiv at 2. rewrite Rabs_mult, (Rabs_right (/ n)) by (apply Rle_ge; left; now apply Rinv_0_lt_compat). field. lra.
Qed.
(** C73: the distance from cos and sin is at most exp(x^2/(2N)) - 1 + |x|^3/(3N^2). *)
Lemma k_C73_error c x : (1 <= trig_iterations c)%nat -> let n := 2 ^ trig_iterations c in let bound := exp (x * x / (2 * n)) - 1 + Rabs x * (x * x) / (3 * (n * n)) in
  Rabs (mpc_cos c x - cos x) <= bound /\ Rabs (mpc_sin c x - sin x) <= bound.
Proof.
  intros H. cbv zeta. destruct (k_C73_polar c x H) as [C S]. set (n := 2 ^ trig_iterations c) in *. fold (modulus n x) in C, S. fold (angle n x) in C, S. pose proof (modulus_power c x H) as M. pose proof (angle_near c x) as A. cbv zeta in M, A. fold n in M, A. rewrite C, S. split.
  - assert (F : Rabs (cos (n * angle n x)) <= 1) by (apply Rabs_le; pose proof (COS_bound (n * angle n x)); lra). apply Rle_trans with (1 := polar_near _ cos _ x (proj1 M) F (cos_lip _ _)). lra.
  - assert (F : Rabs (sin (n * angle n x)) <= 1) by (apply Rabs_le; pose proof (SIN_bound (n * angle n x)); lra). apply Rle_trans with (1 := polar_near _ sin _ x (proj1 M) F (sin_lip _ _)). lra.
Qed.
(** C73: for x^2 <= N it is at most x^2/N + |x|^3/(3N^2); in the default configuration N = 1024. *)
Lemma k_C73_near c x : (1 <= trig_iterations c)%nat -> let n := 2 ^ trig_iterations c in x * x <= n ->
  Rabs (mpc_cos c x - cos x) <= x * x / n + Rabs x * (x * x) / (3 * (n * n)) /\ Rabs (mpc_sin c x - sin x) <= x * x / n + Rabs x * (x * x) / (3 * (n * n)).
Proof.
  intros H. cbv zeta. pose proof (k_C73_error c x H) as E. cbv zeta in E. set (n := 2 ^ trig_iterations c) in *. intros B. pose proof (two_pow_pos (trig_iterations c)) as P. fold n in P.
  assert (V : x * x / n = 2 * (x * x / (2 * n))) by (field; lra). assert (U : 0 <= x * x / (2 * n) <= 1 / 2). { split; [apply Rmult_le_pos; [nra|left; apply Rinv_0_lt_compat; lra]|]. apply (Rmult_le_reg_r (2 * n)); [lra|]. unfold Rdiv at 1. rewrite Rmult_assoc, Rinv_l by lra. lra. }
  pose proof (exp_minus_1 _ U). rewrite V. split; lra.
Qed.
Definition with_trig_iterations (k : nat) (c : config) : config :=
  mkConfig (exp_iterations c) (reciprocal_method c) (reciprocal_nr_iters c) (reciprocal_log_iters c) (reciprocal_all_pos c) (reciprocal_initial c) (sqrt_nr_iters c) (sqrt_nr_initial c) (sigmoid_tanh_method c) (sigmoid_tanh_terms c) (log_iterations c) (log_exp_iterations c) (log_order c) k (erf_iterations c).
Lemma inv_two_pow_cv : Un_cv (fun k => / 2 ^ k) 0.
Proof. apply (cv_ext' (fun k => 1 / 2 ^ k)); [intros k; unfold Rdiv; now rewrite Rmult_1_l|]. apply cv_pow_half. Qed.
(** C73: as the number of iterations grows the results tend to cos x and sin x. *)
Lemma k_C73_limit c x : Un_cv (fun k => mpc_cos (with_trig_iterations k c) x) (cos x) /\ Un_cv (fun k => mpc_sin (with_trig_iterations k c) x) (sin x).
Proof.
  assert (B : forall e, 0 < e -> exists k0, forall k, (k0 <= k)%nat -> Rabs (mpc_cos (with_trig_iterations k c) x - cos x) < e /\ Rabs (mpc_sin (with_trig_iterations k c) x - sin x) < e).
  { intros e He. set (m := x * x + Rabs x * (x * x) + 1). pose proof (Rabs_pos x) as A. assert (X : 0 <= x * x) by nra. assert (X3 : 0 <= Rabs x * (x * x)) by now apply Rmult_le_pos. assert (M : 1 <= m) by (unfold m; lra).
    destruct (inv_two_pow_cv (Rmin (/ m) (e / m))) as (k0 & K). { apply Rmin_glb_lt; [apply Rinv_0_lt_compat; lra|apply Rmult_lt_0_compat; [lra|apply Rinv_0_lt_compat; lra]]. }
    exists (S k0). intros k Hk. specialize (K k ltac:(lia)). unfold R_dist in K. rewrite Rminus_0_r, Rabs_right in K by (apply Rle_ge; left; apply Rinv_0_lt_compat, two_pow_pos). pose proof (two_pow_ge k) as P.
    pose proof (Rlt_le_trans _ _ _ K (Rmin_l _ _)) as K1. pose proof (Rlt_le_trans _ _ _ K (Rmin_r _ _)) as K2. clear K.
    assert (N : m < 2 ^ k). { apply (Rmult_lt_reg_r (/ m * / 2 ^ k)); [apply Rmult_lt_0_compat; apply Rinv_0_lt_compat; lra|]. replace (m * (/ m * / 2 ^ k)) with (/ 2 ^ k) by (field; lra). replace (2 ^ k * (/ m * / 2 ^ k)) with (/ m) by (field; lra). exact K1. }
    destruct (k_C73_near (with_trig_iterations k c) x) as [C S]; [cbn; lia|cbn [with_trig_iterations trig_iterations]; unfold m in N; lra|]. cbn [with_trig_iterations trig_iterations] in C, S.
    assert (W : x * x / 2 ^ k + Rabs x * (x * x) / (3 * (2 ^ k * 2 ^ k)) < e). { apply Rle_lt_trans with (m * / 2 ^ k).
      - assert (I3 : / (3 * (2 ^ k * 2 ^ k)) <= / 2 ^ k) by (apply Rinv_le_contravar; nra). assert (I0 : 0 < / 2 ^ k) by (apply Rinv_0_lt_compat; lra). unfold Rdiv, m. assert (Rabs x * (x * x) * / (3 * (2 ^ k * 2 ^ k)) <= Rabs x * (x * x) * / 2 ^ k) by (apply Rmult_le_compat_l; assumption). lra.
      - apply (Rmult_lt_reg_l (/ m)); [apply Rinv_0_lt_compat; lra|]. replace (/ m * (m * / 2 ^ k)) with (/ 2 ^ k) by (field; lra). rewrite Rmult_comm. exact K2. }
    split; [apply Rle_lt_trans with (1 := C)|apply Rle_lt_trans with (1 := S)]; exact W. }
  split; intros e He; destruct (B e He) as (k0 & K); exists k0; intros k Hk; apply K; lia.
Qed.
(** C73 refuted far from 0: the results are not bounded by 1; from |x| = 100 on one of them exceeds 2 in the default configuration. *)
Lemma k_C73_large_refuted x : 100 <= Rabs x -> 2 < Rabs (mpc_cos default x) \/ 2 < Rabs (mpc_sin default x).
Proof.
  intros H. destruct (k_C73_modulus default x ltac:(cbn; lia)) as [_ [L _]]. cbn [default trig_iterations] in L. assert (X : 10000 <= x * x) by (replace (x * x) with (Rabs x * Rabs x) by (rewrite <- Rabs_mult; apply Rabs_right; nra); nra). replace (2 ^ 10) with 1024 in L by (cbn; ring).
  destruct (Rlt_dec 2 (Rabs (mpc_cos default x))) as [C|C]; [now left|right]. apply Rnot_le_lt. intros S. apply Rnot_lt_le in C. set (a := mpc_cos default x) in *. set (b := mpc_sin default x) in *.
  assert (forall v, Rabs v <= 2 -> v * v <= 4) by (intros v V; replace (v * v) with (Rabs v * Rabs v) by (rewrite <- Rabs_mult; apply Rabs_right; nra); pose proof (Rabs_pos v); nra). pose proof (H0 a C). pose proof (H0 b S). lra.
Qed.
(** C73 refuted for trig_iterations = 0: one squaring is done all the same, so cos(x) is 1 - x^2 and sin(x) is 2x, where (1 + ix)^1 has 1 and x. *)
Lemma k_C73_zero_refuted c x : trig_iterations c = 0%nat -> mpc_cos c x = 1 - x * x /\ mpc_sin c x = 2 * x.
Proof. intros E. unfold mpc_cos, mpc_sin, eix. rewrite E. cbn [Nat.iter nat_rect Nat.sub fst snd pow]. split; field. Qed.

(** *** C75: sigmoid and tanh by the reciprocal *)
Definition exact_sigmoid (x : R) : R := / (1 + exp (- x)).
Lemma nr3_bound d : 1 <= d <= 2 -> 0 <= (1 - d * (75 / 100)) ^ (2 ^ 3) <= 1 / 256.
Proof.
  intros D. set (e := 1 - d * (75 / 100)). assert (E : - (1 / 2) <= e <= 1 / 4) by (unfold e; lra). replace (e ^ 2 ^ 3) with ((e * e) ^ 4) by (cbn; ring). assert (S : 0 <= e * e <= 1 / 4) by nra. split; [apply pow_le; lra|]. apply Rle_trans with ((1 / 4) ^ 4); [apply pow_incr; exact S|cbn; lra].
Qed.
Lemma sigmoid_value c x : reciprocal_method c = NR -> sigmoid_tanh_method c = Reciprocal ->
  let r := Nat.iter 3 (nr_step (mpc_exp c (- Rabs x) + 1)) (75 / 100) in mpc_sigmoid c x = inr (if Rlt_dec x 0 then 1 - r else r).
Proof.
  intros M T. unfold mpc_sigmoid. rewrite T. unfold sigmoid_reciprocal, mpc_reciprocal, reciprocal_signed. cbn [with_reciprocal reciprocal_all_pos]. unfold reciprocal_positive. cbn [with_reciprocal with_exp_iterations reciprocal_method]. rewrite M. cbn [after bind reciprocal_nr_iters]. unfold nr_initial. cbn [reciprocal_initial].
  replace (- (x * (1 - 2 * ltz x))) with (- Rabs x); [reflexivity|]. unfold ltz, Rabs. destruct (Rlt_dec x 0), (Rcase_abs x); lra.
Qed.
Lemma square_le_exp a : 0 <= a -> a * a <= exp a.
Proof.
  intros A. pose proof (exp_ineq1_le (a / 2 - 1)) as I. pose proof (exp_ineq1_le 1) as J. assert (H : a <= exp (a / 2)). { replace (a / 2) with ((a / 2 - 1) + 1) by ring. rewrite exp_plus. nra. } replace a with (a / 2 + a / 2) at 3 by field. rewrite exp_plus. apply Rmult_le_compat; lra.
Qed.
Lemma exp_minus_near c a : (1 <= exp_iterations c)%nat -> 0 <= a <= 2 ^ exp_iterations c -> 0 <= exp (- a) - mpc_exp c (- a) <= / 2 ^ exp_iterations c.
Proof.
  intros H A. pose proof (two_pow_pos (exp_iterations c)) as N. pose proof (approx_ge_exp (exp_iterations c) (- a) H) as L. pose proof (approx_le_exp (exp_iterations c) (- a) ltac:(lra)) as U. unfold mpc_exp. set (n := 2 ^ exp_iterations c) in *. set (E := exp_approx _ _) in *.
  split; [lra|]. assert (B : exp (- a) * (a * a) <= 1). { rewrite exp_Ropp. pose proof (exp_pos a). apply (Rmult_le_reg_l (exp a)); [lra|]. rewrite <- Rmult_assoc, Rinv_r by lra. pose proof (square_le_exp a ltac:(lra)). lra. }
  replace (- a * - a / n) with (a * a * / n) in L by (field; lra). assert (exp (- a) * (a * a) * / n <= 1 * / n) by (apply Rmult_le_compat_r; [left; now apply Rinv_0_lt_compat|exact B]). lra.
Qed.
Lemma inv_near d d' : 1 <= d -> 1 <= d' -> Rabs (/ d - / d') <= Rabs (d' - d).
Proof.
  intros D D'. replace (/ d - / d') with ((d' - d) * (/ d * / d')) by (field; lra). rewrite Rabs_mult. assert (I : forall v, 1 <= v -> 0 < / v <= 1) by (intros v V; split; [apply Rinv_0_lt_compat; lra|rewrite <- Rinv_1; apply Rinv_le_contravar; lra]). pose proof (I d D). pose proof (I d' D'). rewrite (Rabs_right (/ d * / d')) by nra. assert (/ d * / d' <= 1) by nra. pose proof (Rabs_pos (d' - d)). nra.
Qed.
Lemma sigmoid_sym x : exact_sigmoid x = 1 - exact_sigmoid (- x).
Proof. unfold exact_sigmoid. rewrite Ropp_involutive, exp_Ropp. pose proof (exp_pos x). field. split; lra. Qed.
(** C75: by the reciprocal, for |x| <= N = 2^exp_iterations, sigmoid is between 0 and 1 and within 1/256 + 1/N of the exact one. *)
Lemma k_C75_sigmoid c x : reciprocal_method c = NR -> sigmoid_tanh_method c = Reciprocal -> (1 <= exp_iterations c)%nat -> Rabs x <= 2 ^ exp_iterations c ->
  exists s, mpc_sigmoid c x = inr s /\ 0 <= s <= 1 /\ Rabs (s - / (1 + exp (- x))) <= 1 / 256 + / 2 ^ exp_iterations c.
Proof.
  intros M T H X. pose proof (sigmoid_value c x M T) as V. cbv zeta in V. fold (exact_sigmoid x). pose proof (Rabs_pos x) as A. set (a := Rabs x) in *. set (d := mpc_exp c (- a) + 1) in *. set (r := Nat.iter 3 (nr_step d) (75 / 100)) in *. pose proof (two_pow_pos (exp_iterations c)) as N.
  pose proof (exp_unit c (- a) H ltac:(lra)) as U. assert (D : 1 <= d <= 2) by (unfold d; lra). pose proof (nr_error 3 d (75 / 100)) as E. fold r in E. pose proof (nr3_bound d D) as B. rewrite <- E in B.
  assert (R0 : 0 <= r <= 1) by nra. assert (G : Rabs (r - exact_sigmoid a) <= 1 / 256 + / 2 ^ exp_iterations c).
  { pose proof (exp_minus_near c a H ltac:(lra)) as P. pose proof (exp_pos (- a)) as EP. replace (r - exact_sigmoid a) with ((r - / d) + (/ d - exact_sigmoid a)) by ring. apply Rle_trans with (1 := Rabs_triang _ _). apply Rplus_le_compat.
    - replace (r - / d) with (- ((1 - d * r) * / d)) by (field; lra). rewrite Rabs_Ropp, Rabs_mult. assert (I : 0 < / d <= 1) by (split; [apply Rinv_0_lt_compat; lra|rewrite <- Rinv_1; apply Rinv_le_contravar; lra]). rewrite !Rabs_right by lra. nra.
    - unfold exact_sigmoid. apply Rle_trans with (1 := inv_near d (1 + exp (- a)) ltac:(lra) ltac:(lra)). unfold d. apply Rabs_le. lra. }
  rewrite V. destruct (Rlt_dec x 0) as [S|S]; (eexists; split; [reflexivity|split; [lra|]]).
  - rewrite sigmoid_sym. replace (1 - r - (1 - exact_sigmoid (- x))) with (- (r - exact_sigmoid (- x))) by ring. rewrite Rabs_Ropp. replace (- x) with a by (unfold a; rewrite Rabs_left; lra). exact G.
  - replace x with a by (unfold a; rewrite Rabs_right; lra). exact G.
Qed.
Lemma tanh_sigmoid x : tanh x = 2 * exact_sigmoid (x * 2) - 1.
Proof.
  unfold tanh, sinh, cosh, exact_sigmoid. replace (- (x * 2)) with (- x + - x) by ring. rewrite exp_plus, exp_Ropp. pose proof (exp_pos x). set (e := exp x) in *. field. repeat split; nra.
Qed.
(** C75: and tanh within twice that for |2x| <= N. *)
Lemma k_C75_tanh c x : reciprocal_method c = NR -> sigmoid_tanh_method c = Reciprocal -> (1 <= exp_iterations c)%nat -> 2 * Rabs x <= 2 ^ exp_iterations c ->
  exists s, mpc_tanh c x = inr s /\ -1 <= s <= 1 /\ Rabs (s - tanh x) <= 1 / 128 + 2 / 2 ^ exp_iterations c.
Proof.
  intros M T H X. destruct (k_C75_sigmoid c (x * 2) M T H) as (s & V & B & E); [rewrite Rabs_mult, (Rabs_right 2) by lra; lra|]. unfold mpc_tanh. rewrite T, V. exists (s * 2 - 1). split; [reflexivity|]. split; [lra|]. rewrite tanh_sigmoid. fold (exact_sigmoid (x * 2)) in E. replace (s * 2 - 1 - (2 * exact_sigmoid (x * 2) - 1)) with (2 * (s - exact_sigmoid (x * 2))) by ring. rewrite Rabs_mult, (Rabs_right 2) by lra. unfold Rdiv at 2. lra.
Qed.
(** C75 refuted at 0: sigmoid(0) is 255/512 and tanh(0) is -1/256, for any number of iterations of exp; so sigmoid(-x) + sigmoid(x) = 1 and tanh(-x) = - tanh(x) fail there (and hold elsewhere). *)
Lemma k_C75_zero_refuted c : reciprocal_method c = NR -> sigmoid_tanh_method c = Reciprocal -> mpc_sigmoid c 0 = inr (255 / 512) /\ mpc_tanh c 0 = inr (- (1 / 256)).
Proof.
  intros M T. assert (S : mpc_sigmoid c 0 = inr (255 / 512)). { rewrite (sigmoid_value c 0 M T). destruct (Rlt_dec 0 0); [lra|]. f_equal. rewrite Rabs_R0, Ropp_0. replace (mpc_exp c 0) with 1 by (unfold mpc_exp; rewrite exp_approx_power; unfold Rdiv; rewrite Rmult_0_l, Rplus_0_r, pow1; reflexivity). cbn [Nat.iter nat_rect]. unfold nr_step. field. }
  split; [exact S|]. unfold mpc_tanh. rewrite T, Rmult_0_l, S. cbn [after bind]. f_equal. field.
Qed.
(** C75: away from 0 the two symmetries are exact. *)
Lemma k_C75_symmetric c x : reciprocal_method c = NR -> sigmoid_tanh_method c = Reciprocal -> x <> 0 ->
  (exists s, mpc_sigmoid c x = inr s /\ mpc_sigmoid c (- x) = inr (1 - s)) /\ (exists t, mpc_tanh c x = inr t /\ mpc_tanh c (- x) = inr (- t)).
Proof.
  intros M T X. assert (G : forall v, v <> 0 -> exists s, mpc_sigmoid c v = inr s /\ mpc_sigmoid c (- v) = inr (1 - s)).
  { intros v V. rewrite !(sigmoid_value c _ M T), Rabs_Ropp. set (r := Nat.iter _ _ _). destruct (Rlt_dec v 0), (Rlt_dec (- v) 0); try lra; eexists; (split; [reflexivity|f_equal; ring]). }
  split; [now apply G|]. unfold mpc_tanh. rewrite T. destruct (G (x * 2) ltac:(lra)) as (s & A & B). rewrite A. replace (- x * 2) with (- (x * 2)) by ring. rewrite B. eexists. split; [reflexivity|]. cbn [after bind]. f_equal. ring.
Qed.
(** C75 refuted far from 0: at |x| = 2N the result is again that at 0, and tanh(N) is -1/256. *)
Lemma k_C75_far_refuted c : reciprocal_method c = NR -> sigmoid_tanh_method c = Reciprocal -> (1 <= exp_iterations c)%nat -> mpc_sigmoid c (2 * 2 ^ exp_iterations c) = inr (255 / 512) /\ mpc_tanh c (2 ^ exp_iterations c) = inr (- (1 / 256)).
Proof.
  intros M T H. pose proof (two_pow_pos (exp_iterations c)) as N. assert (S : mpc_sigmoid c (2 * 2 ^ exp_iterations c) = inr (255 / 512)).
  { rewrite (sigmoid_value c _ M T). destruct (Rlt_dec _ 0); [lra|]. f_equal. rewrite Rabs_right by lra. replace (mpc_exp c (- (2 * 2 ^ exp_iterations c))) with 1; [cbn [Nat.iter nat_rect]; unfold nr_step; field|]. unfold mpc_exp. rewrite exp_approx_power, pow_even_abs by exact H. replace (1 + - (2 * 2 ^ exp_iterations c) / 2 ^ exp_iterations c) with (- (1)) by (field; lra). rewrite Rabs_Ropp, Rabs_R1, pow1. reflexivity. }
  split; [exact S|]. unfold mpc_tanh. rewrite T, (Rmult_comm _ 2), S. cbn [after bind]. f_equal. field.
Qed.

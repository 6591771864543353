(** C77 and C78: the error function, softmax and log_softmax. *)
Require Import List Reals ZArith Lia Lra Arith Bool Psatz.
From Verif Require Import Ring64 Tensor Rtensor Rtensor_proofs Realgrad Realgrad_claims Approx Approx_claims Approxfn_claims Approxlog_claims.
Import ListNotations.
Open Scope R_scope.

(** *** C77: the error function *)
(** the Taylor polynomial x - x^3/3 + x^5/10 - ..., with [k] terms after the first *)
Definition taylor (k : nat) (x : R) : R := 2 / sqrt PI * rsumn (S k) (fun n => (-1) ^ n * x ^ (2 * n + 1) / (INR (fact n) * (2 * INR n + 1))).
Definition with_erf_iterations (k : nat) (c : config) : config :=
  mkConfig (exp_iterations c) (reciprocal_method c) (reciprocal_nr_iters c) (reciprocal_log_iters c) (reciprocal_all_pos c) (reciprocal_initial c) (sqrt_nr_iters c) (sqrt_nr_initial c) (sigmoid_tanh_method c) (sigmoid_tanh_terms c) (log_iterations c) (log_exp_iterations c) (log_order c) (trig_iterations c) k.
(** C77: with at most one iteration the result is the Taylor polynomial of degree 1 or 3. *)
Lemma k_C77_short c x : (erf_iterations c <= 1)%nat -> mpc_erf c x = taylor (erf_iterations c) x.
Proof.
  intros H. assert (P : sqrt PI <> 0) by (apply Rgt_not_eq, sqrt_lt_R0, PI_RGT_0). unfold mpc_erf, taylor. destruct (erf_iterations c) as [|[|]]; [| |lia]; unfold rsumn, rsum; cbn [seq fold_left map fold_right fact Nat.mul Nat.add pow INR]; rewrite ?powi_effective.
  - field. exact P.
  - change (powerRZ x (effectiveZ (2 * Z.of_nat 1 + 1))) with (x ^ 3). field. exact P.
Qed.
(** C77 refuted from two iterations on: the result at two iterations has x^6 where the Taylor polynomial has x^5, and differs from it at every x but 0 and 1. *)
Lemma k_C77_two_refuted c x : erf_iterations c = 2%nat -> mpc_erf c x - taylor 2 x = 2 / sqrt PI * (x ^ 6 - x ^ 5) / 10 /\ (x <> 0 -> x <> 1 -> mpc_erf c x <> taylor 2 x).
Proof.
  intros H. assert (P : 0 < sqrt PI) by apply sqrt_lt_R0, PI_RGT_0. assert (E : mpc_erf c x - taylor 2 x = 2 / sqrt PI * (x ^ 6 - x ^ 5) / 10).
  { unfold mpc_erf, taylor. rewrite H. unfold rsumn, rsum. cbn [seq fold_left map fold_right fact Nat.mul Nat.add pow INR]. rewrite !powi_effective. change (powerRZ x (effectiveZ (2 * Z.of_nat 1 + 1))) with (x ^ 3). change (powerRZ x (effectiveZ (2 * Z.of_nat 2 + 1))) with (x ^ 6). field. lra. }
  split; [exact E|]. intros X0 X1 Q. rewrite Q, Rminus_diag_eq in E by reflexivity. assert (N : x ^ 6 - x ^ 5 <> 0). { replace (x ^ 6 - x ^ 5) with (x ^ 5 * (x - 1)) by ring. apply Rmult_integral_contrapositive_currified; [now apply pow_nonzero|lra]. }
  assert (2 / sqrt PI * (x ^ 6 - x ^ 5) / 10 <> 0); [|now rewrite <- E in *]. unfold Rdiv. repeat apply Rmult_integral_contrapositive_currified; try lra; try exact N. apply Rinv_neq_0_compat. lra.
Qed.
(** C77 refuted in the default configuration: the result is not odd; erf(x) + erf(-x) is positive for 0 < |x| <= 1. *)
Lemma k_C77_odd_refuted x : x <> 0 -> Rabs x <= 1 -> 0 < mpc_erf default x + mpc_erf default (- x).
Proof.
  intros X B. assert (P : 0 < sqrt PI) by apply sqrt_lt_R0, PI_RGT_0. assert (E : mpc_erf default x + mpc_erf default (- x) = 4 / sqrt PI * (x ^ 6 / 10 + x ^ 12 / 216 - x ^ 18 / 1320 + x ^ 18 / 9360 + x ^ 24 / 685440)).
  { unfold mpc_erf. cbn [default erf_iterations seq fold_left]. rewrite !powi_effective.
    change (powerRZ x (effectiveZ (2 * Z.of_nat 1 + 1))) with (x ^ 3). change (powerRZ (- x) (effectiveZ (2 * Z.of_nat 1 + 1))) with ((- x) ^ 3). change (powerRZ x (effectiveZ (2 * Z.of_nat 2 + 1))) with (x ^ 6). change (powerRZ (- x) (effectiveZ (2 * Z.of_nat 2 + 1))) with ((- x) ^ 6). change (powerRZ x (effectiveZ (2 * Z.of_nat 3 + 1))) with (x ^ 9). change (powerRZ (- x) (effectiveZ (2 * Z.of_nat 3 + 1))) with ((- x) ^ 9). change (powerRZ x (effectiveZ (2 * Z.of_nat 4 + 1))) with (x ^ 12). change (powerRZ (- x) (effectiveZ (2 * Z.of_nat 4 + 1))) with ((- x) ^ 12). change (powerRZ x (effectiveZ (2 * Z.of_nat 5 + 1))) with (x ^ 18). change (powerRZ (- x) (effectiveZ (2 * Z.of_nat 5 + 1))) with ((- x) ^ 18). change (powerRZ x (effectiveZ (2 * Z.of_nat 6 + 1))) with (x ^ 18). change (powerRZ (- x) (effectiveZ (2 * Z.of_nat 6 + 1))) with ((- x) ^ 18). change (powerRZ x (effectiveZ (2 * Z.of_nat 7 + 1))) with (x ^ 27). change (powerRZ (- x) (effectiveZ (2 * Z.of_nat 7 + 1))) with ((- x) ^ 27). change (powerRZ x (effectiveZ (2 * Z.of_nat 8 + 1))) with (x ^ 24). change (powerRZ (- x) (effectiveZ (2 * Z.of_nat 8 + 1))) with ((- x) ^ 24).
    assert (F : INR (fact 5) = 120 /\ INR (fact 6) = 720 /\ INR (fact 7) = 5040 /\ INR (fact 8) = 40320) by (repeat split; rewrite INR_IZR_INZ; reflexivity). destruct F as (F5 & F6 & F7 & F8). rewrite F5, F6, F7, F8. cbn [fact INR Nat.mul Nat.add]. field. lra. }
  rewrite E. apply Rmult_lt_0_compat; [apply Rmult_lt_0_compat; [lra|now apply Rinv_0_lt_compat]|]. assert (S : 0 < x * x <= 1). { split; [nra|]. replace (x * x) with (Rabs x * Rabs x) by (rewrite <- Rabs_mult; apply Rabs_right; nra). pose proof (Rabs_pos x). nra. }
  set (s := x * x) in *. replace (x ^ 6) with (s ^ 3) by (unfold s; ring). replace (x ^ 12) with (s ^ 3 * s ^ 3) by (unfold s; ring). replace (x ^ 18) with (s ^ 3 * s ^ 3 * s ^ 3) by (unfold s; ring). replace (x ^ 24) with (s ^ 3 * s ^ 3 * (s ^ 3 * s ^ 3)) by (unfold s; ring). assert (U : 0 < s ^ 3 <= 1). { split; [apply pow_lt; lra|]. rewrite <- (pow1 3). apply pow_incr. lra. }
  set (u := s ^ 3) in *. assert (0 < u * u <= u) by nra. assert (0 < u * u * u <= u) by nra. assert (0 < u * u * (u * u)) by nra. lra.
Qed.

(** *** C78: softmax *)
Lemma maximum_spec xs : forall x, In (maximum x xs) (x :: xs) /\ forall v, In v (x :: xs) -> v <= maximum x xs.
Proof.
  induction xs as [|y ys IH]; intros x; [split; [now left|]; intros v [<-|[]]; cbn; lra|]. cbn [maximum]. destruct (IH (Rmax x y)) as [I B]. split.
  - destruct I as [I|I]; [|right; now right]. rewrite <- I. unfold Rmax. destruct (Rle_dec x y); [right; now left|now left].
  - intros v [<-|[<-|V]]; [|  |apply B; now right]; (apply Rle_trans with (Rmax x y); [apply Rmax_l || apply Rmax_r|apply B; now left]).
Qed.
Lemma total_scale k xs : total (map (fun v => v * k) xs) = total xs * k. Proof. unfold total. induction xs as [|x xs IH]; [cbn; ring|]. cbn [map fold_right]. rewrite IH. ring. Qed.
Lemma total_bounds l a b : (forall v, In v l -> a <= v <= b) -> INR (length l) * a <= total l <= INR (length l) * b.
Proof. induction l as [|v l IH]; intros H; [cbn; lra|]. cbn [total fold_right]. change (length (v :: l)) with (S (length l)). rewrite S_INR. pose proof (H v (or_introl eq_refl)). destruct (IH (fun w W => H w (or_intror W))) as [A B]. unfold total in A, B. split; lra. Qed.
Lemma total_nonneg l : (forall w, In w l -> 0 <= w) -> 0 <= total l.
Proof. induction l as [|u l IH]; intros H; [cbn; lra|]. cbn [total fold_right]. pose proof (IH (fun w W => H w (or_intror W))) as I. pose proof (H u (or_introl eq_refl)). unfold total in I. lra. Qed.
Lemma total_ge l v : In v l -> (forall w, In w l -> 0 <= w) -> v <= total l.
Proof.
  induction l as [|w l IH]; intros I H; [destruct I|]. cbn [total fold_right]. fold (total l). pose proof (H w (or_introl eq_refl)) as W. assert (N : 0 <= total l) by (apply total_nonneg; intros u U; apply H; now right). destruct I as [->|I]; [lra|]. pose proof (IH I (fun u U => H u (or_intror U))). lra.
Qed.
Lemma total_near (f g : R -> R) xs e : (forall v, In v xs -> 0 <= g v - f v <= e) -> 0 <= total (map g xs) - total (map f xs) <= INR (length xs) * e.
Proof. induction xs as [|v xs IH]; intros H; [cbn; lra|]. cbn [map total fold_right]. change (length (v :: xs)) with (S (length xs)). rewrite S_INR. pose proof (H v (or_introl eq_refl)). pose proof (IH (fun w W => H w (or_intror W))) as I. unfold total in I. lra. Qed.
Lemma two_entries (A : Type) (xs : list A) : (2 <= length xs)%nat -> exists x y r, xs = x :: y :: r. Proof. destruct xs as [|x [|y r]]; cbn; intros H; try lia. now exists x, y, r. Qed.
(** the largest entry, and the distances from it *)
Definition top (xs : list R) : R := match xs with [] => 0 | x :: r => maximum x r end.
Lemma top_spec xs : xs <> [] -> In (top xs) xs /\ forall v, In v xs -> v <= top xs.
Proof. destruct xs as [|x r]; [congruence|]. intros _. apply maximum_spec. Qed.
Lemma softmax_long c xs : (2 <= length xs)%nat -> reciprocal_method c = NR -> let ps := map (fun v => mpc_exp c (v - top xs)) xs in
  exists r, mpc_softmax c xs = inr (map (fun v => v * r) ps) /\ 1 - total ps * r = (1 - total ps * nr_initial c (total ps)) ^ (2 ^ reciprocal_nr_iters c).
Proof.
  intros L M. destruct (two_entries R xs L) as (x & y & q & ->). cbv zeta. set (ps := map _ _). destruct (k_C71_error (with_all_pos c) (total ps) M) as [(r & E & V) _]. exists r. split; [|exact V]. unfold mpc_softmax. cbn [top] in ps. fold ps. change (mpc_reciprocal (with_all_pos c) false (total ps)) with (mpc_reciprocal (with_all_pos c) false (total ps)) in E. rewrite E. reflexivity.
Qed.
(** C78: along a line of at least two entries there are as many results and they never exceed 1 in total, whatever the entries, if there is an iteration. *)
Lemma k_C78_total c xs : (2 <= length xs)%nat -> reciprocal_method c = NR -> (1 <= reciprocal_nr_iters c)%nat -> exists ys, mpc_softmax c xs = inr ys /\ length ys = length xs /\ total ys <= 1.
Proof.
  intros L M K. destruct (softmax_long c xs L M) as (r & E & V). eexists. split; [exact E|]. rewrite !map_length. split; [reflexivity|]. rewrite total_scale. pose proof (pow_even_nonneg (1 - total (map (fun v => mpc_exp c (v - top xs)) xs) * nr_initial c (total (map (fun v => mpc_exp c (v - top xs)) xs))) (reciprocal_nr_iters c) K). lra.
Qed.
Lemma numerators c xs : xs <> [] -> (1 <= exp_iterations c)%nat -> (forall v w, In v xs -> In w xs -> v - w <= 2 * 2 ^ exp_iterations c) ->
  (forall p, In p (map (fun v => mpc_exp c (v - top xs)) xs) -> 0 <= p <= 1) /\ 1 <= total (map (fun v => mpc_exp c (v - top xs)) xs) <= INR (length xs).
Proof.
  intros N K D. destruct (top_spec xs N) as [I B]. assert (U : forall p, In p (map (fun v => mpc_exp c (v - top xs)) xs) -> 0 <= p <= 1). { intros p P. apply in_map_iff in P. destruct P as (v & <- & V). apply exp_unit; [exact K|]. pose proof (B v V). pose proof (D _ _ I V). lra. }
  split; [exact U|]. split.
  - apply total_ge; [|intros w W; now apply U]. replace 1 with (mpc_exp c (top xs - top xs)); [now apply (in_map (fun v => mpc_exp c (v - top xs)))|]. unfold mpc_exp. rewrite exp_approx_power, Rminus_diag_eq by reflexivity. unfold Rdiv. rewrite Rmult_0_l, Rplus_0_r, pow1. reflexivity.
  - pose proof (total_bounds _ 0 1 U) as T. rewrite map_length in T. lra.
Qed.
(** the exact function *)
Definition exact_softmax (xs : list R) (v : R) : R := exp v / total (map exp xs).
Lemma softmax_shift xs v m : exact_softmax xs v = exp (v - m) / total (map (fun w => exp (w - m)) xs).
Proof.
  unfold exact_softmax. assert (E : forall l, total (map (fun w => exp (w - m)) l) = total (map exp l) * exp (- m)). { intros l. rewrite <- total_scale, map_map. f_equal. apply map_ext. intros w. unfold Rminus. apply exp_plus. } rewrite E. unfold Rminus. rewrite exp_plus. pose proof (exp_pos (- m)) as P.
  destruct (Req_dec (total (map exp xs)) 0) as [Z|Z]; [rewrite Z; unfold Rdiv; rewrite Rmult_0_l, Rinv_0; ring|]. field. split; lra.
Qed.
(** C78: a line with a single entry is exact, in every configuration. *)
Lemma k_C78_single c x : mpc_softmax c [x] = inr [exp x / total (map exp [x])] /\ mpc_log_softmax c [x] = [ln (exp x / total (map exp [x]))].
Proof.
  assert (E : exp x / total (map exp [x]) = 1). { cbn [map total fold_right]. rewrite Rplus_0_r. field. apply Rgt_not_eq, exp_pos. } rewrite E, ln_1. split; reflexivity.
Qed.
(** C78: in the default configuration, for 2 to 250 entries that are at most 256 apart, every result is between 0 and 1, their total is between 1 - 1/16384 and 1, and each is within n/256 + 1/16384 of the exact one. *)
Lemma k_C78_softmax xs : (2 <= length xs <= 250)%nat -> (forall v w, In v xs -> In w xs -> v - w <= 256) ->
  exists r, mpc_softmax default xs = inr (map r xs) /\ 1 - 1 / 16384 <= total (map r xs) <= 1 /\
    forall v, In v xs -> 0 <= r v <= 1 /\ Rabs (r v - exp v / total (map exp xs)) <= INR (length xs) / 256 + 1 / 16384.
Proof.
  intros L D. destruct (softmax_long default xs ltac:(lia) eq_refl) as (r & E & V). cbn [default exp_iterations reciprocal_nr_iters] in V. fold default in V. set (p v := mpc_exp default (v - top xs)) in *. set (s := total (map p xs)) in *.
  assert (N : xs <> []) by (intros ->; cbn in L; lia). destruct (numerators default xs N ltac:(cbn; lia)) as [U S]; [intros v w A B; pose proof (D v w A B); cbn [default exp_iterations pow]; lra|]. fold p in U, S. fold s in S. assert (L250 : INR (length xs) <= 250) by (rewrite INR_IZR_INZ; apply IZR_le; lia).
  pose proof (default_estimate s ltac:(lra)) as DE. assert (Q : 0 <= 1 - s * r <= 1 / 16384). { rewrite V. split; [apply pow_even_nonneg; lia|]. rewrite pow_even_abs by lia. apply Rle_trans with (2 := pow_99). apply pow_incr. split; [apply Rabs_pos|]. apply Rabs_le. lra. }
  assert (R0 : 0 < r <= 1) by (split; nra). exists (fun v => p v * r). split; [now rewrite map_map in E|]. rewrite <- (map_map p (fun u => u * r)), total_scale. fold s. split; [lra|]. intros v I. assert (P : 0 <= p v <= 1) by (apply U; now apply in_map). split; [split; [apply Rmult_le_pos; lra|nra]|].
  fold (exact_softmax xs v). rewrite (softmax_shift xs v (top xs)). set (z := total (map (fun w => exp (w - top xs)) xs)). set (e w := exp (w - top xs)). fold (e v).
  assert (A : forall w, In w xs -> 0 <= e w - p w <= / 256). { intros w W. destruct (top_spec xs N) as [I1 B]. pose proof (B w W). pose proof (D _ _ I1 W). pose proof (exp_minus_near default (top xs - w) ltac:(cbn; lia)) as Z. cbn [default exp_iterations] in Z. replace (2 ^ 8) with 256 in Z by (cbn; ring). replace (- (top xs - w)) with (w - top xs) in Z by ring. apply Z. lra. }
  pose proof (total_near p e xs (/ 256) A) as T. fold s in T. change (total (map e xs)) with z in T. pose proof (A v I) as Av. assert (Z1 : 1 <= z) by lra.
  replace (p v * r - e v / z) with (- (p v * / s * (1 - s * r)) + ((p v * (z - s)) * (/ s * / z) - (e v - p v) * / z)) by (field; lra). assert (Is : 0 < / s <= 1) by (split; [apply Rinv_0_lt_compat; lra|rewrite <- Rinv_1; apply Rinv_le_contravar; lra]). assert (Iz : 0 < / z <= 1) by (split; [apply Rinv_0_lt_compat; lra|rewrite <- Rinv_1; apply Rinv_le_contravar; lra]).
  assert (T1 : 0 <= p v * / s * (1 - s * r) <= 1 / 16384) by (split; [apply Rmult_le_pos; [nra|lra]|assert (0 <= p v * / s <= 1) by nra; nra]).
  assert (PZ : 0 <= p v * (z - s) <= INR (length xs) * / 256) by (split; [apply Rmult_le_pos; lra|nra]). assert (Isz : 0 <= / s * / z <= 1) by nra. assert (T2 : 0 <= (p v * (z - s)) * (/ s * / z) <= INR (length xs) * / 256) by (split; [apply Rmult_le_pos; lra|nra]). assert (T3 : 0 <= (e v - p v) * / z <= / 256) by nra. assert (L2 : 2 <= INR (length xs)) by (rewrite INR_IZR_INZ; apply IZR_le; lia).
  replace (INR (length xs) / 256) with (INR (length xs) * / 256) by reflexivity. set (t1 := p v * / s * (1 - s * r)) in *. set (t2 := p v * (z - s) * (/ s * / z)) in *. set (t3 := (e v - p v) * / z) in *. clear - T1 T2 T3 L2. apply Rabs_le. lra.
Qed.
(** C78 refuted for many entries: 257 or more equal entries give a total below -1 in the default configuration (every result is the same negative number). *)
Lemma k_C78_many_refuted v n : (257 <= n)%nat -> exists y, mpc_softmax default (repeat v n) = inr (repeat y n) /\ INR n * y < -1.
Proof.
  intros H. destruct (softmax_long default (repeat v n) ltac:(rewrite repeat_length; lia) eq_refl) as (r & E & V). cbn [default reciprocal_nr_iters] in V. fold default in V.
  assert (T : top (repeat v n) = v). { destruct n as [|n]; [lia|]. apply (repeat_spec (S n) v). apply top_spec. discriminate. } rewrite T in E, V. assert (P : map (fun w => mpc_exp default (w - v)) (repeat v n) = repeat 1 n). { replace 1 with (mpc_exp default (v - v)); [clear; induction n as [|n IH]; [reflexivity|]; cbn [repeat map]; now rewrite IH|]. unfold mpc_exp. rewrite exp_approx_power, Rminus_diag_eq by reflexivity. unfold Rdiv. rewrite Rmult_0_l, Rplus_0_r, pow1. reflexivity. }
  rewrite P in E, V. assert (S : total (repeat 1 n) = INR n). { clear. induction n as [|n IH]; [reflexivity|]. cbn [repeat total fold_right]. fold (total (repeat 1 n)). rewrite IH, S_INR. ring. } rewrite S in V. exists r. split; [rewrite E; f_equal; clear; induction n as [|n IH]; [reflexivity|]; cbn [repeat map]; rewrite IH; f_equal; ring|].
  assert (N : 257 <= INR n) by (rewrite INR_IZR_INZ; apply IZR_le; lia). set (a := INR n) in *. rewrite (nr_initial_none default a eq_refl) in V. destruct (k_C70_far_refuted default (1 - 2 * a)) as [G _]; [cbn [default exp_iterations pow]; lra|cbn; lia|]. set (y0 := 3 * mpc_exp default (1 - 2 * a) + 3 / 1000) in *. assert (Y : 3 <= y0) by (unfold y0; lra). assert (B : 3 <= Rabs (1 - a * y0)) by (rewrite Rabs_left; nra).
  rewrite pow_even_abs in V by lia. assert (3 <= Rabs (1 - a * y0) ^ 2 ^ 10); [|lra]. apply Rle_trans with (Rabs (1 - a * y0) ^ 1); [lra|]. apply Rle_pow; [lra|]. apply Nat.neq_0_lt_0, Nat.pow_nonzero. lia.
Qed.
Lemma ln_near a b : 1 <= a -> a <= b -> 0 <= ln b - ln a <= b - a.
Proof.
  intros A B. assert (E : ln b - ln a = ln (b / a)) by (unfold Rdiv; rewrite ln_mult, ln_Rinv; try lra; apply Rinv_0_lt_compat; lra). assert (P : 1 <= b / a) by (apply (Rmult_le_reg_r a); [lra|]; unfold Rdiv; rewrite Rmult_assoc, Rinv_l; lra). rewrite E. split; [apply ln_sign; exact P|]. apply Rle_trans with (b / a - 1).
  - apply ln_le'; [lra|]. pose proof (exp_ineq1_le (b / a - 1)). lra.
  - apply (Rmult_le_reg_r a); [lra|]. replace ((b / a - 1) * a) with (b - a) by (field; lra). nra.
Qed.
(** C78: in the default configuration, for 2 to 250 entries at most 256 apart, log_softmax is within 2% of ln n plus 0.001 plus n/256 of the exact one. *)
Lemma k_C78_log_softmax xs : (2 <= length xs <= 250)%nat -> (forall v w, In v xs -> In w xs -> v - w <= 256) ->
  exists r, mpc_log_softmax default xs = map r xs /\ forall v, In v xs -> Rabs (r v - ln (exp v / total (map exp xs))) <= 2 / 100 * ln (INR (length xs)) + 1 / 1000 + INR (length xs) / 256.
Proof.
  intros L D. assert (N : xs <> []) by (intros ->; cbn in L; lia). set (p v := mpc_exp default (v - top xs)). set (s := total (map p xs)). exists (fun v => (v - top xs) - mpc_log default false s). split.
  { destruct (two_entries R xs ltac:(lia)) as (x & y & q & ->). unfold mpc_log_softmax. cbv zeta. change (maximum x (y :: q)) with (top (x :: y :: q)). rewrite !map_map. reflexivity. }
  destruct (numerators default xs N ltac:(cbn; lia)) as [U S]; [intros v w A B; pose proof (D v w A B); cbn [default exp_iterations pow]; lra|]. fold p in U, S. fold s in S. assert (L250 : INR (length xs) <= 250) by (rewrite INR_IZR_INZ; apply IZR_le; lia).
  intros v I. fold (exact_softmax xs v). rewrite (softmax_shift xs v (top xs)). set (z := total (map (fun w => exp (w - top xs)) xs)). set (e w := exp (w - top xs)). fold (e v).
  assert (A : forall w, In w xs -> 0 <= e w - p w <= / 256). { intros w W. destruct (top_spec xs N) as [I1 B]. pose proof (B w W). pose proof (D _ _ I1 W). pose proof (exp_minus_near default (top xs - w) ltac:(cbn; lia)) as Z. cbn [default exp_iterations] in Z. replace (2 ^ 8) with 256 in Z by (cbn; ring). replace (- (top xs - w)) with (w - top xs) in Z by ring. apply Z. lra. }
  pose proof (total_near p e xs (/ 256) A) as T. fold s in T. change (total (map e xs)) with z in T. assert (Ln : ln (e v / z) = (v - top xs) - ln z). { unfold Rdiv. rewrite ln_mult, ln_Rinv; [unfold e; rewrite ln_exp; ring|lra|apply exp_pos|apply Rinv_0_lt_compat; lra]. }
  rewrite Ln. replace (v - top xs - mpc_log default false s - (v - top xs - ln z)) with (- (mpc_log default false s - ln s) + (ln z - ln s)) by ring. apply Rle_trans with (1 := Rabs_triang _ _). rewrite Rabs_Ropp. pose proof (k_C74_range s ltac:(lra)) as K. pose proof (ln_near s z ltac:(lra) ltac:(lra)) as Q. rewrite (Rabs_right (ln z - ln s)) by lra. pose proof (proj1 (ln_sign s) (proj1 S)) as Ls. rewrite (Rabs_right (ln s)) in K by lra. pose proof (ln_near s (INR (length xs)) ltac:(lra) ltac:(lra)). unfold Rdiv at 3. lra.
Qed.

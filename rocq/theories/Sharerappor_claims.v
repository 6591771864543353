(** Proofs of C115: the RAPPOR loss and its gradient on shares. *)
Require Import ZArith QArith Qreals List Bool Lia Reals Lra.
From Verif Require Import Rtensor_proofs Realgrad_claims Approx Approx_claims Approxfn_claims Approxlog_claims Approxsoft_claims.
From Verif Require Import Ring64 Encoder Arith Beaver Trunc Provider Binary Compare Compare_claims Maximum Maximum_claims Regular Regular_proofs Regular_claims Shareapprox Shareapprox_proofs Shareapprox_claims Sharesoft Sharesoft_claims Sharepoly_claims Sharelog Sharelog_claims Sharerecip Sharerecip_claims Sharenorm_claims Shareloss Shareloss_claims Sharerappor.
Import ListNotations.
Open Scope R_scope.

(** ** Specification *)
(** the probability of the reported label, as documented *)
Definition report (a x : R) : R := a * exact_sigmoid x + (1 - a) * (1 - exact_sigmoid x).
Definition rappor (a : R) (xs ys : list R) : R := bce_loss (map (report a) xs) ys.
Definition spread (p : R) : R := p * (1 - p).
(** the derivative of one term of the loss at the logit [x] (C67) *)
Definition rappor_slope (a x y : R) : R := (report a x - y) * (2 * a - 1) * (spread (exact_sigmoid x) / spread (report a x)).
(** errors: of the normalised prediction, of [p * (1 - p)], of the reciprocal, and of the correction *)
Definition report_shift (E : Z) (a : R) : R := Rabs (2 * a - 1) * sigmoid_shift E + 2 * unit_error E + 3 / 65536.
Definition spread_shift (E : Z) (d : R) : R := d * (1 + d) + unit_error E.
Definition inverse_error (E : Z) (a x : R) : R :=
  let w := spread (report a x) in let e := spread_shift E (report_shift E a) in (380 * IZR E / 65536 + 1 / 500 + e / w) / (w - e).
Definition correction_error (E : Z) (a x : R) : R :=
  spread_shift E (sigmoid_shift E) * (/ spread (report a x) + inverse_error E a x) + spread (exact_sigmoid x) * inverse_error E a x + unit_error E.
Definition rappor_error (E : Z) (a : R) (xs ys : list R) : R :=
  average (pairwise (fun x y => y * log_shift (report_shift E a) (report a x) + (1 - y) * log_shift (report_shift E a) (1 - report a x) + 2 * unit_error E) xs ys) + unit_error E.
Definition rappor_slope_error (E : Z) (a N x y g : R) : R :=
  let c := spread (exact_sigmoid x) / spread (report a x) in let t := correction_error E a x in
  (((report_shift E a / N + unit_error E) * Rabs (2 * a - 1) + unit_error E + 2 / 65536) * (c + t) + Rabs ((report a x - y) / N * (2 * a - 1)) * t + unit_error E) * Rabs g + unit_error E.
(** logits for which the logarithms that are needed and the reciprocal are in range *)
Definition rappor_fits (E : Z) (a x y : R) : Prop :=
  Rabs x <= 256 /\ (let k := report a x in let d := report_shift E a in shift_fits E d k y /\ shift_fits E d (1 - k) (1 - y)) /\ 1 / 6400 <= spread (report a x) - spread_shift E (report_shift E a).

(** ** Estimates *)
Lemma report_01 a x : 0 <= a <= 1 -> 0 <= report a x <= 1.
Proof. intros A. pose proof (sigmoid_01 x) as S. unfold report. set (q := exact_sigmoid x) in *. clearbody q. assert (0 <= a * q /\ 0 <= (1 - a) * (1 - q) /\ 0 <= a * (1 - q) /\ 0 <= (1 - a) * q) by (repeat split; apply Rmult_le_pos; lra). lra. Qed.
Lemma spread_quarter p : 0 <= p <= 1 -> 0 <= spread p <= 1 / 4.
Proof. intros P. unfold spread. split; [apply Rmult_le_pos; lra|]. pose proof (Rle_0_sqr (p - 1 / 2)) as S. unfold Rsqr in S. lra. Qed.
Lemma spread_near s q d : 0 <= q <= 1 -> Rabs (s - q) <= d -> Rabs (s * (1 - s) - spread q) <= d * (1 + d).
Proof.
  intros Q B. pose proof (Rabs_pos (s - q)). assert (B' : - d <= s - q <= d) by (split; [pose proof (Rle_abs (- (s - q))); rewrite Rabs_Ropp in *; lra|pose proof (Rle_abs (s - q)); lra]). unfold spread. replace (s * (1 - s) - q * (1 - q)) with ((s - q) * (1 - s - q)) by ring.
  rewrite Rabs_mult. apply Rmult_le_compat; try apply Rabs_pos; [exact B|]. apply Rabs_le. lra.
Qed.
Lemma product_near a A da b B db : Rabs (a - A) <= da -> Rabs (b - B) <= db -> Rabs (a * b - A * B) <= da * (Rabs B + db) + Rabs A * db.
Proof.
  intros Ha Hb. replace (a * b - A * B) with ((a - A) * b + A * (b - B)) by ring. eapply Rle_trans; [apply Rabs_triang|]. rewrite !Rabs_mult. assert (Rabs b <= Rabs B + db) by (replace b with (B + (b - B)) by ring; eapply Rle_trans; [apply Rabs_triang|]; lra).
  apply Rplus_le_compat; apply Rmult_le_compat; try apply Rabs_pos; lra.
Qed.
Lemma inverse_near v w e r rho : 0 < w - e -> 0 <= e -> Rabs (v - w) <= e -> 0 <= rho -> Rabs (r - / v) <= rho / v -> Rabs (r - / w) <= (rho + e / w) / (w - e).
Proof.
  intros P E0 B R0 H. assert (B' : - e <= v - w <= e) by (split; [pose proof (Rle_abs (- (v - w))); rewrite Rabs_Ropp in *; lra|pose proof (Rle_abs (v - w)); lra]). assert (V : w - e <= v) by lra. assert (W : 0 < w) by lra. assert (V0 : 0 < v) by lra.
  assert (I : / v <= / (w - e)) by (apply Rinv_le_contravar; lra). assert (I0 : 0 < / v) by (now apply Rinv_0_lt_compat). assert (J0 : 0 < / w) by (now apply Rinv_0_lt_compat).
  replace (r - / w) with ((r - / v) + (w - v) * / w * / v) by (field; lra). eapply Rle_trans; [apply Rabs_triang|]. rewrite !Rabs_mult, (Rabs_right (/ w)), (Rabs_right (/ v)) by lra. rewrite (Rabs_minus_sym w v). unfold Rdiv in *.
  assert (A1 : rho * / v <= rho * / (w - e)) by (apply Rmult_le_compat_l; lra). assert (A2 : Rabs (v - w) * / w <= e * / w) by (apply Rmult_le_compat_r; lra). assert (A3 : 0 <= Rabs (v - w) * / w) by (apply Rmult_le_pos; [apply Rabs_pos|lra]).
  assert (A4 : Rabs (v - w) * / w * / v <= e * / w * / (w - e)) by (apply Rmult_le_compat; lra). lra.
Qed.

(** C115: the slope used here is the derivative of the documented loss of one element. *)
Lemma k_C115_slope a x y : 0 < report a x < 1 -> derivable_pt_lim (fun t => - likelihood (report a t) y) x (rappor_slope a x y).
Proof.
  intros H. assert (DS : derivable_pt_lim exact_sigmoid x (spread (exact_sigmoid x))) by exact (d_sigmoid x).
  assert (DR : derivable_pt_lim (report a) x ((2 * a - 1) * spread (exact_sigmoid x))).
  { eapply d_val; [|apply (d_plus (fun t => a * exact_sigmoid t) (fun t => (1 - a) * (1 - exact_sigmoid t))); [apply (derivable_pt_lim_scal exact_sigmoid a), DS|apply (derivable_pt_lim_scal (fun t => 1 - exact_sigmoid t) (1 - a)), (d_plus (fun _ => 1) (fun t => - exact_sigmoid t)); [apply d_const|apply d_opp, DS]]]. ring. }
  assert (DL : derivable_pt_lim (fun t => ln (report a t)) x (/ report a x * ((2 * a - 1) * spread (exact_sigmoid x)))) by (apply (d_comp (report a) ln); [exact DR|now apply derivable_pt_lim_ln]).
  assert (DM : derivable_pt_lim (fun t => ln (1 - report a t)) x (/ (1 - report a x) * (0 + - ((2 * a - 1) * spread (exact_sigmoid x))))) by (apply (d_comp (fun t => 1 - report a t) ln); [apply (d_plus (fun _ => 1) (fun t => - report a t)); [apply d_const|apply d_opp, DR]|apply derivable_pt_lim_ln; lra]).
  unfold likelihood. eapply d_val; [|apply d_opp, (d_plus (fun t => y * ln (report a t)) (fun t => (1 - y) * ln (1 - report a t))); [apply (derivable_pt_lim_scal (fun t => ln (report a t)) y), DL|apply (derivable_pt_lim_scal (fun t => ln (1 - report a t)) (1 - y)), DM]].
  unfold rappor_slope. set (u := spread (exact_sigmoid x)). unfold spread. field. lra.
Qed.

Lemma report_inside m a x : m <= a <= 1 - m -> m <= report a x <= 1 - m.
Proof. intros A. pose proof (sigmoid_01 x) as S. unfold report. set (q := exact_sigmoid x) in *. clearbody q. assert (0 <= (a - m) * q /\ 0 <= (1 - a - m) * (1 - q) /\ 0 <= (a - m) * (1 - q) /\ 0 <= (1 - a - m) * q) by (repeat split; apply Rmult_le_pos; lra). lra. Qed.
Lemma spread_inside m k : 0 <= m -> m <= k <= 1 - m -> m * (1 - m) <= spread k.
Proof. intros M K. unfold spread. assert (0 <= (k - m) * (1 - m - k)) by (apply Rmult_le_pos; lra). lra. Qed.
Lemma shift_inside E a A : (E = 1 \/ E = 2)%Z -> Rabs (2 * a - 1) <= A -> 0 <= report_shift E a <= A * (351 / 10000) + 2 / 10000.
Proof.
  intros HE B. pose proof (Rabs_pos (2 * a - 1)). assert (S : 0 <= sigmoid_shift E <= 351 / 10000) by (unfold sigmoid_shift; destruct HE as [-> | ->]; lra). assert (U : 0 <= unit_error E <= 2 / 65536) by (unfold unit_error; destruct HE as [-> | ->]; lra). unfold report_shift.
  assert (0 <= Rabs (2 * a - 1) * sigmoid_shift E <= A * (351 / 10000)) by (split; [apply Rmult_le_pos; lra|apply Rmult_le_compat; lra]). lra.
Qed.
(** C115: with alpha from 1/20 to 19/20 every logit up to 256 and every target in [0, 1] meet the conditions. *)
Lemma k_C115_every E a x y : (E = 1 \/ E = 2)%Z -> 1 / 20 <= a <= 19 / 20 -> Rabs x <= 256 -> 0 <= y <= 1 -> rappor_fits E a x y.
Proof.
  intros HE A X Y. pose proof (report_inside (1 / 20) a x ltac:(lra)) as K. pose proof (spread_inside (1 / 20) _ ltac:(lra) K) as W. pose proof (shift_inside E a (9 / 10) HE ltac:(apply Rabs_le; lra)) as D. unfold rappor_fits, spread_shift. cbv zeta. set (k := report a x) in *. set (d := report_shift E a) in *.
  assert (U : 0 <= unit_error E <= 2 / 65536) by (unfold unit_error; destruct HE as [-> | ->]; lra). assert (D2 : d * (1 + d) <= 332 / 10000) by nra.
  split; [exact X|]. split; [split; (split; [lra|right; destruct HE as [-> | ->]; [left|right]; (split; [reflexivity|lra])])|lra].
Qed.
Lemma average_below l c : l <> [] -> Forall (fun v => v <= c) l -> average l <= c.
Proof.
  intros Ne F. unfold average. assert (L : 0 < INR (length l)) by (apply lt_0_INR; destruct l; [congruence|apply Nat.lt_0_succ]). apply (Rmult_le_reg_r (INR (length l))); [exact L|]. unfold Rdiv. rewrite Rmult_assoc, Rinv_l, Rmult_1_r by lra.
  clear Ne L. induction F as [|v l H _ IH]; [cbn; lra|]. cbn [length]. rewrite S_INR. unfold sumr in *. cbn [fold_right]. lra.
Qed.
(** C115: with alpha from 1/4 to 3/4 the error of the loss is at most 28/100, and that of the gradient at most |g| (1/(5N) + 1/4000) + 1/10000, whatever the logits. *)
Lemma k_C115_bounds E a xs ys : (E = 1 \/ E = 2)%Z -> 1 / 4 <= a <= 3 / 4 -> xs <> [] -> length xs = length ys -> Forall (fun y => 0 <= y <= 1) ys ->
  rappor_error E a xs ys <= 28 / 100 /\ forall N x y g, 1 <= N -> 0 <= y <= 1 -> rappor_slope_error E a N x y g <= Rabs g * (1 / (5 * N) + 1 / 4000) + 1 / 10000.
Proof.
  intros HE A Ne L F. pose proof (shift_inside E a (1 / 2) HE ltac:(apply Rabs_le; lra)) as D. assert (U : 0 <= unit_error E <= 2 / 65536) by (unfold unit_error; destruct HE as [-> | ->]; lra). assert (A2 : Rabs (2 * a - 1) <= 1 / 2) by (apply Rabs_le; lra). split.
  - unfold rappor_error. set (d := report_shift E a) in *. enough (average (pairwise (fun x y => y * log_shift d (report a x) + (1 - y) * log_shift d (1 - report a x) + 2 * unit_error E) xs ys) <= 279 / 1000) by lra.
    apply average_below; [unfold pairwise; destruct xs, ys; try discriminate; congruence|]. unfold pairwise. apply Forall_map, Forall_forall. intros [x y] H. cbn [fst snd]. apply in_combine_r in H. rewrite Forall_forall in F. specialize (F y H). pose proof (report_inside (1 / 4) a x ltac:(lra)) as K. set (k := report a x) in *.
    assert (G : forall q, 1 / 4 <= q -> log_shift d q <= 278 / 1000). { intros q Q. unfold log_shift. assert (d / (q - d) <= 77 / 1000); [|lra]. apply (Rmult_le_reg_r (q - d)); [lra|]. unfold Rdiv. rewrite Rmult_assoc, Rinv_l by lra. lra. }
    pose proof (Rmult_le_compat_l y _ _ (proj1 F) (G k ltac:(lra))). pose proof (Rmult_le_compat_l (1 - y) _ _ ltac:(lra) (G (1 - k) ltac:(lra))). lra.
  - intros N x y g HN Y. pose proof (report_inside (1 / 4) a x ltac:(lra)) as K. pose proof (spread_inside (1 / 4) _ ltac:(lra) K) as W. pose proof (sigmoid_01 x) as S01. pose proof (spread_quarter (exact_sigmoid x) ltac:(lra)) as Q. pose proof (spread_quarter (report a x) ltac:(lra)) as W4.
    assert (SS : 0 <= sigmoid_shift E <= 351 / 10000) by (unfold sigmoid_shift; destruct HE as [-> | ->]; lra).
    assert (T : 0 <= correction_error E a x <= 2 / 5).
    { unfold correction_error, inverse_error, spread_shift. cbv zeta. set (w := spread (report a x)) in *. set (d := report_shift E a) in *. set (e := d * (1 + d) + unit_error E) in *. assert (E0 : 0 <= e <= 182 / 10000) by (unfold e; nra). set (f := sigmoid_shift E * (1 + sigmoid_shift E) + unit_error E). assert (F0 : 0 <= f <= 364 / 10000) by (unfold f; nra).
      assert (IW : 0 < / w <= 16 / 3) by (split; [apply Rinv_0_lt_compat; lra|replace (16 / 3) with (/ (3 / 16)) by lra; apply Rinv_le_contravar; lra]). assert (IE : 0 < / (w - e) <= 6) by (split; [apply Rinv_0_lt_compat; lra|replace 6 with (/ (1 / 6)) by lra; apply Rinv_le_contravar; lra]).
      assert (EW : 0 <= e / w <= 98 / 1000) by (unfold Rdiv; split; [apply Rmult_le_pos; lra|apply Rle_trans with (182 / 10000 * (16 / 3)); [apply Rmult_le_compat; lra|lra]]).
      assert (RH : 0 <= 380 * IZR E / 65536 + 1 / 500 <= 136 / 10000) by (destruct HE as [-> | ->]; lra). set (rho := 380 * IZR E / 65536 + 1 / 500) in *.
      assert (IV : 0 <= (rho + e / w) / (w - e) <= 67 / 100) by (unfold Rdiv at 1 3; split; [apply Rmult_le_pos; lra|apply Rle_trans with (1116 / 10000 * 6); [apply Rmult_le_compat; lra|lra]]). set (v := (rho + e / w) / (w - e)) in *.
      assert (P1 : 0 <= f * (/ w + v) <= 364 / 10000 * (16 / 3 + 67 / 100)) by (split; [apply Rmult_le_pos; lra|apply Rmult_le_compat; lra]). assert (P2 : 0 <= spread (exact_sigmoid x) * v <= 1 / 4 * (67 / 100)) by (split; [apply Rmult_le_pos; lra|apply Rmult_le_compat; lra]). lra. }
    unfold rappor_slope_error. cbv zeta. set (t := correction_error E a x) in *. set (k := report a x) in *. set (d := report_shift E a) in *. set (m := / N). assert (M : 0 < m <= 1) by (unfold m; split; [apply Rinv_0_lt_compat; lra|rewrite <- Rinv_1; apply Rinv_le_contravar; lra]).
    assert (C : 0 <= spread (exact_sigmoid x) / spread k <= 4 / 3). { assert (IW : 0 < / spread k <= 16 / 3) by (split; [apply Rinv_0_lt_compat; lra|replace (16 / 3) with (/ (3 / 16)) by lra; apply Rinv_le_contravar; lra]). unfold Rdiv. split; [apply Rmult_le_pos; lra|apply Rle_trans with (1 / 4 * (16 / 3)); [apply Rmult_le_compat; lra|lra]]. }
    set (c := spread (exact_sigmoid x) / spread k) in *. replace (1 / (5 * N)) with (1 / 5 * m) by (unfold m; field; lra). change (d / N) with (d * m). change ((k - y) / N) with ((k - y) * m). pose proof (Rabs_pos (2 * a - 1)) as A0. pose proof (Rabs_pos g) as G0. set (A' := Rabs (2 * a - 1)) in *.
    assert (X1 : 0 <= (d * m + unit_error E) * A' + unit_error E + 2 / 65536 <= 89 / 10000 * m + 8 / 100000). { assert (D1 : 0 <= d * m <= 178 / 10000 * m) by (split; [apply Rmult_le_pos; lra|apply Rmult_le_compat_r; lra]). assert (0 <= (d * m + unit_error E) * A' <= (178 / 10000 * m + 2 / 65536) * (1 / 2)) by (split; [apply Rmult_le_pos; lra|apply Rmult_le_compat; lra]). lra. }
    set (X := (d * m + unit_error E) * A' + unit_error E + 2 / 65536) in *. assert (X2 : X * (c + t) <= (89 / 10000 * m + 8 / 100000) * (4 / 3 + 2 / 5)) by (apply Rmult_le_compat; lra).
    assert (Y1 : Rabs ((k - y) * m * (2 * a - 1)) * t <= 3 / 4 * m * (1 / 2) * (2 / 5)). { apply Rmult_le_compat; [apply Rabs_pos|lra| |lra]. rewrite !Rabs_mult, (Rabs_right m) by lra. fold A'. assert (Rabs (k - y) <= 3 / 4) by (apply Rabs_le; lra). pose proof (Rabs_pos (k - y)). apply Rmult_le_compat; [apply Rmult_le_pos; lra|lra|apply Rmult_le_compat_r; lra|lra]. }
    assert (Z1 : X * (c + t) + Rabs ((k - y) * m * (2 * a - 1)) * t + unit_error E <= 1 / 5 * m + 1 / 4000) by lra. pose proof (Rmult_le_compat_r (Rabs g) _ _ G0 Z1). lra.
Qed.

Section Runs.
  Variables (n : nat) (pr : provider).
  Hypothesis Hn : (0 < n)%nat.
  Hypothesis HV : valid n pr.
  Variables (E : Z) (T : bool).
  Hypothesis HE : (E = 1 \/ E = 2)%Z.
  Hypothesis HT : T = true -> n = 1%nat.
  Local Notation eta := (IZR E / 65536).
  Local Notation mul_rval := (mul_rval n pr Hn HV E T HE HT).
  Lemma eta_range : 0 < eta <= 4 / 100000. Proof using HE. clear HT. destruct HE as [-> | ->]; lra. Qed.
  Lemma mulc_rval x c : num1 n x -> Rabs (rval x) <= 4 -> Rabs (Q2R c) <= 1 -> yo T (mulc (pr := pr) (within E) x (KFloat c)) (fun z => num1 n z /\ Rabs (rval z - Q2R c * rval x) <= eta + Rabs (rval x) / 65536).
  Proof using Hn HV HE HT.
    intros H B C. destruct (opened n Hn x H) as [Hx Rx]. cbn [mulc]. rewrite (proj2 H). pose proof (float_any 65536 ltac:(lia) c) as F. set (e := encodeQ 65536 c) in *.
    assert (Be : Rabs (real 65536 e) <= 2). { replace (real 65536 e) with ((real 65536 e - Q2R c) + Q2R c) by ring. eapply Rle_trans; [apply Rabs_triang|]. lra. }
    eapply yo_weaken; [apply (mulp_real n Hn pr HV 65536 E T (E_pos E HE) ltac:(lia) HT _ e x Hx)|].
    - apply (in64_product 65536 ltac:(lia) _ _ (2 ^ 30)); [rewrite Rx, Rabs_mult; apply Rle_trans with (4 * 2); [apply Rmult_le_compat; try apply Rabs_pos; assumption|lra]|change (IZR H63) with (IZR 9223372036854775808); lra].
    - intros z (q & Hq & Bq). destruct (holds_num n Hn q z Hq) as [Nz Rz]. split; [exact Nz|]. rewrite Rz. rewrite Rx in Bq. replace (real 65536 q - Q2R c * rval x) with ((real 65536 q - rval x * real 65536 e) + rval x * (real 65536 e - Q2R c)) by ring. eapply Rle_trans; [apply Rabs_triang|]. rewrite Rabs_mult. unfold Rdiv in *.
      assert (Rabs (rval x) * Rabs (real 65536 e - Q2R c) <= Rabs (rval x) * / 65536) by (apply Rmult_le_compat_l; [apply Rabs_pos|exact F]). unfold Shareapprox_proofs.eta, Rdiv in Bq. lra.
  Qed.
  Variable alpha : Q.
  Local Notation a := (Q2R alpha).
  Hypothesis HA : 0 <= a <= 1.
  Lemma minus_alpha : Q2R (1 - alpha) = 1 - a. Proof using. clear. rewrite Q2R_minus. replace (Q2R 1) with 1 by (unfold Q2R; cbn; lra). reflexivity. Qed.
  Lemma twice_alpha : Q2R (2 * alpha - 1) = 2 * a - 1. Proof using. clear. rewrite Q2R_minus, Q2R_mult. replace (Q2R 1) with 1 by (unfold Q2R; cbn; lra). replace (Q2R 2) with 2 by (unfold Q2R; cbn; lra). reflexivity. Qed.
  Lemma abs_twice : Rabs (2 * a - 1) <= 1. Proof using HA. clear - HA. apply Rabs_le. lra. Qed.
  Lemma sigmoid_shift_range : 0 <= sigmoid_shift E <= 351 / 10000. Proof using HE. clear HT. unfold sigmoid_shift. destruct HE as [-> | ->]; lra. Qed.
  Lemma report_shift_range : 0 <= report_shift E a <= 353 / 10000.
  Proof using HE HA. clear HT. pose proof sigmoid_shift_range. pose proof abs_twice. pose proof (Rabs_pos (2 * a - 1)). pose proof eta_range. unfold report_shift. change (unit_error E) with eta. assert (0 <= Rabs (2 * a - 1) * sigmoid_shift E <= 1 * (351 / 10000)) by (split; [apply Rmult_le_pos; lra|apply Rmult_le_compat; lra]). lra. Qed.
  Definition near_sigmoid (x s : num) : Prop := num1 n s /\ Rabs (rval s - exact_sigmoid (rval x)) <= sigmoid_shift E.
  Definition near_report (x p : num) : Prop := num1 n p /\ Rabs (rval p - report a (rval x)) <= report_shift E a.
  Definition near_correction (x c : num) : Prop := num1 n c /\ Rabs (rval c - spread (exact_sigmoid (rval x)) / spread (report a (rval x))) <= correction_error E a (rval x) /\ Rabs (rval c) <= 128001.
  Lemma between s q d : 0 <= q <= 1 -> Rabs (s - q) <= d -> - d <= s <= 1 + d.
  Proof using. clear. intros Q B. pose proof (Rle_abs (s - q)). pose proof (Rle_abs (- (s - q))). rewrite Rabs_Ropp in *. lra. Qed.
  Lemma normalized_yo x s : near_sigmoid x s -> yo T (normalizedv (pr := pr) (within E) alpha s) (near_report x).
  Proof using Hn HV HE HT HA.
    intros [Hs Bs]. pose proof (sigmoid_01 (rval x)) as S01. pose proof sigmoid_shift_range as SR. pose proof eta_range as U. set (q := exact_sigmoid (rval x)) in *. pose proof (between (rval s) q _ ltac:(lra) Bs) as Sb. assert (B4 : Rabs (rval s) <= 4) by (apply Rabs_le; lra).
    pose proof (one_minus_num1 n Hn s Hs) as Hs'. pose proof (one_minus_rval n Hn s 4 Hs B4 ltac:(lra)) as Rs'. assert (B4' : Rabs (rval (one_minus s)) <= 4) by (rewrite Rs'; apply Rabs_le; lra).
    assert (Ca : Rabs a <= 1) by (apply Rabs_le; lra). assert (Cb : Rabs (Q2R (1 - alpha)) <= 1) by (rewrite minus_alpha; apply Rabs_le; lra).
    unfold normalizedv. eapply yo_bind; [apply (mulc_rval s alpha Hs B4 Ca)|]. intros u [Hu Bu]. eapply yo_bind; [apply (mulc_rval (one_minus s) _ Hs' B4' Cb)|]. intros w [Hw Bw]. rewrite minus_alpha, Rs' in Bw. apply yo_ok. split; [now apply add_num1|].
    assert (As : Rabs (rval s) <= 105 / 100) by (apply Rabs_le; lra). assert (As' : Rabs (1 - rval s) <= 105 / 100) by (apply Rabs_le; lra).
    assert (K : Rabs (rval u + rval w - (a * rval s + (1 - a) * (1 - rval s))) <= 2 * eta + 3 / 65536). { replace (rval u + rval w - (a * rval s + (1 - a) * (1 - rval s))) with ((rval u - a * rval s) + (rval w - (1 - a) * (1 - rval s))) by ring. eapply Rle_trans; [apply Rabs_triang|]. unfold Rdiv in *. lra. }
    assert (K2 : Rabs (a * rval s + (1 - a) * (1 - rval s) - report a (rval x)) <= Rabs (2 * a - 1) * sigmoid_shift E). { unfold report. fold q. replace (a * rval s + (1 - a) * (1 - rval s) - (a * q + (1 - a) * (1 - q))) with ((2 * a - 1) * (rval s - q)) by ring. rewrite Rabs_mult. apply Rmult_le_compat_l; [apply Rabs_pos|exact Bs]. }
    assert (K3 : Rabs (rval u + rval w - report a (rval x)) <= report_shift E a). { replace (rval u + rval w - report a (rval x)) with ((rval u + rval w - (a * rval s + (1 - a) * (1 - rval s))) + (a * rval s + (1 - a) * (1 - rval s) - report a (rval x))) by ring. eapply Rle_trans; [apply Rabs_triang|]. unfold report_shift. change (unit_error E) with eta. lra. }
    pose proof report_shift_range. pose proof (between _ _ _ (report_01 a (rval x) HA) K3). rewrite (add_rval n Hn u w 4 Hu Hw); [exact K3|apply Rabs_le; lra|lra].
  Qed.
  Lemma correction_yo b x s p : near_sigmoid x s -> near_report x p -> 1 / 6400 <= spread (report a (rval x)) - spread_shift E (report_shift E a) ->
    yo T (correctionv (pr := pr) 65536 (within E) (usual ByNewton b) s p) (near_correction x).
  Proof using Hn HV HE HT HA.
    intros [Hs Bs] [Hp Bp] Fit. pose proof (sigmoid_01 (rval x)) as S01. pose proof sigmoid_shift_range as SR. pose proof eta_range as U. pose proof (report_01 a (rval x) HA) as R01. pose proof report_shift_range as RR. unfold near_correction, correction_error, inverse_error. change (unit_error E) with eta. unfold spread_shift in *. change (unit_error E) with eta in *. cbv zeta.
    set (q := exact_sigmoid (rval x)) in *. set (k := report a (rval x)) in *. set (d := report_shift E a) in *. set (ds := sigmoid_shift E) in *. pose proof (between _ _ _ (conj (Rlt_le _ _ (proj1 S01)) (Rlt_le _ _ (proj2 S01))) Bs) as Sb. pose proof (between _ _ _ R01 Bp) as Pb.
    assert (B4 : Rabs (rval s) <= 2) by (apply Rabs_le; lra). assert (B4p : Rabs (rval p) <= 2) by (apply Rabs_le; lra).
    pose proof (one_minus_num1 n Hn s Hs) as Hs'. pose proof (one_minus_rval n Hn s 2 Hs B4 ltac:(lra)) as Rs'. pose proof (one_minus_num1 n Hn p Hp) as Hp'. pose proof (one_minus_rval n Hn p 2 Hp B4p ltac:(lra)) as Rp'.
    assert (Q : forall r, - (1 / 10) <= r <= 11 / 10 -> Rabs (r * (1 - r)) <= 2) by (intros r Hr; apply Rabs_le; nra).
    unfold correctionv. eapply yo_bind; [apply (mul_rval s (one_minus s) Hs Hs'); rewrite Rs'; eapply Rle_trans; [apply Q; lra|lra]|]. rewrite Rs'. intros u [Hu Bu]. eapply yo_bind; [apply (mul_rval p (one_minus p) Hp Hp'); rewrite Rp'; eapply Rle_trans; [apply Q; lra|lra]|]. rewrite Rp'. intros v [Hv Bv].
    assert (Nu : Rabs (rval u - spread q) <= ds * (1 + ds) + eta). { replace (rval u - spread q) with ((rval u - rval s * (1 - rval s)) + (rval s * (1 - rval s) - spread q)) by ring. eapply Rle_trans; [apply Rabs_triang|]. pose proof (spread_near (rval s) q ds ltac:(lra) Bs). lra. }
    assert (Nv : Rabs (rval v - spread k) <= d * (1 + d) + eta). { replace (rval v - spread k) with ((rval v - rval p * (1 - rval p)) + (rval p * (1 - rval p) - spread k)) by ring. eapply Rle_trans; [apply Rabs_triang|]. pose proof (spread_near (rval p) k d R01 Bp). lra. }
    pose proof (spread_quarter q ltac:(lra)) as Uq. pose proof (spread_quarter k R01) as Wk. set (w := spread k) in *. set (e := d * (1 + d) + eta) in *. assert (E0 : 0 <= e <= 4 / 100) by (unfold e; nra). assert (Eu : 0 <= ds * (1 + ds) + eta <= 4 / 100) by nra.
    assert (Vb : 1 / 6400 <= rval v <= 29 / 100). { pose proof (Rle_abs (rval v - w)). pose proof (Rle_abs (- (rval v - w))). rewrite Rabs_Ropp in *. lra. }
    assert (Wr : wide_range ByNewton E (64 * rval v)) by (cbn [wide_range]; split; [exact HE|lra]).
    eapply yo_bind; [apply (recip01_wide n pr Hn HV E T HE HT ByNewton b v Hv Wr)|]. intros r (Hr & Sr & Br).
    assert (Rho : wide_error ByNewton E (64 * rval v) <= 380 * IZR E / 65536 + 1 / 500). { cbn [wide_error]. destruct (Rle_dec (64 * rval v) 30) as [_|C]; [|exfalso; apply C; lra]. set (X := 64 * rval v) in *. assert (X * (X + 1) <= 380) by (unfold X; nra). assert (X * (X + 1) * eta <= 380 * eta) by (apply Rmult_le_compat_r; lra). lra. }
    assert (Br' : Rabs (rval r - / w) <= (380 * IZR E / 65536 + 1 / 500 + e / w) / (w - e)).
    { apply (inverse_near (rval v) w e (rval r)); [lra|lra|exact Nv|lra|]. eapply Rle_trans; [exact Br|]. unfold Rdiv. apply Rmult_le_compat_r; [left; apply Rinv_0_lt_compat; lra|exact Rho]. }
    assert (Au : Rabs (rval u) <= 1) by (pose proof (Rle_abs (rval u - spread q)); pose proof (Rle_abs (- (rval u - spread q))); rewrite Rabs_Ropp in *; apply Rabs_le; lra).
    assert (Aur : Rabs (rval u * rval r) <= 1 * 128000) by (rewrite Rabs_mult; apply Rmult_le_compat; try apply Rabs_pos; assumption).
    eapply yo_weaken; [apply (mul_rval u r Hu Hr); lra|]. intros c [Hc Bc]. split; [exact Hc|]. split.
    - replace (rval c - spread q / w) with ((rval c - rval u * rval r) + (rval u * rval r - spread q * / w)) by (unfold Rdiv; ring). eapply Rle_trans; [apply Rabs_triang|]. pose proof (product_near _ _ _ _ _ _ Nu Br') as P. assert (W0 : 0 < / w) by (apply Rinv_0_lt_compat; lra). rewrite (Rabs_right (/ w)) in P by lra. rewrite (Rabs_right (spread q)) in P by lra. lra.
    - replace (rval c) with ((rval c - rval u * rval r) + rval u * rval r) by ring. eapply Rle_trans; [apply Rabs_triang|]. lra.
  Qed.
  Lemma slope_yo N g x p c y : (0 < N)%Z -> num1 n g -> Rabs (rval g) <= 1000 -> num1 n y -> 0 <= rval y <= 1 -> near_report x p -> near_correction x c ->
    yo T (rappor_grad_itemv (pr := pr) (within E) alpha N g (p, c) y) (fun z => num1 n z /\ Rabs (rval z - rval g * (rappor_slope a (rval x) (rval y) / IZR N)) <= rappor_slope_error E a (IZR N) (rval x) (rval y) (rval g)).
  Proof using Hn HV HE HT HA.
    intros HN Hg Bg Hy Y [Hp Bp] (Hc & Bc & Sc). pose proof eta_range as U. pose proof (report_01 a (rval x) HA) as R01. pose proof report_shift_range as RR. pose proof abs_twice as A2. pose proof (sigmoid_01 (rval x)) as S01. unfold rappor_slope, rappor_slope_error. change (unit_error E) with eta. cbv zeta.
    pose proof (spread_quarter (report a (rval x)) R01) as Wk. pose proof (spread_quarter (exact_sigmoid (rval x)) ltac:(lra)) as Uq.
    assert (C0 : 0 <= spread (exact_sigmoid (rval x)) / spread (report a (rval x))). { destruct (Req_dec (spread (report a (rval x))) 0) as [-> |Nz]; [unfold Rdiv; rewrite Rinv_0; lra|]. apply Rmult_le_pos; [lra|]. left. apply Rinv_0_lt_compat. lra. }
    set (C := spread (exact_sigmoid (rval x)) / spread (report a (rval x))) in *. set (t := correction_error E a (rval x)) in *. set (k := report a (rval x)) in *. set (d := report_shift E a) in *. pose proof (between _ _ _ R01 Bp) as Pb.
    assert (D3 : Rabs (rval p - rval y) <= 2) by (apply Rabs_le; lra). pose proof (sub_rval n Hn p y 2 Hp Hy D3 ltac:(lra)) as Rd. assert (N1 : 1 <= IZR N) by (apply (IZR_le 1); lia). assert (I1 : 0 < / IZR N <= 1) by (split; [apply Rinv_0_lt_compat; lra|rewrite <- Rinv_1; apply Rinv_le_contravar; lra]).
    unfold rappor_grad_itemv. cbn [fst snd]. eapply yo_bind; [apply (div_any n pr Hn HV E T HE HT (sub_num p (AEnc y)) N HN (sub_num1 n Hn p y Hp Hy))|]. rewrite Rd. intros q [Hq Bq].
    assert (Q1 : Rabs (rval q - (k - rval y) / IZR N) <= d / IZR N + eta). { replace (rval q - (k - rval y) / IZR N) with ((rval q - (rval p - rval y) / IZR N) + (rval p - k) * / IZR N) by (unfold Rdiv; ring). eapply Rle_trans; [apply Rabs_triang|]. rewrite Rabs_mult, (Rabs_right (/ IZR N)) by lra. assert (Rabs (rval p - k) * / IZR N <= d * / IZR N) by (apply Rmult_le_compat_r; lra). unfold Rdiv in *. lra. }
    assert (Q2 : Rabs (rval q) <= 2). { assert (Dn : Rabs (rval p - rval y) <= 11 / 10) by (apply Rabs_le; lra). replace (rval q) with ((rval q - (rval p - rval y) / IZR N) + (rval p - rval y) * / IZR N) by (unfold Rdiv; ring). eapply Rle_trans; [apply Rabs_triang|]. rewrite Rabs_mult, (Rabs_right (/ IZR N)) by lra. assert (Rabs (rval p - rval y) * / IZR N <= 11 / 10 * 1) by (apply Rmult_le_compat; try apply Rabs_pos; lra). lra. }
    eapply yo_bind; [apply (mulc_rval q (2 * alpha - 1) Hq ltac:(lra)); rewrite twice_alpha; exact A2|]. rewrite twice_alpha. intros r [Hr Br]. set (S := (k - rval y) / IZR N * (2 * a - 1)) in *.
    assert (R1 : Rabs (rval r - S) <= (d / IZR N + eta) * Rabs (2 * a - 1) + eta + 2 / 65536).
    { replace (rval r - S) with ((rval r - (2 * a - 1) * rval q) + (rval q - (k - rval y) / IZR N) * (2 * a - 1)) by (unfold S; ring). eapply Rle_trans; [apply Rabs_triang|]. rewrite (Rabs_mult _ (2 * a - 1)). assert (Rabs (rval q - (k - rval y) / IZR N) * Rabs (2 * a - 1) <= (d / IZR N + eta) * Rabs (2 * a - 1)) by (apply Rmult_le_compat_r; [apply Rabs_pos|exact Q1]). unfold Rdiv in *. lra. }
    assert (R2 : Rabs (rval r) <= 4). { replace (rval r) with ((rval r - (2 * a - 1) * rval q) + (2 * a - 1) * rval q) by ring. eapply Rle_trans; [apply Rabs_triang|]. rewrite Rabs_mult. assert (Rabs (2 * a - 1) * Rabs (rval q) <= 1 * 2) by (apply Rmult_le_compat; try apply Rabs_pos; assumption). unfold Rdiv in *. lra. }
    assert (Rc : Rabs (rval r * rval c) <= 4 * 128001) by (rewrite Rabs_mult; apply Rmult_le_compat; try apply Rabs_pos; assumption).
    eapply yo_bind; [apply (mul_rval r c Hr Hc); lra|]. intros u [Hu Bu]. pose proof (product_near _ _ _ _ _ _ R1 Bc) as P. rewrite (Rabs_right C) in P by lra.
    assert (U1 : Rabs (rval u - S * C) <= ((d / IZR N + eta) * Rabs (2 * a - 1) + eta + 2 / 65536) * (C + t) + Rabs S * t + eta). { replace (rval u - S * C) with ((rval u - rval r * rval c) + (rval r * rval c - S * C)) by ring. eapply Rle_trans; [apply Rabs_triang|]. lra. }
    assert (U2 : Rabs (rval u) <= 512005). { replace (rval u) with ((rval u - rval r * rval c) + rval r * rval c) by ring. eapply Rle_trans; [apply Rabs_triang|]. lra. }
    eapply yo_weaken; [apply (mul_rval u g Hu Hg)|]. { rewrite Rabs_mult. apply Rle_trans with (512005 * 1000); [apply Rmult_le_compat; try apply Rabs_pos; assumption|lra]. }
    intros z [Hz Bz]. split; [exact Hz|]. replace (rval z - rval g * ((k - rval y) * (2 * a - 1) * C / IZR N)) with ((rval z - rval u * rval g) + (rval u - S * C) * rval g) by (unfold S, Rdiv; ring). eapply Rle_trans; [apply Rabs_triang|]. rewrite (Rabs_mult _ (rval g)).
    pose proof (Rmult_le_compat_r (Rabs (rval g)) _ _ (Rabs_pos _) U1). lra.
  Qed.
  (** *** The whole loss *)
  Lemma yo_over {A B C} (f : B -> runo pr C) (P : A -> B -> Prop) (Q : A -> C -> Prop) xs ss : Forall2 P xs ss -> (forall x s, P x s -> yo T (f s) (Q x)) -> yo T (mapO f ss) (fun zs => Forall2 Q xs zs).
  Proof using. clear. intros F H. induction F as [|x s xs ss Hs _ IH]; cbn [mapO]; [apply yo_ok; constructor|]. eapply yo_bind; [apply H, Hs|]. intros b Hb. eapply yo_bind; [exact IH|]. intros bs Hbs. apply yo_ok. now constructor. Qed.
  Lemma yo_beside {A B C D} (f : B -> C -> runo pr D) (P : A -> B -> Prop) (Q : A -> C -> Prop) (U : A -> D -> Prop) xs ss ps : Forall2 P xs ss -> Forall2 Q xs ps -> (forall x s p, P x s -> Q x p -> yo T (f s p) (U x)) -> yo T (zipO f ss ps) (fun zs => Forall2 U xs zs).
  Proof using. clear. intros Fs Fp H. revert ps Fp. induction Fs as [|x s xs ss Hs _ IH]; intros ps Fp; inversion Fp; subst; cbn [zipO]; [apply yo_ok; constructor|]. eapply yo_bind; [apply H; eassumption|]. intros b Hb. eapply yo_bind; [apply IH; assumption|]. intros bs Hbs. apply yo_ok. now constructor. Qed.
  Lemma paired {A B C} (P : A -> B -> Prop) (Q : A -> C -> Prop) xs ss ps : Forall2 P xs ss -> Forall2 Q xs ps -> Forall2 (fun x v => P x (fst v) /\ Q x (snd v)) xs (combine ss ps).
  Proof using. clear. intros Fs Fp. revert ps Fp. induction Fs as [|x s xs ss Hs _ IH]; intros ps Fp; inversion Fp; subst; cbn [combine]; constructor; auto. Qed.
  Definition report_item (v : num * num) : R := likelihood (report a (rval (fst v))) (rval (snd v)).
  Definition report_item_error (v : num * num) : R := let k := report a (rval (fst v)) in let d := report_shift E a in let y := rval (snd v) in y * log_shift d k + (1 - y) * log_shift d (1 - k) + 2 * eta.
  Lemma rappor_both b g xs ys : Qeq_bool alpha 0 = false -> xs <> [] -> (Z.of_nat (length xs) <= 2 ^ 20)%Z -> Forall2 (fitting n (rappor_fits E a)) xs ys -> num1 n g -> Rabs (rval g) <= 1000 ->
    yo T (rappor_bothv (pr := pr) 65536 (within E) 8 8 8 2 alpha (usual ByNewton b) g xs ys) (fun z => (num1 n (fst z) /\ Rabs (rval (fst z) - - average (map report_item (combine xs ys))) <= average (map report_item_error (combine xs ys)) + eta) /\
      let N := INR (length ys) in Forall2 (fun v z => num1 n z /\ Rabs (rval z - rval g * (rappor_slope a (rval (fst v)) (rval (snd v)) / N)) <= rappor_slope_error E a N (rval (fst v)) (rval (snd v)) (rval g)) (combine xs ys) (snd z)).
  Proof using Hn HV HE HT HA.
    intros A0 Ne Ls F Hg Bg. destruct (combine_facts _ _ _ Ne F) as (Nc & Lc & Fc). assert (HN : (0 < Z.of_nat (length ys))%Z) by (destruct F; [congruence|reflexivity]). pose proof eta_range as U. pose proof report_shift_range as RR. assert (SD : 0 <= report_shift E a <= 27 / 100) by lra.
    unfold rappor_bothv. rewrite A0. set (Q := fun l => num1 n l /\ Rabs (rval l - - average (map report_item (combine xs ys))) <= average (map report_item_error (combine xs ys)) + eta).
    eapply (yo_bind _ _ _ (fun r => Forall2 (fun x v => near_report x (fst v) /\ near_correction x (snd v)) xs (fst r) /\ Q (snd r))).
    - unfold rapporv. set (K := fun x => 1 / 6400 <= spread (report a (rval x)) - spread_shift E (report_shift E a)).
      eapply (yo_bind _ _ _ (fun ss => Forall2 (fun x s => K x /\ near_sigmoid x s) xs ss)).
      { apply yo_each. clear - F Hn HV HE HT. induction F as [|x y xs ys (Hx & _ & B & _ & Hk) _ IH]; constructor; [|exact IH]. eapply yo_weaken; [apply (sigmoid_num n pr Hn HV E T HE HT x Hx B)|]. intros z Hz. split; [exact Hk|exact Hz]. }
      intros ss Fs. eapply (yo_bind _ _ _ (fun ps => Forall2 near_report xs ps)); [apply (yo_over _ _ _ xs ss Fs); intros x s [_ Hs]; now apply normalized_yo|]. intros ps Fp.
      eapply (yo_bind _ _ _ (fun cs => Forall2 near_correction xs cs)); [apply (yo_beside _ _ _ _ xs ss ps Fs Fp); intros x s p [Hk Hs] Hp; now apply correction_yo|]. intros cs Fcs.
      eapply (yo_bind _ _ _ Q); [|intros l Hl; apply yo_ok; cbn [fst snd]; split; [now apply paired|exact Hl]].
      apply (bce_mean n pr Hn HV E T HE HT report_item report_item_error (combine xs ys)); [|exact Nc|rewrite Lc; exact Ls|].
      + apply (yo_via _ T _ _ _ _ _ _ _ Fp F). intros x p y [Hp Bp] (Hx & Hy & _ & ([Y Ca] & [_ Cb]) & _). pose proof (report_01 a (rval x) HA) as R01. unfold around, report_item, report_item_error, likelihood. cbn [fst snd]. cbv zeta. set (k := report a (rval x)) in *. assert (Bp' : Rabs (1 - rval p - (1 - k)) <= report_shift E a) by (replace (1 - rval p - (1 - k)) with (- (rval p - k)) by ring; now rewrite Rabs_Ropp).
        apply (item_yo n pr Hn HV E T HE HT p y _ _ _ _ Hp Hy Y).
        * pose proof (between _ _ _ R01 Bp). apply Rabs_le. lra.
        * destruct Ca as [Ca|Ca]; [now left|right]. destruct (log_shifted E HE (rval p) k _ Bp ltac:(lra) SD Ca) as (A1 & A2 & _). split; assumption.
        * destruct Cb as [Cb|Cb]; [left; lra|right]. destruct (log_shifted E HE (1 - rval p) (1 - k) _ Bp' ltac:(lra) SD Cb) as (A1 & A2 & _). split; assumption.
      + eapply Forall_impl; [|exact Fc]. intros [x y] (Hx & Hy & _ & ([Y Ca] & [_ Cb]) & _). cbn [fst snd] in *. unfold report_item, report_item_error, likelihood. cbn [fst snd]. cbv zeta. pose proof (report_01 a (rval x) HA) as R01. set (k := report a (rval x)) in *. set (d := report_shift E a) in *.
        assert (Z0 : forall r, Rabs (r - r) <= d) by (intros r; rewrite Rminus_diag_eq, Rabs_R0 by reflexivity; lra).
        assert (W : forall w r, 0 <= w <= 1 -> r <= 1 -> (w = 0 \/ log_range E (100 * (r - d))) -> Rabs (w * ln r) <= 12 /\ w * log_shift d r <= 30000).
        { intros w r Hw Hr [-> |C]; [rewrite !Rmult_0_l, Rabs_R0; lra|]. destruct (log_shifted E HE r r _ (Z0 r) Hr SD C) as (_ & _ & A3 & A4). rewrite Rabs_mult, (Rabs_right w) by lra. pose proof (Rabs_pos (ln r)). split; nra. }
        destruct (W (rval y) k Y ltac:(lra) Ca) as [W1 W2], (W (1 - rval y) (1 - k) ltac:(lra) ltac:(lra) Cb) as [W3 W4]. pose proof (Rabs_triang (rval y * ln k) ((1 - rval y) * ln (1 - k))). lra.
    - intros [sv l] [Fs Hl]. cbn [fst snd] in *. eapply yo_bind; [|intros z Hz; apply yo_ok; cbn [fst snd]; split; [exact Hl|exact Hz]].
      unfold rappor_gradv. cbv zeta. rewrite INR_IZR_INZ. apply (yo_via _ T _ _ _ _ _ _ _ Fs F). intros x [p c] y [Hp Hc] (Hx & Hy & _ & ([Y _] & _) & _). cbn [fst snd] in *. now apply slope_yo.
  Qed.
End Runs.

(** ** Claims *)
Section Weak.
  Context {pr : provider}.
  Variable chk : check.
  Lemma normalizedv_weak al s : weaker (normalizedv (pr := pr) chk al s) (normalizedv no_check al s).
  Proof. apply weaker_bind; [apply mulc_weak|]. intros. apply weaker_bind; [apply mulc_weak|]. intros. apply weaker_refl. Qed.
  Lemma correctionv_weak D c s p : weaker (correctionv (pr := pr) D chk c s p) (correctionv D no_check c s p).
  Proof. apply weaker_bind; [apply mulv_weak|]. intros. apply weaker_bind; [apply mulv_weak|]. intros. apply weaker_bind; [apply recipv_weak|]. intros. apply mulv_weak. Qed.
  Lemma rappor_bothv_weak D d d' o i al c g xs ys : weaker (rappor_bothv (pr := pr) D chk d d' o i al c g xs ys) (rappor_bothv D no_check d d' o i al c g xs ys).
  Proof.
    unfold rappor_bothv. destruct (Qeq_bool al 0); [apply bce_logits_bothv_weak|]. apply weaker_bind.
    - apply weaker_bind; [apply weaker_map; intros; apply sigmoidv_weak|]. intros. apply weaker_bind; [apply weaker_map; intros; apply normalizedv_weak|]. intros. apply weaker_bind; [apply weaker_zip; intros; apply correctionv_weak|]. intros. apply weaker_bind; [apply bcev_weak|]. intros. apply weaker_refl.
    - intros r. apply weaker_bind; [|intros; apply weaker_refl]. apply weaker_zip. intros. apply weaker_bind; [apply divv_weak|]. intros. apply weaker_bind; [apply mulc_weak|]. intros. apply weaker_bind; [apply mulv_weak|]. intros. apply mulv_weak.
  Qed.
End Weak.
Section Claims.
  Variables (n : nat) (pr : provider).
  Hypothesis Hn : (0 < n)%nat.
  Hypothesis HV : valid n pr.
  Definition rappor_near (E : Z) (a g : R) (xs ys : list R) (r : num * list num) : Prop :=
    n_sc (fst r) = 65536%Z /\ Rabs (rval (fst r) - rappor a xs ys) <= rappor_error E a xs ys /\
    let N := INR (length ys) in Forall2 (fun v z => n_sc z = 65536%Z /\ Rabs (rval z - g * (rappor_slope a (fst v) (snd v) / N)) <= rappor_slope_error E a N (fst v) (snd v) g) (combine xs ys) (snd r).
  Lemma rappor_claim E T alpha b g xs ys : (E = 1 \/ E = 2)%Z -> (T = true -> n = 1%nat) -> (0 < alpha <= 1)%Q -> vector n 65536 xs -> vector n 65536 ys -> vector n 65536 [g] -> Rabs (rval g) <= 1000 -> (Z.of_nat (length xs) <= 2 ^ 20)%Z -> Forall2 (rappor_fits E (Q2R alpha)) (map rval xs) (map rval ys) ->
    yo T (rappor_bothv (pr := pr) 65536 (within E) 8 8 8 2 alpha (usual ByNewton b) g xs ys) (rappor_near E (Q2R alpha) (rval g) (map rval xs) (map rval ys)).
  Proof using Hn HV.
    intros HE HT [A0 A1] Vx Vy [_ Vg] Bg L F. assert (Hg : num1 n g) by (inversion Vg; assumption). assert (NZ : Qeq_bool alpha 0 = false). { destruct (Qeq_bool alpha 0) eqn:K; [|reflexivity]. apply Qeq_bool_iff in K. rewrite K in A0. discriminate A0. }
    assert (HA : 0 <= Q2R alpha <= 1). { apply Qlt_Rlt in A0. apply Qle_Rle in A1. replace (Q2R 0) with 0 in A0 by (unfold Q2R; cbn; lra). replace (Q2R 1) with 1 in A1 by (unfold Q2R; cbn; lra). lra. }
    eapply yo_weaken; [apply (rappor_both n pr Hn HV E T HE HT alpha HA b g xs ys NZ (proj1 Vx) L (fitted n _ xs ys Vx Vy F) Hg Bg)|]. intros [l zs] [[[_ Sl] Bl] Hz]. unfold rappor_near. cbn [fst snd] in *. split; [exact Sl|]. split.
    - unfold rappor, bce_loss, rappor_error. assert (A : pairwise likelihood (map (report (Q2R alpha)) (map rval xs)) (map rval ys) = map (report_item alpha) (combine xs ys)).
      { unfold pairwise, report_item. clear. revert ys. induction xs as [|x xs IH]; intros [|y ys]; try reflexivity. cbn [combine map fst snd]. now rewrite IH. }
      rewrite A, <- pairwise_map. exact Bl.
    - cbv zeta in *. rewrite map_length. apply over_map. cbn [fst snd]. eapply related; [|exact Hz]. intros v z [[_ Sz] Bz]. split; assumption.
  Qed.
  (** C115: for alpha in (0, 1] the RAPPOR loss and its gradient are the documented ones within the given errors, and the check of the range changes nothing. *)
  Lemma k_C115_both E alpha b g xs ys st r : (E = 1 \/ E = 2)%Z -> (0 < alpha <= 1)%Q -> vector n 65536 xs -> vector n 65536 ys -> vector n 65536 [g] -> Rabs (rval g) <= 1000 -> (Z.of_nat (length xs) <= 2 ^ 20)%Z -> Forall2 (rappor_fits E (Q2R alpha)) (map rval xs) (map rval ys) ->
    fst (rappor_bothv (pr := pr) 65536 (within E) 8 8 8 2 alpha (usual ByNewton b) g xs ys st) = Some r -> fst (rappor_bothv (pr := pr) 65536 no_check 8 8 8 2 alpha (usual ByNewton b) g xs ys st) = Some r /\ rappor_near E (Q2R alpha) (rval g) (map rval xs) (map rval ys) r.
  Proof using Hn HV. intros HE HA Vx Vy Vg Bg L F Hz. split; [eapply weaker_fst; [apply rappor_bothv_weak|exact Hz]|]. exact (yo_some _ _ _ _ _ (rappor_claim E false alpha b g xs ys HE ltac:(discriminate) HA Vx Vy Vg Bg L F) Hz). Qed.
  (** C115: with one party the loss and the gradient always come out, and within one unit. *)
  Lemma k_C115_one_party alpha b g xs ys st : n = 1%nat -> (0 < alpha <= 1)%Q -> vector n 65536 xs -> vector n 65536 ys -> vector n 65536 [g] -> Rabs (rval g) <= 1000 -> (Z.of_nat (length xs) <= 2 ^ 20)%Z -> Forall2 (rappor_fits 1 (Q2R alpha)) (map rval xs) (map rval ys) ->
    exists r, fst (rappor_bothv (pr := pr) 65536 no_check 8 8 8 2 alpha (usual ByNewton b) g xs ys st) = Some r /\ rappor_near 1 (Q2R alpha) (rval g) (map rval xs) (map rval ys) r.
  Proof using Hn HV. intros H1 HA Vx Vy Vg Bg L F. destruct (yo_true _ _ st (rappor_claim 1 true alpha b g xs ys (or_introl eq_refl) (fun _ => H1) HA Vx Vy Vg Bg L F)) as (z & Ez & Bz). exists z. split; [eapply weaker_fst; [apply rappor_bothv_weak|exact Ez]|exact Bz]. Qed.
  (** C115: with alpha = 0 the loss is the one of the sigmoids themselves and the gradient is its derivative, not those of the documented formula. *)
  Lemma k_C115_zero E alpha c g xs ys st r : (E = 1 \/ E = 2)%Z -> (alpha == 0)%Q -> vector n 65536 xs -> vector n 65536 ys -> vector n 65536 [g] -> Rabs (rval g) <= 1000 -> (Z.of_nat (length xs) <= 2 ^ 20)%Z -> Forall2 (logits_fit E) (map rval xs) (map rval ys) ->
    fst (rappor_bothv (pr := pr) 65536 (within E) 8 8 8 2 alpha c g xs ys st) = Some r -> fst (rappor_bothv (pr := pr) 65536 no_check 8 8 8 2 alpha c g xs ys st) = Some r /\ logits_near E (rval g) (map rval xs) (map rval ys) r.
  Proof using Hn HV. intros HE HA. unfold rappor_bothv. rewrite (proj2 (Qeq_bool_iff alpha 0) HA). exact (k_C111_bce_logits n pr Hn HV E g xs ys st r HE). Qed.
End Claims.

(** ** Outside of the conditions *)
(** C115 refuted for alpha = 0: with one party the loss of a logit of 2 for the target 1 is given as less than 1/2, where the documented formula gives more than 2. *)
Lemma k_C115_zero_refuted : exists pr st c, valid 1 pr /\ exists x y g r, vector 1 65536 [x; y; g] /\ rval x = 2 /\ rval y = 1 /\ fst (rappor_bothv (pr := pr) 65536 no_check 8 8 8 2 0 c g [x] [y] st) = Some r /\ rval (fst r) < 1 / 2 /\ rappor (Q2R 0) [rval x] [rval y] >= 2.
Proof.
  assert (I : forall v, (Z.abs v <= 100000000)%Z -> in64 v) by (intros; unfold in64, H63; lia). exists alone, tt, (usual ByNewton false). split; [exact alone_valid|]. exists (cell 131072), (cell 65536), (cell 65536).
  destruct (gives_pair (rappor_bothv (pr := alone) 65536 no_check 8 8 8 2 0 (usual ByNewton false) (cell 65536) [cell 131072] [cell 65536]) 10740 65536 ltac:(vm_compute; reflexivity)) as (r & R1 & R2). exists r. rewrite R2.
  destruct (cells_ok [131072; 65536; 65536]%Z ltac:(discriminate) ltac:(repeat (constructor; [apply I; lia|]); constructor)) as [V _]. split; [exact V|].
  destruct (cell_ok 131072 ltac:(apply I; lia)) as (_ & _ & A1). destruct (cell_ok 65536 ltac:(apply I; lia)) as (_ & _ & A2). rewrite A1, A2. split; [lra|]. split; [lra|]. split; [exact R1|split; [lra|]].
  replace (131072 / 65536) with 2 by lra. replace (65536 / 65536) with 1 by lra. replace (Q2R 0) with 0 by (unfold Q2R; cbn; lra). unfold rappor, report, bce_loss, average, pairwise, likelihood. cbn [combine map fst snd length INR]. unfold sumr. cbn [fold_right]. assert (P : 0 < exp (- 2)) by apply exp_pos.
  replace (0 * exact_sigmoid 2 + (1 - 0) * (1 - exact_sigmoid 2)) with (1 - exact_sigmoid 2) by ring.
  assert (L : ln (1 - exact_sigmoid 2) <= - 2). { apply ln_le'; [pose proof (sigmoid_01 2); lra|]. unfold exact_sigmoid. replace (- (2)) with (-2) by lra. replace (1 - / (1 + exp (- 2))) with (exp (- 2) * / (1 + exp (- 2))) by (field; lra). assert (/ (1 + exp (- 2)) <= 1) by (rewrite <- Rinv_1; apply Rinv_le_contravar; lra). assert (0 < / (1 + exp (- 2))) by (apply Rinv_0_lt_compat; lra). apply Rle_trans with (exp (- 2) * 1); [apply Rmult_le_compat_l; lra|lra]. }
  lra.
Qed.

(** Proofs of C103: log and log_softmax on shares. *)
Require Import ZArith QArith Qreals List Bool Lia Reals Lra Psatz.
From Verif Require Import Rtensor_proofs Realgrad_claims Approx Approx_claims Approxfn_claims Enclose Approxlog_claims Approxsoft_claims.
From Verif Require Import Ring64 Encoder Arith Arith_proofs Beaver Trunc Provider Binary Binary_proofs Convert_proofs Compare Compare_proofs Compare_claims Maximum Maximum_proofs Maximum_claims Regular Regular_proofs Regular_claims Shareapprox Shareapprox_proofs Shareapprox_claims Sharesoft Sharesoft_claims Shareroot_claims Sharepoly_claims Sharelog.
Import ListNotations.
Open Scope R_scope.

(** *** Specification *)
(** what rounding adds to the error of the logarithm of X in the default configuration *)
Definition log_noise (E : Z) (X : R) : R := IZR E * (15 / 1000 + X / 5000).
Definition log_range (E : Z) (X : R) : Prop := (E = 1%Z /\ 1 / 1000 <= X <= 127) \/ (E = 2%Z /\ 1 / 5 <= X <= 127).

(** ** The sensitivity of a step *)
Lemma slope_is X u : 1 - u / 256 <> 0 -> slope X u = (1 - / (1 - u / 256)) + residual X u ^ 8 * / (1 - u / 256).
Proof. intros H. unfold slope. replace (X * exp_approx 8 (- u)) with (1 - residual X u) by (unfold residual; ring). set (h := residual X u). set (r := / (1 - u / 256)). cbn [rseries ones7]. field. Qed.
Lemma mean_value (f f' : R -> R) a b L : (forall t, Rmin a b <= t <= Rmax a b -> derivable_pt_lim f t (f' t) /\ Rabs (f' t) <= L) -> Rabs (f b - f a) <= L * Rabs (b - a).
Proof.
  intros H. assert (G : forall a b, a < b -> (forall t, a <= t <= b -> derivable_pt_lim f t (f' t) /\ Rabs (f' t) <= L) -> Rabs (f b - f a) <= L * Rabs (b - a)).
  { clear. intros a b AB H. destruct (MVT_cor2 f f' a b AB) as (c & Ec & Hc); [intros c Hc; now apply H|]. rewrite Ec, Rabs_mult. apply Rmult_le_compat_r; [apply Rabs_pos|]. apply H. lra. }
  destruct (Rtotal_order a b) as [L1|[->|L1]].
  - apply G; [exact L1|]. rewrite Rmin_left, Rmax_right in H by lra. exact H.
  - rewrite !Rminus_diag_eq, Rabs_R0 by reflexivity. lra.
  - rewrite (Rabs_minus_sym (f b)), (Rabs_minus_sym b). apply G; [exact L1|]. rewrite Rmin_right, Rmax_left in H by lra. exact H.
Qed.
Lemma series_move h t L : (forall u, Rmin h t <= u <= Rmax h t -> Rabs (1 + rseries ones7 u) <= L) -> Rabs (rseries order8 t - rseries order8 h) <= L * Rabs (t - h).
Proof. intros H. apply (mean_value _ (fun u => 1 + rseries ones7 u)). intros u Hu. split; [apply d_series8|now apply H]. Qed.
Lemma step_move X Y w L : (forall u, Rmin Y w <= u <= Rmax Y w -> -12 <= u <= 12 /\ Rabs (slope X u) <= L) -> Rabs (log_step default X w - log_step default X Y) <= L * Rabs (w - Y).
Proof. intros H. apply (mean_value _ (slope X)). intros u Hu. destruct (H u Hu) as [B S]. split; [apply d_step; lra|exact S]. Qed.
Lemma between a b t e : Rabs (b - a) <= e -> Rmin a b <= t <= Rmax a b -> Rabs (t - a) <= e.
Proof. intros H [A B]. apply Rabs_def2' in H. unfold Rmin, Rmax in *. apply Rabs_le. destruct (Rle_dec a b); lra. Qed.
Lemma exp12 u : u <= 12 -> exp u <= 531441.
Proof. intros H. apply Rle_trans with (exp 12); [now apply exp_mono|]. replace 12 with (INR 12 * 1) by (cbn; lra). assert (G : forall m, exp (INR m * 1) <= 3 ^ m). { induction m as [|m IH]; [cbn; rewrite Rmult_0_l, exp_0; lra|]. rewrite S_INR, Rmult_plus_distr_r, exp_plus. cbn [pow]. rewrite Rmult_comm, Rmult_1_l. apply Rmult_le_compat; try (left; apply exp_pos); [apply exp_le_3|exact IH]. } eapply Rle_trans; [apply G|]. lra. Qed.
Lemma approx_nonneg y : 0 <= exp_approx 8 y. Proof. rewrite exp_approx_power. apply pow_even_nonneg. lia. Qed.
(** a step is safe at (X, Y), with rounding of Y up to N: it multiplies what there was by at most S, and adds D nu and the rounding of the polynomial *)
Definition safe (E : Z) (X Y N S D nu M : R) : Prop := 1 <= M <= 2 /\ forall u, Rabs (u - Y) <= N ->
  -12 <= u <= 12 /\ Rabs (slope X u) <= S /\ X * exp_approx 8 (- u) * (79 / 10000 * IZR E) + X * (14 / 100000 * IZR E) + IZR E / 65536 <= nu /\ forall t, Rabs (t - residual X u) <= nu -> Rabs (1 + rseries ones7 t) <= D /\ Rabs t <= M.
Definition poly_noise (E : Z) (M : R) : R := IZR E / 65536 * (8 + 65 * M ^ 8).

Section Step.
  Variables (n : nat) (pr : provider).
  Hypothesis Hn : (0 < n)%nat.
  Hypothesis HV : valid n pr.
  Variables (E : Z) (T : bool).
  Hypothesis HE : (E = 1 \/ E = 2)%Z.
  Hypothesis HT : T = true -> n = 1%nat.
  Local Notation real := (real 65536).
  Local Notation eta := (eta 65536 E).
  Local Notation holds := (holds n 65536).
  Lemma exp_any v x : holds v x -> -256 <= real v <= 12 ->
    yo T (expv (pr := pr) (within E) 8 x) (fun z => exists q, holds q z /\ Rabs (real q - exp_approx 8 (real v)) <= exp_approx 8 (real v) * (79 / 10000 * IZR E) + 14 / 100000 * IZR E).
  Proof.
    intros Hx Bx. assert (HE' : (1 <= E)%Z) by lia. assert (E12 : 1 <= IZR E <= 2) by (destruct HE as [-> | ->]; lra). destruct (default_growth E HE) as [G _]. rewrite growth_factor in G. assert (R8 : 2 ^ 8 = 256) by lra.
    pose proof (factor_ge 65536 E HE' ltac:(lia) 8) as F1. assert (I9 : INR 9 = 9) by (cbn; lra). set (y := real v) in *. set (a := exp_approx 8 y). assert (A0 : 0 <= a) by apply approx_nonneg. pose proof (approx_le_exp 8 y ltac:(lra)) as A1. fold a in A1.
    assert (Ep : 0 < eta) by (apply eta_pos; lia).
    destruct (Rle_dec y 0) as [Y|Y].
    - assert (Ay : exp y <= 1) by (rewrite <- exp_0; now apply exp_mono).
      eapply yo_weaken; [apply (exp_negative n Hn pr HV 65536 E T HE' ltac:(lia) HT 8 v x Hx)|].
      + rewrite R8. fold y. lra.
      + rewrite I9. unfold Shareapprox_proofs.eta. lra.
      + change (IZR H63) with (IZR 9223372036854775808). apply Rle_lt_trans with (65536 * 65536 * (1 + 79 / 10000 * 2)); [apply Rmult_le_compat_l; lra|lra].
      + intros z (q & Hq & Bq). exists q. split; [exact Hq|]. unfold damp, exact_exp in Bq. rewrite I9 in Bq. fold y a in Bq.
        assert (B1 : a * (factor 65536 E 8 - 1) <= a * (79 / 10000 * IZR E)) by (apply Rmult_le_compat_l; lra).
        assert (B2 : (1 - a) * (9 * eta * factor 65536 E 8) <= 14 / 100000 * IZR E).
        { apply Rle_trans with (1 * (9 * eta * (1 + 79 / 10000 * 2))); [|unfold Shareapprox_proofs.eta; lra]. assert (0 <= 9 * eta * factor 65536 E 8) by (apply Rmult_le_pos; lra). apply Rle_trans with (1 * (9 * eta * factor 65536 E 8)); [apply Rmult_le_compat_r; lra|]. rewrite !Rmult_1_l. apply Rmult_le_compat_l; lra. }
        lra.
    - pose proof (exp12 y ltac:(lra)) as A2. assert (Ay : 1 <= a). { unfold a. rewrite exp_approx_power. apply pow_one. rewrite R8. lra. } assert (Tp : top1 a = a) by (unfold top1; rewrite Rabs_right, Rmax_right by lra; reflexivity).
      eapply yo_weaken; [apply (exp_real n Hn pr HV 65536 E T HE' ltac:(lia) HT 8 v x Hx)|].
      + unfold exact_exp. fold y a. rewrite Tp. change (IZR H63) with (IZR 9223372036854775808). apply Rle_lt_trans with (65536 * 65536 * (531441 * (1 + 79 / 10000 * 2))); [apply Rmult_le_compat_l; [lra|]; apply Rmult_le_compat; lra|lra].
      + fold y. rewrite R8, Rabs_right by lra. change (IZR H63) with (IZR 9223372036854775808). unfold Shareapprox_proofs.eta. lra.
      + intros z (q & Hq & Bq & _). exists q. split; [exact Hq|]. unfold exact_exp in Bq. fold y a in Bq. rewrite Tp in Bq. assert (B1 : a * (factor 65536 E 8 - 1) <= a * (79 / 10000 * IZR E)) by (apply Rmult_le_compat_l; lra). lra.
  Qed.
  Lemma householder8 : householder 8 = map KFloat (map (fun i => 1 # Pos.of_succ_nat i) (seq 0 8)). Proof. unfold householder. now rewrite map_map. Qed.
  Lemma horner8 h : horner (map (fun i => 1 # Pos.of_succ_nat i) (seq 0 8)) h = rseries order8 h.
  Proof. cbn [horner map seq Pos.of_succ_nat Pos.succ rseries order8]. unfold Q2R. cbn [Qnum Qden]. field. Qed.
  Lemma step_real v x w y Y N S D nu M : holds v x -> 0 < real v <= 127 -> holds w y -> Rabs (real w - Y) <= N -> safe E (real v) Y N S D nu M ->
    yo T (log_stepv (pr := pr) (within E) 8 8 x y) (fun z => exists q, holds q z /\ Rabs (real q - log_step default (real v) Y) <= S * N + D * nu + poly_noise E M).
  Proof.
    intros Hx BX Hy BY [BM Sf]. assert (HE' : (1 <= E)%Z) by lia. assert (E12 : 1 <= IZR E <= 2) by (destruct HE as [-> | ->]; lra). set (X := real v) in *. set (W := real w) in *. destruct (Sf W BY) as (BW & _ & Hnu & Ht). assert (R63 : IZR H63 = 9223372036854775808) by reflexivity.
    assert (Rn : real (- w) = - W) by (unfold W, Shareapprox_proofs.real; rewrite opp_IZR; lra). set (a := exp_approx 8 (- W)) in *. assert (A0 : 0 <= a) by apply approx_nonneg. assert (A1 : a <= 531441) by (eapply Rle_trans; [apply (approx_le_exp 8); lra|apply exp12; lra]).
    assert (Hw : holds (- w) (neg_num y)) by (apply (holds_bound n Hn 65536 T ltac:(lia) HT _ _ 12); [apply (neg_num_ok n), Hy|rewrite Rn; apply Rabs_le; lra|rewrite R63; lra]).
    unfold log_stepv. eapply yo_bind; [apply (exp_any _ _ Hw); rewrite Rn; lra|]. rewrite Rn. fold a. intros ze (e & He & Be).
    assert (Bd : a * (79 / 10000 * IZR E) <= a * (79 / 10000 * 2)) by (apply Rmult_le_compat_l; lra). assert (Be' : Rabs (real e) <= 600000) by (apply Rabs_def2' in Be; apply Rabs_le; lra).
    eapply yo_bind; [apply (mul_real n Hn pr HV 65536 E T HE' ltac:(lia) HT v e x ze Hx He); apply (real_product n Hn 65536 T ltac:(lia) HT _ _ 127 600000); [fold X; rewrite Rabs_right; lra|exact Be'|rewrite R63; lra]|]. fold X. intros zp (p & Hp & Bp).
    set (t := 1 - real p). assert (Rt : real (65536 - p) = t) by (unfold t, Shareapprox_proofs.real; rewrite minus_IZR; field). assert (Bt : Rabs (t - residual X W) <= nu).
    { eapply Rle_trans; [|exact Hnu]. unfold t, residual. fold a. replace (1 - real p - (1 - X * a)) with (- ((real p - X * real e) + X * (real e - a))) by ring. rewrite Rabs_Ropp. eapply Rle_trans; [apply Rabs_triang|]. rewrite Rabs_mult, (Rabs_right X) by lra. assert (X * Rabs (real e - a) <= X * (a * (79 / 10000 * IZR E) + 14 / 100000 * IZR E)) by (apply Rmult_le_compat_l; lra). unfold Shareapprox_proofs.eta in Bp. lra. }
    destruct (Ht t Bt) as [_ TM]. assert (Hp1 : holds (65536 - p) (one_minus zp)). { apply (holds_bound n Hn 65536 T ltac:(lia) HT _ _ 2); [apply (one_minus_ok n Hn), Hp|rewrite Rt; lra|rewrite R63; lra]. }
    assert (E8 : (1 + eta) ^ 8 - 1 <= 65 / 8 * eta) by (unfold Shareapprox_proofs.eta; destruct HE as [-> | ->]; lra). assert (E16 : (1 + eta) ^ 16 <= 2) by (unfold Shareapprox_proofs.eta; destruct HE as [-> | ->]; lra). assert (Ep : 0 < eta) by (apply eta_pos; lia).
    assert (M16 : 1 <= M ^ 16 <= 65536) by (split; [apply pow_one; lra|replace 65536 with (2 ^ 16) by lra; apply pow_incr; lra]). assert (M8 : 1 <= M ^ 8 <= 256) by (split; [apply pow_one; lra|replace 256 with (2 ^ 8) by lra; apply pow_incr; lra]).
    eapply yo_bind.
    - rewrite householder8. eapply (polynomial_near n Hn pr HV 65536 E T HE' ltac:(lia) HT t M 8 ltac:(lra) TM 1 ltac:(lra)); [| |exact Hp1|exact Rt|reflexivity|].
      + change (2 * 8)%nat with 16%nat. rewrite R63. apply Rle_lt_trans with (65536 * 65536 * (2 * 1 * (65536 * 2))); [|lra]. apply Rmult_le_compat_l; [lra|]. apply Rmult_le_compat_l; [lra|]. pose proof (pow_one (1 + eta) 16 ltac:(lra)). apply Rmult_le_compat; lra.
      + split; lia.
      + cbn [map seq]. repeat (apply Forall_cons; [unfold Q2R; cbn [Qnum Qden Pos.of_succ_nat Pos.succ]; rewrite Rabs_right; lra|]). constructor.
    - rewrite horner8. intros zq (q & Hq & Bq & Bh). apply yo_ok. exists (w - q)%Z. replace (INR 8) with 8 in * by (cbn; lra). unfold unit_error in Bq.
      assert (PN : 8 * (eta + 1 * (M ^ 8 * ((1 + eta) ^ 8 - 1))) <= poly_noise E M). { unfold poly_noise. change (IZR E / 65536) with eta. assert (M ^ 8 * ((1 + eta) ^ 8 - 1) <= M ^ 8 * (65 / 8 * eta)) by (apply Rmult_le_compat_l; lra). lra. }
      assert (Rq : real (w - q) = W - real q) by (unfold W, Shareapprox_proofs.real; rewrite minus_IZR; field).
      assert (Sm : poly_noise E M <= 1). { unfold poly_noise. assert (IZR E / 65536 * (8 + 65 * M ^ 8) <= 2 / 65536 * (8 + 65 * 256)) by (apply Rmult_le_compat; lra). lra. }
      split.
      + apply (holds_bound n Hn 65536 T ltac:(lia) HT _ _ 3000); [apply (sub_enc_ok n); [apply Hy|apply Hq]| |rewrite R63; lra]. rewrite Rq. apply Rabs_def2' in Bq. apply Rabs_def2' in Bh. apply Rabs_le. lra.
      + rewrite Rq. assert (V1 : Rabs (rseries order8 t - rseries order8 (residual X W)) <= D * nu).
        { apply Rle_trans with (D * Rabs (t - residual X W)); [apply series_move; intros u Hu; apply Ht; apply (between _ t); assumption|]. apply Rmult_le_compat_l; [|exact Bt]. eapply Rle_trans; [apply Rabs_pos|]. apply (Ht t Bt). }
        assert (V2 : Rabs (log_step default X W - log_step default X Y) <= S * N).
        { apply Rle_trans with (S * Rabs (W - Y)); [apply step_move; intros u Hu; destruct (Sf u) as (B1 & B2 & _); [apply (between _ W); assumption|split; assumption]|]. apply Rmult_le_compat_l; [|exact BY]. eapply Rle_trans; [apply Rabs_pos|]. apply (Sf W BY). }
        replace (W - real q - log_step default X Y) with (- (real q - rseries order8 t) + (- (rseries order8 t - rseries order8 (residual X W)) + (log_step default X W - log_step default X Y))) by (rewrite (log_step_default X W); ring).
        eapply Rle_trans; [apply Rabs_triang|]. eapply Rle_trans; [apply Rplus_le_compat_l, Rabs_triang|]. rewrite !Rabs_Ropp. lra.
  Qed.
  Definition first_noise (X : R) : R := 20 * (exp_approx 8 (- (X * 2 + 1)) * (79 / 10000 * IZR E) + 14 / 100000 * IZR E) + IZR E / 65536.
  Lemma initial_real v x : holds v x -> 0 < real v <= 127 ->
    yo T (log_initialv (pr := pr) (within E) 8 x) (fun z => exists q, holds q z /\ Rabs (real q - log_initial default (real v)) <= first_noise (real v)).
  Proof.
    intros Hx BX. assert (HE' : (1 <= E)%Z) by lia. assert (E12 : 1 <= IZR E <= 2) by (destruct HE as [-> | ->]; lra). set (X := real v) in *. assert (R63 : IZR H63 = 9223372036854775808) by reflexivity. unfold log_initialv.
    eapply yo_bind; [apply (div_real n Hn pr HV 65536 E T HE' ltac:(lia) HT v x 120 ltac:(lia) Hx)|]. fold X. intros zt (t & Ht & Bt). unfold Shareapprox_proofs.eta in Bt.
    assert (Ra : real (- (v * 2 + encodeQ 65536 1)) = - (X * 2 + 1)) by (unfold X, Shareapprox_proofs.real; rewrite opp_IZR, plus_IZR, mult_IZR; change (encodeQ 65536 1) with 65536%Z; field).
    assert (Ha : holds (- (v * 2 + encodeQ 65536 1)) (neg_num (add_num (muli_num 2 x) (AFloat 1)))).
    { apply (holds_bound n Hn 65536 T ltac:(lia) HT _ _ 300); [apply (neg_num_ok n), (add_public n Hn _ _ _ (AFloat 1) Logic.I), (muli_num_ok n), Hx|rewrite Ra; apply Rabs_le; lra|rewrite R63; lra]. }
    eapply yo_bind; [apply (exp_any _ _ Ha); rewrite Ra; lra|]. rewrite Ra. set (a := exp_approx 8 (- (X * 2 + 1))). intros ze (e & He & Be). apply yo_ok. exists (t - e * 20 + encodeQ 65536 3)%Z.
    assert (A0 : 0 <= a) by apply approx_nonneg. assert (A1 : a <= 1) by (eapply Rle_trans; [apply (approx_le_exp 8); lra|]; apply Rle_trans with (exp 0); [apply exp_mono; lra|rewrite exp_0; lra]). assert (Bd : a * (79 / 10000 * IZR E) <= 1 * (79 / 10000 * 2)) by (apply Rmult_le_compat; lra).
    assert (Rq : real (t - e * 20 + encodeQ 65536 3) = real t - real e * 20 + 3) by (unfold Shareapprox_proofs.real; rewrite plus_IZR, minus_IZR, mult_IZR; change (encodeQ 65536 3) with 196608%Z; field).
    apply Rabs_def2' in Bt. apply Rabs_def2' in Be. split.
    - apply (holds_bound n Hn 65536 T ltac:(lia) HT _ _ 1000); [apply (add_public n Hn _ _ _ (AFloat 3) Logic.I), (sub_enc_ok n); [apply Ht|apply (muli_num_ok n), He]|rewrite Rq; apply Rabs_le; lra|rewrite R63; lra].
    - rewrite Rq. unfold first_noise, log_initial, mpc_exp. cbn [exp_iterations default]. fold a. apply Rabs_le. lra.
  Qed.
  Lemma log_real v x Y0 N0 S0 D0 nu0 M0 S1 D1 nu1 M1 : holds v x -> 0 < real v <= 127 -> Y0 = log_initial default (real v) -> N0 = first_noise (real v) -> safe E (real v) Y0 N0 S0 D0 nu0 M0 ->
    safe E (real v) (log_step default (real v) Y0) (S0 * N0 + D0 * nu0 + poly_noise E M0) S1 D1 nu1 M1 ->
    yo T (logv (pr := pr) (within E) 8 8 8 2 x) (fun z => exists q, holds q z /\ Rabs (real q - mpc_log default false (real v)) <= S1 * (S0 * N0 + D0 * nu0 + poly_noise E M0) + D1 * nu1 + poly_noise E M1).
  Proof.
    intros Hx BX -> -> Sf0 Sf1. unfold logv. eapply yo_bind; [apply (initial_real v x Hx BX)|]. intros y (w & Hw & Bw). cbn [repeatv]. eapply yo_bind; [exact (step_real v x w y _ _ _ _ _ _ Hx BX Hw Bw Sf0)|]. intros y1 (w1 & Hw1 & Bw1).
    eapply yo_bind; [exact (step_real v x w1 y1 _ _ _ _ _ _ Hx BX Hw1 Bw1 Sf1)|]. intros y2 (w2 & Hw2 & Bw2). apply yo_ok. exists w2. split; [exact Hw2|exact Bw2].
  Qed.
End Step.

(** ** The default configuration: the bounds above, computed with intervals *)
Local Notation enc := Enclose.enc.
Local Notation scale := Enclose.scale.
Definition wide (N : Z) (i : interval) : interval := (fst i - N, snd i + N)%Z.
Definition iabs (i : interval) : Z := Z.max (Z.abs (fst i)) (Z.abs (snd i)).
Definition eighth (k : Z) : Z := snd (isquares 3 (k, k)).
Definition inoise (E : Z) (x y : interval) (N : Z) : option Z :=
  let yw := wide N y in
  if Approxlog_claims.within 12 yw then
    let xe := imul x (iexp8 (ineg yw)) in
    let nu := snd (iadd (iadd (idiv (itimes (79 * E) xe) 10000) (idiv (itimes (14 * E) x) 100000)) (ifrac E 65536)) in
    let h := iresidual xe in
    let hw := wide nu h in
    let D := iabs (iadd (iz 1) (iseries ones7 hw)) in
    let r := iinv (isub (iz 1) (idiv yw 256)) in
    let S := (iabs (isub (iz 1) r) + up (eighth (iabs h) * snd r))%Z in
    let M := Z.max scale (iabs hw) in
    if (M <=? 2 * scale)%Z then Some (up (S * N) + up (D * nu) + snd (idiv (itimes E (iadd (iz 8) (itimes 65 (isquares 3 (M, M))))) 65536))%Z else None
  else None.
Definition ifirst (E : Z) (x : interval) : Z := snd (iadd (idiv (itimes (1580 * E) (iexp8 (ineg (iadd (itimes 2 x) (iz 1))))) 10000) (iadd (ifrac (280 * E) 100000) (ifrac E 65536))).
Definition noise_ok (E : Z) (x : interval) : bool :=
  let y0 := ilog_initial x in
  if Approxlog_claims.within 12 y0 then
    match inoise E x y0 (ifirst E x) with
    | Some N1 => match inoise E x (ilog_step x y0) N1 with Some N2 => (N2 <=? fst (itimes E (iadd (ifrac 15 1000) (idiv x 5000))))%Z | None => false end
    | None => false
    end
  else false.
Lemma e_wide N i Y u : enc i Y -> Rabs (u - Y) * rs <= IZR N -> enc (wide N i) u.
Proof. intros [A B] H. pose proof rs_pos. unfold enc, wide. cbn [fst snd]. rewrite minus_IZR, plus_IZR. assert (K : - IZR N <= (u - Y) * rs <= IZR N). { apply Rabs_def2'. rewrite Rabs_mult, (Rabs_right rs) by lra. exact H. } lra. Qed.
Lemma e_abs i v : enc i v -> Rabs v * rs <= IZR (iabs i).
Proof.
  intros [A B]. pose proof rs_pos as P. rewrite <- (Rabs_right rs) by lra. rewrite <- Rabs_mult. unfold iabs. rewrite IZR_max, !abs_IZR. apply Rabs_le. pose proof (Rmax_l (Rabs (IZR (fst i))) (Rabs (IZR (snd i)))). pose proof (Rmax_r (Rabs (IZR (fst i))) (Rabs (IZR (snd i)))). pose proof (Rle_abs (IZR (snd i))). pose proof (Rle_abs (- IZR (fst i))). rewrite Rabs_Ropp in *. lra.
Qed.
Lemma up_mul a b p q : 0 <= a -> 0 <= b -> a * rs <= IZR p -> b * rs <= IZR q -> a * b * rs <= IZR (up (p * q)).
Proof. intros A B P Q. pose proof rs_pos as R. pose proof (up_ge (p * q)) as U. rewrite mult_IZR in U. apply (Rmult_le_reg_r rs); [exact R|]. apply Rle_trans with (2 := U). replace (a * b * rs * rs) with (a * rs * (b * rs)) by ring. apply Rmult_le_compat; nra. Qed.
Lemma e_eighth k v : 0 <= v -> v * rs <= IZR k -> v ^ 8 * rs <= IZR (eighth k).
Proof.
  intros V H. pose proof rs_pos as R. set (u := IZR k / rs). assert (U : enc (k, k) u) by (unfold enc, u; cbn [fst snd]; replace (IZR k / rs * rs) with (IZR k) by (field; lra); lra). apply (e_squares 3) in U. destruct U as [_ U]. unfold eighth. apply Rle_trans with (2 := U). apply Rmult_le_compat_r; [lra|]. cbn [Nat.iter nat_rect].
  replace (u * u * (u * u) * (u * u * (u * u))) with (u ^ 8) by ring. apply pow_incr. split; [exact V|]. apply (Rmult_le_reg_r rs); [exact R|]. unfold u. replace (IZR k / rs * rs) with (IZR k) by (field; lra). exact H.
Qed.
Lemma some_eq (a b : Z) : Some a = Some b -> a = b. Proof. intros H. now injection H. Qed.
Lemma inoise_sound E x y N N' X Y NR : inoise E x y N = Some N' -> (1 <= E)%Z -> 0 < X -> enc x X -> enc y Y -> 0 <= NR -> NR * rs <= IZR N ->
  exists S D nu M, safe E X Y NR S D nu M /\ (S * NR + D * nu + poly_noise E M) * rs <= IZR N' /\ 0 <= S * NR + D * nu + poly_noise E M.
Proof.
  intros H HE X0 Ex Ey N0 HN. unfold inoise in H. set (yw := wide N y) in *. destruct (Approxlog_claims.within 12 yw) eqn:W; [|discriminate]. set (xe := imul x (iexp8 (ineg yw))) in *. set (nu := snd (iadd (iadd (idiv (itimes (79 * E) xe) 10000) (idiv (itimes (14 * E) x) 100000)) (ifrac E 65536))) in *.
  set (h := iresidual xe) in *. set (hw := wide nu h) in *. set (D := iabs (iadd (iz 1) (iseries ones7 hw))) in *. set (r := iinv (isub (iz 1) (idiv yw 256))) in *. set (M := Z.max scale (iabs hw)) in *. cbv zeta in H. destruct (Z.leb_spec M (2 * scale)) as [HM|HM]; [|discriminate]. apply some_eq in H.
  pose proof rs_pos as R. assert (HE' : 1 <= IZR E) by (apply (IZR_le 1); exact HE). assert (Eu : forall u, Rabs (u - Y) <= NR -> enc yw u) by (intros u Hu; apply (e_wide N y Y); [exact Ey|]; apply Rle_trans with (NR * rs); [apply Rmult_le_compat_r; lra|exact HN]).
  assert (Exe : forall u, enc yw u -> enc xe (X * exp_approx 8 (- u))) by (intros u Hu; apply e_mul; [exact Ex|]; apply e_exp8; now apply e_neg).
  assert (Eh : forall u, enc yw u -> enc h (residual X u)) by (intros u Hu; now apply e_residual).
  set (S := (iabs (isub (iz 1) r) + up (eighth (iabs h) * snd r))%Z) in *.
  set (SR := IZR S / rs). set (DR := IZR D / rs). set (nR := IZR nu / rs). set (MR := IZR M / rs). assert (Dv : forall k, IZR k / rs * rs = IZR k) by (intros k; field; lra).
  assert (Nu : forall u, enc yw u -> X * exp_approx 8 (- u) * (79 / 10000 * IZR E) + X * (14 / 100000 * IZR E) + IZR E / 65536 <= nR).
  { intros u Hu. apply (Rmult_le_reg_r rs); [exact R|]. unfold nR. rewrite Dv. unfold nu. assert (En : enc (iadd (iadd (idiv (itimes (79 * E) xe) 10000) (idiv (itimes (14 * E) x) 100000)) (ifrac E 65536)) (IZR (79 * E) * (X * exp_approx 8 (- u)) / 10000 + IZR (14 * E) * X / 100000 + IZR E / 65536)).
    { apply e_add; [apply e_add|now apply (e_frac E 65536)]; (apply e_div; [reflexivity|]; apply e_times); [now apply Exe|exact Ex]. }
    destruct En as [_ En]. rewrite !mult_IZR in En. lra. }
  assert (nu0 : 0 < nR). { pose proof (Nu Y ltac:(apply Eu; rewrite Rminus_diag_eq, Rabs_R0 by reflexivity; lra)) as U. pose proof (approx_nonneg (- Y)) as A. assert (0 <= X * exp_approx 8 (- Y) * (79 / 10000 * IZR E)) by (apply Rmult_le_pos; [apply Rmult_le_pos|]; lra). assert (0 <= X * (14 / 100000 * IZR E)) by (apply Rmult_le_pos; lra). lra. }
  assert (ScM : 1 <= MR <= 2). { unfold MR, M in *. split; apply (Rmult_le_reg_r rs); try exact R; rewrite Dv; [rewrite Rmult_1_l; apply IZR_le; lia|]. apply IZR_le in HM. rewrite mult_IZR in HM. exact HM. }
  assert (Sp : 0 <= SR).
  { apply (Rmult_le_reg_r rs); [exact R|]. unfold SR. rewrite Dv, Rmult_0_l. unfold S. rewrite plus_IZR. assert (EY : enc yw Y) by (apply Eu; rewrite Rminus_diag_eq, Rabs_R0 by reflexivity; lra).
    assert (0 <= IZR (iabs (isub (iz 1) r))) by (apply IZR_le; unfold iabs; lia). assert (Er : enc r (/ (1 - Y / 256))). { apply e_inv; [|apply e_sub; [apply (e_z 1)|now apply (e_div yw 256)]]. unfold Approxlog_claims.within in W. apply andb_prop in W. destruct W as [_ W]. apply Z.leb_le in W. unfold isub, iadd, ineg, iz, idiv. cbn [fst snd]. assert (- (snd yw) / 256 >= - (12 * scale) / 256)%Z by (apply Z.le_ge, Z.div_le_mono; lia). assert (- (12 * scale) / 256 > - scale)%Z by reflexivity. lia. }
    pose proof (within_le 12 yw Y W EY) as BY. assert (r0 : 0 < / (1 - Y / 256)) by (apply Rinv_0_lt_compat; lra).
    pose proof (e_eighth _ _ (Rabs_pos _) (e_abs _ _ (Eh Y EY))) as E8. pose proof (up_mul _ _ _ _ (pow_le _ 8 (Rabs_pos (residual X Y))) (Rlt_le _ _ r0) E8 (proj2 Er)) as U. assert (0 <= Rabs (residual X Y) ^ 8 * / (1 - Y / 256) * rs) by (apply Rmult_le_pos; [apply Rmult_le_pos|]; try lra; apply pow_le, Rabs_pos). lra. }
  assert (Sl : forall u, enc yw u -> -12 <= u <= 12 /\ Rabs (slope X u) <= SR).
  { intros u Hu. pose proof (within_le 12 yw u W Hu) as Bu. split; [exact Bu|]. rewrite slope_is by lra. assert (Er : enc r (/ (1 - u / 256))). { apply e_inv; [|apply e_sub; [apply (e_z 1)|now apply (e_div yw 256)]]. unfold Approxlog_claims.within in W. apply andb_prop in W. destruct W as [_ W]. apply Z.leb_le in W. unfold isub, iadd, ineg, iz, idiv. cbn [fst snd]. assert (- (snd yw) / 256 >= - (12 * scale) / 256)%Z by (apply Z.le_ge, Z.div_le_mono; lia). assert (- (12 * scale) / 256 > - scale)%Z by reflexivity. lia. }
    assert (r0 : 0 < / (1 - u / 256)) by (apply Rinv_0_lt_compat; lra). set (ri := / (1 - u / 256)) in *. eapply Rle_trans; [apply Rabs_triang|]. rewrite Rabs_mult, <- RPow_abs, (Rabs_right ri) by lra. apply (Rmult_le_reg_r rs); [exact R|]. unfold SR. rewrite Dv. unfold S. rewrite plus_IZR, Rmult_plus_distr_r.
    apply Rplus_le_compat; [apply e_abs; apply e_sub; [apply (e_z 1)|exact Er]|]. apply up_mul; [apply pow_le, Rabs_pos|lra|apply e_eighth; [apply Rabs_pos|apply e_abs; now apply Eh]|apply Er]. }
  assert (Tt : forall u t, enc yw u -> Rabs (t - residual X u) <= nR -> Rabs (1 + rseries ones7 t) <= DR /\ Rabs t <= MR).
  { intros u t Hu Ht. assert (Et : enc hw t). { apply (e_wide nu h (residual X u)); [now apply Eh|]. unfold nR in Ht. apply Rle_trans with (IZR nu / rs * rs); [apply Rmult_le_compat_r; lra|rewrite Dv; lra]. }
    split; apply (Rmult_le_reg_r rs); try exact R; unfold DR, MR; rewrite Dv; [apply e_abs; apply e_add; [apply (e_z 1)|apply e_series; [apply positive_ds|exact Et]]|]. apply Rle_trans with (IZR (iabs hw)); [now apply e_abs|]. apply IZR_le. unfold M. lia. }
  assert (Dp : 0 <= DR) by (unfold DR; apply Rmult_le_pos; [apply IZR_le; unfold D, iabs; lia|left; now apply Rinv_0_lt_compat]).
  exists SR, DR, nR, MR. split; [split; [exact ScM|]; intros u Hu; apply Eu in Hu; destruct (Sl u Hu) as [B1 B2]; split; [exact B1|]; split; [exact B2|]; split; [now apply Nu|]; intros t Ht; now apply (Tt u)|].
  assert (Pn : poly_noise E MR * rs <= IZR (snd (idiv (itimes E (iadd (iz 8) (itimes 65 (isquares 3 (M, M))))) 65536))).
  { assert (EM : enc (M, M) MR) by (unfold enc, MR; cbn [fst snd]; rewrite Dv; lra). apply (e_squares 3) in EM. apply (e_times 65) in EM. pose proof (e_div _ 65536 _ ltac:(lia) (e_times E _ _ (e_add _ _ _ _ (e_z 8) EM))) as [_ K]. apply Rle_trans with (2 := K). right. unfold poly_noise. cbn [Nat.iter nat_rect]. field. }
  split.
  - rewrite <- H, !plus_IZR, !Rmult_plus_distr_r. apply Rplus_le_compat; [apply Rplus_le_compat|exact Pn]; apply up_mul; try assumption; try lra; unfold SR, DR, nR; rewrite Dv; lra.
  - assert (0 <= SR * NR) by (apply Rmult_le_pos; assumption). assert (0 <= DR * nR) by (apply Rmult_le_pos; lra). assert (0 <= poly_noise E MR) by (unfold poly_noise; pose proof (pow_one MR 8 ltac:(lra)); apply Rmult_le_pos; lra). lra.
Qed.
Lemma noise_ok_sound E i X : (1 <= E)%Z -> noise_ok E i = true -> enc i X -> 0 < X -> let Y0 := log_initial default X in let N0 := first_noise E X in
  exists S0 D0 nu0 M0 S1 D1 nu1 M1, safe E X Y0 N0 S0 D0 nu0 M0 /\ safe E X (log_step default X Y0) (S0 * N0 + D0 * nu0 + poly_noise E M0) S1 D1 nu1 M1 /\ S1 * (S0 * N0 + D0 * nu0 + poly_noise E M0) + D1 * nu1 + poly_noise E M1 <= log_noise E X.
Proof.
  intros HE H Ex X0 Y0 N0. unfold noise_ok in H. destruct (Approxlog_claims.within 12 (ilog_initial i)) eqn:W; [|discriminate]. destruct (inoise E i (ilog_initial i) (ifirst E i)) as [N1|] eqn:I1; [|discriminate]. destruct (inoise E i (ilog_step i (ilog_initial i)) N1) as [N2|] eqn:I2; [|discriminate]. apply Z.leb_le, IZR_le in H.
  pose proof rs_pos as R. assert (HE' : 1 <= IZR E) by (apply (IZR_le 1); exact HE). pose proof (e_initial i X Ex) as E0. fold Y0 in E0. pose proof (e_step i _ X Y0 W Ex E0) as E1.
  assert (A : enc (iexp8 (ineg (iadd (itimes 2 i) (iz 1)))) (exp_approx 8 (- (X * 2 + 1)))). { apply e_exp8, e_neg, e_add; [|apply (e_z 1)]. rewrite Rmult_comm. now apply (e_times 2). } set (a := exp_approx 8 (- (X * 2 + 1))) in *. assert (A0 : 0 <= a) by apply approx_nonneg.
  assert (F0 : 0 <= N0 /\ N0 * rs <= IZR (ifirst E i)).
  { assert (En : enc (iadd (idiv (itimes (1580 * E) (iexp8 (ineg (iadd (itimes 2 i) (iz 1))))) 10000) (iadd (ifrac (280 * E) 100000) (ifrac E 65536))) (IZR (1580 * E) * a / 10000 + (IZR (280 * E) / 100000 + IZR E / 65536))).
    { apply e_add; [apply e_div; [reflexivity|now apply e_times]|apply e_add; now apply e_frac]. }
    destruct En as [_ En]. fold (ifirst E i) in En. rewrite !mult_IZR in En. unfold N0, first_noise. fold a. split; [|lra]. assert (0 <= a * (79 / 10000 * IZR E)) by (apply Rmult_le_pos; lra). lra. }
  destruct F0 as [F0 F1]. destruct (inoise_sound E i _ _ N1 X Y0 N0 I1 HE X0 Ex E0 F0 F1) as (S0 & D0 & nu0 & M0 & Sf0 & B0 & P0). destruct (inoise_sound E i _ _ N2 X _ _ I2 HE X0 Ex E1 P0 B0) as (S1 & D1 & nu1 & M1 & Sf1 & B1 & _).
  exists S0, D0, nu0, M0, S1, D1, nu1, M1. split; [exact Sf0|]. split; [exact Sf1|]. apply (Rmult_le_reg_r rs); [exact R|]. apply Rle_trans with (1 := B1). apply Rle_trans with (1 := H).
  pose proof (e_times E _ _ (e_add _ _ _ _ (e_frac 15 1000 ltac:(lia)) (e_div i 5000 X ltac:(lia) Ex))) as [K _]. exact K.
Qed.
Definition pieces1 : list Z := [
  1208; 1200; 1185; 1172; 1163; 1159; 1158; 1158; 1155; 1150; 1142; 1089; 1000; 869; 718; 560; 427; 328; 258; 208; 172; 145; 124; 106; 93; 82; 73; 66; 60; 55; 51; 47; 44; 42; 39; 37; 36; 34; 33; 32; 31; 30; 30; 29; 29; 29; 28; 28; 28; 29; 29; 29; 30; 30; 31; 32; 33; 34; 35; 37; 38; 40; 43;
  45; 48; 52; 56; 61; 67; 74; 82; 92; 105; 121; 141; 165; 196; 237; 291; 362; 451; 547; 631; 661; 652; 631; 616; 612; 627; 669; 729; 757; 804; 878; 994; 1156; 1305; 1345; 1291; 1223; 1169; 1128; 1098; 1072; 1046; 1017; 949; 860; 761; 670; 587; 509; 440; 376; 317; 271; 237; 212; 193; 178; 167; 160; 155; 153; 4096]%Z.
Definition pieces2 : list Z := [
  596; 616; 604; 587; 575; 572; 584; 618; 664; 685; 720; 774; 858; 980; 1125; 1226; 1225; 1166; 1104; 1056; 1020; 991; 968; 945; 921; 884; 825; 739; 658; 583; 513; 449; 393; 343; 299; 244; 206; 177; 155; 138; 124; 113; 105; 98; 92; 87; 83; 81; 79; 77; 77; 77; 4096]%Z.
Lemma walk_one : walk (noise_ok 1) (scale / 1000) pieces1 (127 * scale + 1) = true. Proof. vm_cast_no_check (eq_refl true). Qed.
Lemma walk_two : walk (noise_ok 2) (scale / 5) pieces2 (127 * scale + 1) = true. Proof. vm_cast_no_check (eq_refl true). Qed.
Lemma default_safe E X : log_range E X -> let Y0 := log_initial default X in let N0 := first_noise E X in
  exists S0 D0 nu0 M0 S1 D1 nu1 M1, safe E X Y0 N0 S0 D0 nu0 M0 /\ safe E X (log_step default X Y0) (S0 * N0 + D0 * nu0 + poly_noise E M0) S1 D1 nu1 M1 /\ S1 * (S0 * N0 + D0 * nu0 + poly_noise E M0) + D1 * nu1 + poly_noise E M1 <= log_noise E X.
Proof.
  intros H. pose proof rs_pos as P. set (good E X := 0 < X -> exists S0 D0 nu0 M0 S1 D1 nu1 M1, safe E X (log_initial default X) (first_noise E X) S0 D0 nu0 M0 /\ safe E X (log_step default X (log_initial default X)) (S0 * first_noise E X + D0 * nu0 + poly_noise E M0) S1 D1 nu1 M1 /\ S1 * (S0 * first_noise E X + D0 * nu0 + poly_noise E M0) + D1 * nu1 + poly_noise E M1 <= log_noise E X).
  assert (S : forall E, (1 <= E)%Z -> forall i x, noise_ok E i = true -> enc i x -> good E x) by (intros e He i x O Ex X0; now apply (noise_ok_sound e i x He)).
  assert (U : X <= 127 -> X * rs < IZR (127 * scale + 1)) by (intros U; rewrite plus_IZR, mult_IZR; change (IZR scale) with rs; nra).
  destruct H as [[-> B]|[-> B]].
  - apply (walk_sound (noise_ok 1) (good 1%Z) _ (S 1%Z ltac:(lia)) _ _ walk_one X); [|lra]. split; [|apply U; lra]. apply Rle_trans with (rs / 1000); [|nra]. apply (Rmult_le_reg_r 1000); [lra|]. unfold Rdiv. rewrite Rmult_assoc, Rinv_l, Rmult_1_r by lra. rewrite <- mult_IZR. apply IZR_le. vm_compute. discriminate.
  - apply (walk_sound (noise_ok 2) (good 2%Z) _ (S 2%Z ltac:(lia)) _ _ walk_two X); [|lra]. split; [|apply U; lra]. apply Rle_trans with (rs / 5); [|nra]. apply (Rmult_le_reg_r 5); [lra|]. unfold Rdiv. rewrite Rmult_assoc, Rinv_l, Rmult_1_r by lra. rewrite <- mult_IZR. apply IZR_le. vm_compute. discriminate.
Qed.

Lemma ln_crude X : 1 / 1000 <= X <= 127 -> Rabs (ln X) <= 1000.
Proof.
  intros B. pose proof (Rinv_0_lt_compat X ltac:(lra)) as I. assert (I1 : / X <= 1000) by (replace 1000 with (/ (1 / 1000)) by field; apply Rinv_le_contravar; lra). apply Rabs_le. split; [apply Rle_trans with (- / X); [lra|]; apply ln_ge; [lra|]|apply ln_le'; [lra|]; pose proof (exp_ineq1_le 1000); lra].
  rewrite exp_Ropp. rewrite <- (Rinv_inv X) at 2. apply Rinv_le_contravar; [exact I|]. pose proof (exp_ineq1_le (/ X)). lra.
Qed.
Section Weak.
  Context {pr : provider}.
  Variable chk : check.
  Lemma log_initialv_weak d x : weaker (log_initialv (pr := pr) chk d x) (log_initialv no_check d x).
  Proof. apply weaker_bind; [apply divv_weak|]. intros t. apply weaker_bind; [apply expv_weak|]. intros e. apply weaker_refl. Qed.
  Lemma log_stepv_weak d o x y : weaker (log_stepv (pr := pr) chk d o x y) (log_stepv no_check d o x y).
  Proof. apply weaker_bind; [apply expv_weak|]. intros e. apply weaker_bind; [apply mulv_weak|]. intros p. apply weaker_bind; [apply polynomial_weak|]. intros q. apply weaker_refl. Qed.
  Lemma logv_weak d d' o k x : weaker (logv (pr := pr) chk d d' o k x) (logv no_check d d' o k x).
  Proof. apply weaker_bind; [apply log_initialv_weak|]. intros y. apply weaker_repeat. intros a. apply log_stepv_weak. Qed.
  Lemma log01v_weak d d' o k x : weaker (log01v (pr := pr) chk d d' o k x) (log01v no_check d d' o k x).
  Proof. apply weaker_bind; [apply logv_weak|]. intros y. apply weaker_refl. Qed.
End Weak.

(** two sums that differ little have logarithms that differ little *)
Lemma ln_ratio S0 S1 p : 1 <= S0 -> 0 <= p < 1 -> Rabs (S1 - S0) <= S0 * p -> 0 < S1 /\ Rabs (ln S1 - ln S0) <= p / (1 - p).
Proof.
  intros H0 Hp H. apply Rabs_def2' in H. assert (P1 : S0 * (1 - p) <= S1) by lra. assert (Q : 0 < S0 * (1 - p)) by (apply Rmult_lt_0_compat; lra). assert (S1p : 0 < S1) by lra. split; [exact S1p|]. assert (I : 0 < / (1 - p)) by (apply Rinv_0_lt_compat; lra).
  set (r := S1 / S0). assert (Er : S1 = S0 * r) by (unfold r; field; lra). assert (r0 : 0 < r) by (unfold r; apply Rdiv_lt_0_compat; lra). rewrite Er, ln_mult by lra. replace (ln S0 + ln r - ln S0) with (ln r) by ring.
  assert (Rl : 1 - p <= r) by (apply (Rmult_le_reg_l S0); lra). assert (Ru : r <= 1 + p) by (apply (Rmult_le_reg_l S0); lra). assert (Pq : p <= p / (1 - p)). { unfold Rdiv. rewrite <- (Rmult_1_r p) at 1. apply Rmult_le_compat_l; [lra|]. rewrite <- Rinv_1 at 1. apply Rinv_le_contravar; lra. }
  apply Rabs_le. split.
  - apply ln_ge; [exact r0|]. apply Rle_trans with (2 := Rl). rewrite exp_Ropp. rewrite <- (Rinv_inv (1 - p)) at 2. apply Rinv_le_contravar; [exact I|]. pose proof (exp_ineq1_le (p / (1 - p))). assert (/ (1 - p) = 1 + p / (1 - p)) by (field; lra). lra.
  - apply ln_le'; [exact r0|]. pose proof (exp_ineq1_le (p / (1 - p))). lra.
Qed.
Lemma log_entry E m S0 S1 l : (E = 1 \/ E = 2)%Z -> 2 <= m <= 100 -> 1 <= S0 <= m -> Rabs (S1 - S0) <= S0 * (79 / 10000 * IZR E) + m * rest E ->
  1 / 2 <= S1 <= 103 /\ (Rabs (l - ln S1) <= 2 / 100 * Rabs (ln S1) + 1 / 1000 + log_noise E S1 -> Rabs (l - ln S0) <= 2 / 100 * ln m + 1 / 1000 + IZR E * (1 / 40 + m / 260)).
Proof.
  intros HE Hm H0 B. assert (E12 : 1 <= IZR E <= 2) by (destruct HE as [-> | ->]; lra). unfold rest in *. set (k := 24 / 10000 + 14 / 100000 * IZR E) in *. set (G := 79 / 10000 * IZR E) in *. set (p := G + m * k).
  assert (mk : m * k <= S0 * (m * k)) by (assert (0 <= m * k) by (unfold k; apply Rmult_le_pos; lra); nra). assert (Bp : Rabs (S1 - S0) <= S0 * p) by (unfold p; lra).
  assert (k0 : 0 < k <= 268 / 100000) by (unfold k; lra). assert (G0 : 0 < G <= 158 / 10000) by (unfold G; lra). assert (mk0 : 0 < m * k <= 100 * (268 / 100000)) by (split; [apply Rmult_lt_0_compat; lra|apply Rmult_le_compat; lra]). assert (p0 : 0 <= p <= 2838 / 10000) by (unfold p; lra).
  destruct (ln_ratio S0 S1 p ltac:(lra) ltac:(lra) Bp) as [S1p Lr]. set (q := p / (1 - p)) in *. assert (SG : S0 * G <= m * G) by (apply Rmult_le_compat_r; lra). apply Rabs_def2' in B.
  assert (S1l : 1 / 2 <= S1). { assert (S0 * (1 - G) >= 1 * (1 - G)) by (apply Rle_ge, Rmult_le_compat_r; lra). lra. }
  assert (S1u : S1 <= m * (1 + G + k)) by lra. assert (m * (G + k) <= 100 * (1848 / 100000)) by (apply Rmult_le_compat; lra). split; [lra|]. intros Bl.
  pose proof (proj1 (ln_sign S0) ltac:(lra)) as L0. assert (Lm : ln S0 <= ln m) by (destruct (Req_dec S0 m) as [->|N]; [lra|left; apply ln_increasing; lra]). apply Rabs_def2' in Lr.
  assert (LS : Rabs (ln S1) <= ln m + q) by (apply Rabs_le; lra).
  assert (Q : 102 / 100 * q + IZR E * (15 / 1000 + S1 / 5000) <= IZR E * (1 / 40 + m / 260)).
  { assert (S1 / 5000 <= m * (101848 / 100000) / 5000) by (assert (m * (1 + G + k) <= m * (101848 / 100000)) by (apply Rmult_le_compat_l; lra); lra).
    assert (IZR E * (15 / 1000 + S1 / 5000) <= IZR E * (15 / 1000 + m * (101848 / 100000) / 5000)) by (apply Rmult_le_compat_l; lra).
    enough (q <= IZR E * (98 / 10000 + m * (357 / 100000))) by (assert (0 <= IZR E * m) by (apply Rmult_le_pos; lra); lra).
    unfold q. apply (Rmult_le_reg_r (1 - p)); [lra|]. replace (p / (1 - p) * (1 - p)) with p by (field; lra). unfold p, G, k. destruct HE as [-> | ->]; nra. }
  replace (l - ln S0) with ((l - ln S1) + (ln S1 - ln S0)) by ring. eapply Rle_trans; [apply Rabs_triang|]. assert (Rabs (ln S1 - ln S0) <= q) by (apply Rabs_le; lra). unfold log_noise in Bl. lra.
Qed.
Section Claims.
  Variables (n : nat) (pr : provider).
  Hypothesis Hn : (0 < n)%nat.
  Hypothesis HV : valid n pr.
  Lemma range_E E X : log_range E X -> (E = 1 \/ E = 2)%Z /\ 1 / 1000 <= X <= 127. Proof. intros [[-> B]|[-> B]]; split; auto; lra. Qed.
  Lemma log_near T E v x : (T = true -> n = 1%nat) -> holds n 65536 v x -> log_range E (real 65536 v) ->
    yo T (logv (pr := pr) (within E) 8 8 8 2 x) (fun z => exists q, holds n 65536 q z /\ Rabs (real 65536 q - mpc_log default false (real 65536 v)) <= log_noise E (real 65536 v)).
  Proof using Hn HV.
    intros HT Hx HX. destruct (range_E E _ HX) as [HE B]. destruct (default_safe E _ HX) as (S0 & D0 & nu0 & M0 & S1 & D1 & nu1 & M1 & Sf0 & Sf1 & L). eapply yo_weaken; [apply (log_real n pr Hn HV E T HE HT v x _ _ S0 D0 nu0 M0 S1 D1 nu1 M1 Hx ltac:(lra) eq_refl eq_refl Sf0 Sf1)|]. intros z (q & Hq & Bq). exists q. split; [exact Hq|lra].
  Qed.
  Lemma log_yo T E x : (T = true -> n = 1%nat) -> sharing n x -> n_sc x = 65536%Z -> let X := rval x in log_range E X ->
    yo T (logv (pr := pr) (within E) 8 8 8 2 x) (fun z => n_sc z = 65536%Z /\ Rabs (rval z - mpc_log default false X) <= log_noise E X /\ Rabs (rval z - ln X) <= 2 / 100 * Rabs (ln X) + 1 / 1000 + log_noise E X).
  Proof using Hn HV.
    intros HT Hx Sx X HX. destruct (holds_rval n 65536 x Hx Sx) as [Hv Rv]. set (v := open_a (n_sh x)) in *. destruct (range_E E X HX) as [_ B]. pose proof (k_C74_range X ltac:(lra)) as C. unfold X in *. rewrite <- Rv in *.
    eapply yo_weaken; [apply (log_near T E v x HT Hv HX)|]. intros z (q & Hq & Bq). destruct (rval_holds n Hn 65536 q z ltac:(lia) Hq) as [Sz Rz]. rewrite Rz. split; [exact Sz|]. split; [exact Bq|].
    replace (real 65536 q - ln (real 65536 v)) with ((real 65536 q - mpc_log default false (real 65536 v)) + (mpc_log default false (real 65536 v) - ln (real 65536 v))) by ring. eapply Rle_trans; [apply Rabs_triang|]. lra.
  Qed.
  (** C103: log on an encrypted number in the default configuration. *)
  Lemma k_C103_log E x st z : sharing n x -> n_sc x = 65536%Z -> let X := rval x in log_range E X -> fst (logv (pr := pr) (within E) 8 8 8 2 x st) = Some z ->
    fst (logv (pr := pr) no_check 8 8 8 2 x st) = Some z /\ n_sc z = 65536%Z /\ Rabs (rval z - mpc_log default false X) <= log_noise E X /\ Rabs (rval z - ln X) <= 2 / 100 * Rabs (ln X) + 1 / 1000 + log_noise E X.
  Proof using Hn HV. intros Hx Sx X HX Hz. split; [eapply weaker_fst; [apply logv_weak|exact Hz]|]. exact (yo_some _ _ _ _ _ (log_yo false E x ltac:(discriminate) Hx Sx HX) Hz). Qed.
  (** C103: with one party no assumption on the truncations is needed. *)
  Lemma k_C103_one_party x st : n = 1%nat -> sharing n x -> n_sc x = 65536%Z -> let X := rval x in 1 / 1000 <= X <= 127 ->
    exists z, fst (logv (pr := pr) no_check 8 8 8 2 x st) = Some z /\ Rabs (rval z - ln X) <= 2 / 100 * Rabs (ln X) + 1 / 1000 + (15 / 1000 + X / 5000).
  Proof using Hn HV.
    intros H1 Hx Sx X HX. destruct (yo_true _ _ st (log_yo true 1 x (fun _ => H1) Hx Sx (or_introl (conj eq_refl HX)))) as (z & Ez & _ & _ & B). exists z. split; [eapply weaker_fst; [apply logv_weak|exact Ez]|]. unfold log_noise in B. fold X in B. lra.
  Qed.
  (** C103: with input_in_01 the logarithm of 100 x is computed; the error is that of 100 x. *)
  Lemma k_C103_in_01 E x st z : sharing n x -> n_sc x = 65536%Z -> let X := 100 * rval x in log_range E X -> fst (log01v (pr := pr) (within E) 8 8 8 2 x st) = Some z ->
    fst (log01v (pr := pr) no_check 8 8 8 2 x st) = Some z /\ n_sc z = 65536%Z /\ Rabs (rval z - ln (rval x)) <= 2 / 100 * Rabs (ln X) + 12 / 10000 + log_noise E X.
  Proof using Hn HV.
    intros Hx Sx X HX Hz. split; [eapply weaker_fst; [apply log01v_weak|exact Hz]|]. destruct (range_E E X HX) as [HE B]. destruct (holds_rval n 65536 x Hx Sx) as [Hv Rv]. set (v := open_a (n_sh x)) in *. assert (R63 : IZR H63 = 9223372036854775808) by reflexivity.
    assert (Rm : real 65536 (v * 100) = X) by (unfold X, real; rewrite <- Rv; unfold real; rewrite mult_IZR; field). assert (Hm : holds n 65536 (v * 100) (muli_num 100 x)) by (apply (holds_bound n Hn 65536 false ltac:(lia) ltac:(discriminate) _ _ 200); [apply (muli_num_ok n), Hv|rewrite Rm; apply Rabs_le; lra|rewrite R63; lra]).
    assert (Y : yo false (log01v (pr := pr) (within E) 8 8 8 2 x) (fun z => exists q, nshare n q 65536 z /\ Rabs (real 65536 q + 4605170 / 1000000 - mpc_log default false X) <= log_noise E X + / 65536)).
    { unfold log01v. eapply yo_bind; [apply (log_near false E _ _ ltac:(discriminate) Hm); rewrite Rm; exact HX|]. rewrite Rm. intros y (q & Hq & Bq). apply yo_ok. exists (q - encodeQ 65536 (460517 # 100000))%Z.
      split; [apply (sub_public n Hn _ _ _ (AFloat (460517 # 100000)) Logic.I), Hq|]. pose proof (float_any 65536 ltac:(lia) (460517 # 100000)) as F. unfold Q2R in F. cbn [Qnum Qden] in F. assert (Rs : real 65536 (q - encodeQ 65536 (460517 # 100000)) = real 65536 q - real 65536 (encodeQ 65536 (460517 # 100000))) by (unfold real; rewrite minus_IZR; field). rewrite Rs. apply Rabs_def2' in F. apply Rabs_def2' in Bq. apply Rabs_le. lra. }
    destruct (yo_some _ _ _ _ _ Y Hz) as (q & Hq & Bq). pose proof (k_C74_range X ltac:(lra)) as C. pose proof ln_100 as L. assert (Lm : ln X = ln 100 + ln (rval x)) by (unfold X; apply ln_mult; [lra|unfold X in B; lra]). pose proof (ln_crude X ltac:(lra)) as Ln. assert (N : log_noise E X <= 1) by (unfold log_noise; destruct HE as [-> | ->]; lra).
    apply Rabs_def2' in Bq, C, L. assert (Hq' : holds n 65536 q z) by (apply (holds_bound n Hn 65536 false ltac:(lia) ltac:(discriminate) _ _ 3000); [exact Hq|pose proof (Rabs_def2' _ _ Ln); apply Rabs_le; pose proof (Rabs_pos (ln X)); lra|rewrite R63; lra]).
    destruct (rval_holds n Hn 65536 q z ltac:(lia) Hq') as [Sz Rz]. split; [exact Sz|]. rewrite Rz. apply Rabs_le. lra.
  Qed.

  (** ** log_softmax *)
  Variables (local_bits : run pr (list Z)) (log_steps cascade_steps isqrt : nat -> nat).
  Hypothesis Hlocal : forall st, let u := fst (local_bits st) in length u = n /\ Forall (fun z => 0 <= z < 65536)%Z u.
  Hypothesis Hsqrt : forall m, (2 <= m)%nat -> (1 <= isqrt m < m)%nat.
  Local Notation log_softmax := (log_softmaxv (pr := pr) 65536 16 local_bits log_steps cascade_steps isqrt).
  Ltac weakens := repeat match goal with
    | |- weaker (bindo _ _) (bindo _ _) => apply weaker_bind; [|intros ?]
    | |- weaker (mapO _ _) (mapO _ _) => apply weaker_map; intros ?
    | |- weaker (expv _ _ _) _ => apply expv_weak
    | |- weaker (logv _ _ _ _ _ _) _ => apply logv_weak
    | |- weaker _ _ => apply weaker_refl
    end.
  Lemma log_softmaxv_weak me chk d d' o k xs : weaker (log_softmax me chk d d' o k xs) (log_softmax me no_check d d' o k xs).
  Proof using.
    unfold log_softmaxv. destruct xs as [|x [|y q]]; weakens.
  Qed.
  Lemma log_soft_yo T E me xs : (E = 1 \/ E = 2)%Z -> (T = true -> n = 1%nat) -> vector n 65536 xs -> (2 <= length xs <= 100)%nat -> (forall x y, In x xs -> In y xs -> rval x - rval y <= 256) ->
    yo T (log_softmax me (within E) 8 8 8 2 xs) (Forall2 (fun x z => n_sc z = 65536%Z /\ Rabs (rval z - ln (exact_softmax (map rval xs) (rval x))) <= 2 / 100 * ln (INR (length xs)) + 1 / 1000 + IZR E * (1 / 40 + INR (length xs) / 260)) xs).
  Proof using Hn HV Hlocal Hsqrt.
    intros HE HT [Ne F] L Df. assert (HE' : (1 <= E)%Z) by lia. assert (E12 : 1 <= IZR E <= 2) by (destruct HE as [-> | ->]; lra). set (m := INR (length xs)). assert (Hm : 2 <= m <= 100) by (unfold m; split; [apply (le_INR 2)|replace 100 with (INR 100) by (cbn; lra); apply le_INR]; lia).
    assert (R63 : IZR H63 = 9223372036854775808) by reflexivity.
    assert (Fr : Forall (fun x => holds n 65536 (open_a (n_sh x)) x /\ real 65536 (open_a (n_sh x)) = rval x) xs) by (eapply Forall_impl; [|exact F]; intros x [Hx Sx]; now apply (holds_rval n)).
    assert (DI : forall a b, In a (reveals xs) -> In b (reveals xs) -> (a - b <= 16777216)%Z).
    { intros a b Ia Ib. unfold reveals in Ia, Ib. apply in_map_iff in Ia, Ib. destruct Ia as (x & <- & Ix), Ib as (y & <- & Iy). rewrite Forall_forall in Fr. destruct (Fr x Ix) as [_ Rx], (Fr y Iy) as [_ Ry]. pose proof (Df x y Ix Iy) as Dxy. rewrite <- Rx, <- Ry in Dxy. unfold real in Dxy. apply le_IZR. rewrite minus_IZR. lra. }
    assert (HF : differences_fit xs). { intros a b Ia Ib. pose proof (DI a b Ia Ib). pose proof (DI b a Ib Ia). unfold in64, H63. lia. }
    assert (SH : short n 65536 65536 xs). { unfold short, H63. destruct (Nat.eqb n 2); [rewrite Z.div_same by lia|]; lia. }
    unfold log_softmaxv. destruct xs as [|xa [|xb xr]]; [cbn in L; lia|cbn in L; lia|]. set (xs := xa :: xb :: xr) in *. clearbody xs. cbv zeta.
    eapply (yo_lift _ _ _ (fun r => exists v, greatest v (reveals xs) /\ nshare n v 65536 (fst r))).
    { intros st. assert (Hloc : yields local_bits (fun u => length u = n /\ Forall (fun z => 0 <= z < 65536)%Z u /\ True)) by (intros st0; destruct (Hlocal st0); auto).
      unfold short in SH. rewrite <- reveals_len in SH.
      destruct (max_dim_ok n Hn pr HV 65536 ltac:(lia) 16 ltac:(lia) eq_refl local_bits (fun _ => True) Hloc 65536 (or_intror eq_refl) (reveals xs) HF isqrt Hsqrt log_steps cascade_steps me (reveals xs) xs (reps n 65536 xs F _ (incl_refl _)) (reveals_ne xs Ne) SH st) as (k & Hk & M & Hv & _). eexists. split; [exact M|exact Hv]. }
    intros r (v & [Iv Gv] & Hv). set (M := real 65536 v). set (e x := exp (rval x - M)).
    unfold reveals in Iv. apply in_map_iff in Iv. destruct Iv as (x0 & Ex0 & Ix0).
    assert (LG : Forall2 (fun x l => In x xs /\ holds n 65536 (open_a (n_sh x) - v) l) xs (map (fun x => sub_num x (AEnc (fst r))) xs)).
    { assert (G : forall l, incl l xs -> Forall2 (fun x l => In x xs /\ holds n 65536 (open_a (n_sh x) - v) l) l (map (fun x => sub_num x (AEnc (fst r))) l)).
      { induction l as [|x l IH]; intros I; [constructor|]. cbn [map]. constructor; [|apply IH; intros y Y; apply I; now right]. assert (Ix : In x xs) by (apply I; now left). split; [exact Ix|]. rewrite Forall_forall in Fr. destruct (Fr x Ix) as [[Nx Bx] _]. split; [now apply (sub_enc_ok n)|].
        apply HF; [now apply (in_map (fun x => open_a (n_sh x)))|]. rewrite <- Ex0. now apply (in_map (fun x => open_a (n_sh x))). }
      apply G, incl_refl. }
    assert (Rl : forall x, In x xs -> real 65536 (open_a (n_sh x) - v) = rval x - M /\ -256 <= rval x - M <= 0).
    { intros x Ix. rewrite Forall_forall in Fr. destruct (Fr x Ix) as [_ Rx]. assert (A : real 65536 (open_a (n_sh x) - v) = rval x - M) by (rewrite <- Rx; unfold M, real; rewrite minus_IZR; field). split; [exact A|]. rewrite <- A. unfold real. rewrite minus_IZR.
      assert (Ox : In (open_a (n_sh x)) (reveals xs)) by (now apply (in_map (fun x => open_a (n_sh x)))). pose proof (Gv _ Ox) as G1. pose proof (DI v (open_a (n_sh x)) ltac:(rewrite <- Ex0; now apply (in_map (fun x => open_a (n_sh x)))) Ox) as G2. apply IZR_le in G1, G2. rewrite minus_IZR in G2. lra. }
    assert (e01 : forall x, In x xs -> 0 <= e x <= 1). { intros x Ix. destruct (Rl x Ix) as [_ B]. unfold e. pose proof (exp_pos (rval x - M)). split; [lra|]. rewrite <- exp_0. apply exp_mono. lra. }
    eapply yo_bind.
    { eapply (yo_map _ _ _ (fun x z => exists q, In x xs /\ holds n 65536 q z /\ Rabs (real 65536 q - e x) <= e x * (79 / 10000 * IZR E) + rest E)); [exact LG|]. intros x l [Ix Hl]. destruct (Rl x Ix) as [A B]. eapply yo_weaken; [apply (exp_rest n pr Hn HV T E (open_a (n_sh x) - v) l HE HT Hl); rewrite A; exact B|]. intros z (q & Hq & Bq). exists q. rewrite A in Bq. split; [exact Ix|]. split; [exact Hq|exact Bq]. }
    intros ns Hns. apply with_results in Hns. destruct Hns as (ps & Eps & Hns). set (S0 := total (map e xs)). set (S1 := real 65536 (zsum (map snd ps))).
    assert (Lps : length ps = length xs) by (rewrite <- Eps; now rewrite map_length).
    assert (Hns2 : Forall2 (fun p z => holds n 65536 (snd p) z /\ Rabs (real 65536 (snd p) - e (fst p)) <= e (fst p) * (79 / 10000 * IZR E) + rest E) ps ns) by (eapply related; [|exact Hns]; intros p z H; apply H).
    pose proof (sum_near n e _ _ ps ns Hns2) as BS. rewrite Eps, Lps in BS. fold S0 S1 m in BS.
    assert (HS0 : 1 <= S0 <= m).
    { split.
      - replace 1 with (e x0). + apply total_ge; [now apply in_map|]. intros w Iw. apply in_map_iff in Iw. destruct Iw as (x & <- & Ix). apply (e01 x Ix). + rewrite Forall_forall in Fr. destruct (Fr x0 Ix0) as [_ Rx]. unfold e, M. rewrite <- Rx, Ex0, Rminus_diag_eq by reflexivity. apply exp_0.
      - pose proof (total_bounds (map e xs) 0 1) as TB. rewrite map_length in TB. fold S0 m in TB. destruct TB as [_ TB]; [|lra]. intros w Iw. apply in_map_iff in Iw. destruct Iw as (x & <- & Ix). apply (e01 x Ix). }
    destruct (log_entry E m S0 S1 0 HE Hm HS0 BS) as [B1 _].
    assert (Hsum : holds n 65536 (zsum (map snd ps)) (sum_num ns)).
    { eapply (holds_bound n Hn 65536 T ltac:(lia) HT _ _ 103).
      - apply (sum_num_ok n). + destruct ps; [cbn in Lps; lia|discriminate]. + clear - Hns2. induction Hns2 as [|p z ps ns [[H _] _] _ IH]; [constructor|]. cbn [map]. constructor; [exact H|exact IH].
      - fold S1. rewrite Rabs_right; lra.
      - rewrite R63. lra. }
    assert (LR : log_range E S1) by (destruct HE as [-> | ->]; [left|right]; split; try reflexivity; lra).
    eapply yo_bind; [apply (log_near T E _ _ HT Hsum); fold S1; exact LR|]. fold S1. intros zl (l & Hl & Bl). destruct (log_entry E m S0 S1 (real 65536 l) HE Hm HS0 BS) as [_ Le].
    assert (Bl' : Rabs (real 65536 l - ln S1) <= 2 / 100 * Rabs (ln S1) + 1 / 1000 + log_noise E S1). { pose proof (k_C74_range S1 ltac:(lra)) as C. replace (real 65536 l - ln S1) with ((real 65536 l - mpc_log default false S1) + (mpc_log default false S1 - ln S1)) by ring. eapply Rle_trans; [apply Rabs_triang|]. lra. }
    specialize (Le Bl'). assert (Bl2 : Rabs (real 65536 l) <= 1000). { pose proof (ln_crude S1 ltac:(lra)) as Lc. assert (N1 : log_noise E S1 <= 1) by (unfold log_noise; assert (IZR E * (15 / 1000 + S1 / 5000) <= 2 * (15 / 1000 + 103 / 5000)) by (apply Rmult_le_compat; lra); lra).
      assert (L1 : Rabs (ln S1) <= 103). { apply Rabs_le. split; [apply Rle_trans with (- / S1); [assert (/ S1 <= / (1 / 2)) by (apply Rinv_le_contravar; lra); lra|]; apply ln_ge; [lra|]; rewrite exp_Ropp; rewrite <- (Rinv_inv S1) at 2; apply Rinv_le_contravar; [apply Rinv_0_lt_compat; lra|]; pose proof (exp_ineq1_le (/ S1)); lra|apply ln_le'; [lra|]; pose proof (exp_ineq1_le 103); lra]. }
      apply Rabs_def2' in Bl'. pose proof (Rabs_def2' _ _ L1). apply Rabs_le. lra. }
    apply yo_ok. set (lim := 2 / 100 * ln m + 1 / 1000 + IZR E * (1 / 40 + m / 260)) in *. fold lim. clear Hns Hns2 Hsum Bl Bl' BS.
    assert (Ex : forall x, In x xs -> ln (exact_softmax (map rval xs) (rval x)) = rval x - M - ln S0).
    { intros x Ix. rewrite (softmax_shift _ _ M), map_map. change (total (map (fun x => exp (rval x - M)) xs)) with S0. unfold Rdiv. rewrite ln_mult, ln_exp, ln_Rinv by (try apply exp_pos; try (apply Rinv_0_lt_compat); lra). ring. }
    clearbody S0 S1. clear - Hn HT R63 LG Ex Rl Hl Le Bl2. set (ls := map (fun x => sub_num x (AEnc (fst r))) xs) in *. revert LG Ex. generalize (ln (exact_softmax (map rval xs) 0)). intros _.
    set (f := fun x => ln (exact_softmax (map rval xs) (rval x))). intros LG Ex. change (Forall2 (fun x z => n_sc z = 65536%Z /\ Rabs (rval z - f x) <= lim) xs (map (fun x => sub_num x (AEnc zl)) ls)). assert (Ex' : forall x, In x xs -> f x = rval x - M - ln S0) by exact Ex. clearbody f ls. clear Ex.
    match type of LG with Forall2 ?P _ _ => assert (G : forall l1 l2, Forall2 P l1 l2 -> Forall2 (fun x z => n_sc z = 65536%Z /\ Rabs (rval z - f x) <= lim) l1 (map (fun x => sub_num x (AEnc zl)) l2)) end; [|exact (G _ _ LG)].
    induction 1 as [|x y l1 l2 [Ix Hy] _ IH]; [constructor|]. cbn [map]. constructor; [|exact IH]. destruct (Rl x Ix) as [Rx Bx]. rewrite (Ex' x Ix).
    assert (Rz : real 65536 (open_a (n_sh x) - v - l) = rval x - M - real 65536 l) by (rewrite <- Rx; unfold real; rewrite (minus_IZR (_ - _)); field). apply Rabs_def2' in Bl2.
    assert (Hz : holds n 65536 (open_a (n_sh x) - v - l) (sub_num y (AEnc zl))) by (apply (holds_bound n Hn 65536 T ltac:(lia) HT _ _ 2000); [apply (sub_enc_ok n); [apply Hy|apply Hl]|rewrite Rz; apply Rabs_le; lra|rewrite R63; lra]).
    destruct (rval_holds n Hn 65536 _ _ ltac:(lia) Hz) as [Sz Ez]. split; [exact Sz|]. rewrite Ez, Rz. replace (rval x - M - real 65536 l - (rval x - M - ln S0)) with (- (real 65536 l - ln S0)) by ring. rewrite Rabs_Ropp. exact Le.
  Qed.
  (** C103: log_softmax of 2 to 100 numbers at most 256 apart in the default configuration. *)
  Lemma k_C103_log_softmax E me xs st zs : (E = 1 \/ E = 2)%Z -> vector n 65536 xs -> (2 <= length xs <= 100)%nat -> (forall x y, In x xs -> In y xs -> rval x - rval y <= 256) -> fst (log_softmax me (within E) 8 8 8 2 xs st) = Some zs ->
    fst (log_softmax me no_check 8 8 8 2 xs st) = Some zs /\ Forall2 (fun x z => n_sc z = 65536%Z /\ Rabs (rval z - ln (exact_softmax (map rval xs) (rval x))) <= 2 / 100 * ln (INR (length xs)) + 1 / 1000 + IZR E * (1 / 40 + INR (length xs) / 260)) xs zs.
  Proof using Hn HV Hlocal Hsqrt. intros HE V L Df Hz. split; [eapply weaker_fst; [apply log_softmaxv_weak|exact Hz]|]. exact (yo_some _ _ _ _ _ (log_soft_yo false E me xs HE ltac:(discriminate) V L Df) Hz). Qed.
  (** C103: with one party log_softmax needs no assumption on the truncations. *)
  Lemma k_C103_log_softmax_one me xs st : n = 1%nat -> vector n 65536 xs -> (2 <= length xs <= 100)%nat -> (forall x y, In x xs -> In y xs -> rval x - rval y <= 256) -> exists zs, fst (log_softmax me no_check 8 8 8 2 xs st) = Some zs /\
    Forall2 (fun x z => n_sc z = 65536%Z /\ Rabs (rval z - ln (exact_softmax (map rval xs) (rval x))) <= 2 / 100 * ln (INR (length xs)) + 26 / 1000 + INR (length xs) / 260) xs zs.
  Proof using Hn HV Hlocal Hsqrt.
    intros H1 V L Df. destruct (yo_true _ _ st (log_soft_yo true 1 me xs (or_introl eq_refl) (fun _ => H1) V L Df)) as (zs & Ez & Fz). exists zs. split; [eapply weaker_fst; [apply log_softmaxv_weak|exact Ez]|]. eapply related; [|exact Fz]. intros x z [Sz Bz]. split; [exact Sz|lra].
  Qed.
  (** C103: the log_softmax of a single number is exactly 0, whatever the number and the configuration. *)
  Lemma k_C103_single D p chk me d d' o k x st : (1 <= D < 2 ^ 63)%Z -> exists z, fst (log_softmaxv (pr := pr) D p local_bits log_steps cascade_steps isqrt me chk d d' o k [x] st) = Some [z] /\ sharing n z /\ n_sc z = D /\ rval z = 0.
  Proof using Hn HV.
    intros HD. unfold log_softmaxv, lift, bindo, bind, okr, ret. pose proof (v_zero n pr HV st) as Z0. destruct (next_zero pr st) as [z0 st']. cbn [fst] in *. eexists. split; [reflexivity|]. destruct Z0 as (L0 & F0 & O0). split; [split; [exact L0|split; [exact F0|cbn [n_sc]; lia]]|]. split; [reflexivity|].
    unfold rval. cbn [n_sh n_sc]. rewrite O0. unfold Rdiv. apply Rmult_0_l.
  Qed.
End Claims.

(** C103 refuted outside: with one party log(256) is given as -189 million, log(1/65536) as -9.6 instead of -11.1, log(0) as a number like any other, and log(-1) as -355 million. *)
Definition tiny : num := mkNum [1%Z] 65536.
Lemma k_C103_far_refuted : exists pr st, valid 1 pr /\
  (exists x z, sharing 1 x /\ n_sc x = 65536%Z /\ rval x = 256 /\ fst (logv (pr := pr) no_check 8 8 8 2 x st) = Some z /\ rval z < - 189000000) /\
  (exists x z, sharing 1 x /\ n_sc x = 65536%Z /\ rval x = 1 / 65536 /\ fst (logv (pr := pr) no_check 8 8 8 2 x st) = Some z /\ ln (rval x) + 14 / 10 < rval z) /\
  (exists x z, sharing 1 x /\ n_sc x = 65536%Z /\ rval x = 0 /\ fst (logv (pr := pr) no_check 8 8 8 2 x st) = Some z /\ -10 < rval z) /\
  (exists x z, sharing 1 x /\ n_sc x = 65536%Z /\ rval x = -1 /\ fst (logv (pr := pr) no_check 8 8 8 2 x st) = Some z /\ rval z < - 355000000).
Proof.
  exists alone, tt. split; [exact alone_valid|]. split; [|split; [|split]].
  - destruct (number_ok 256 ltac:(lia)) as (A & B & C). destruct (run_gives 256 (logv (pr := alone) no_check 8 8 8 2 (number 256)) (-12426585618138) ltac:(vm_compute; reflexivity) ltac:(lia)) as (z & Z1 & Z2). exists (number 256), z. rewrite Z2. repeat (split; [assumption|]). lra.
  - destruct (run_gives 1 (logv (pr := alone) no_check 8 8 8 2 tiny) (-631436) ltac:(vm_compute; reflexivity) ltac:(lia)) as (z & Z1 & Z2). exists tiny, z. rewrite Z2. assert (I : in64 1) by (unfold in64, H63; lia).
    assert (Rt : rval tiny = 1 / 65536) by (unfold rval, tiny; cbn [n_sh n_sc]; unfold open_a; cbn [fold_left]; unfold wadd; rewrite Z.add_0_l, wrap_id by exact I; lra). split; [split; [reflexivity|split; [constructor; [exact I|constructor]|reflexivity]]|]. split; [reflexivity|]. split; [exact Rt|]. split; [exact Z1|]. rewrite Rt.
    assert (1 / 65536 <= exp (- (1108 / 100))); [|pose proof (ln_le' (- (1108 / 100)) (1 / 65536) ltac:(lra) ltac:(assumption)); lra]. apply (e_above 14 (ineg (ifrac 1108 100)) (ifrac 1 65536)); [vm_compute; reflexivity|apply e_neg; now apply (e_frac 1108 100)|now apply (e_frac 1 65536)].
  - destruct (number_ok 0 ltac:(lia)) as (A & B & C). destruct (run_gives 0 (logv (pr := alone) no_check 8 8 8 2 (number 0)) (-640064) ltac:(vm_compute; reflexivity) ltac:(lia)) as (z & Z1 & Z2). exists (number 0), z. rewrite Z2. repeat (split; [assumption|]). lra.
  - destruct (number_ok (-1) ltac:(lia)) as (A & B & C). destruct (run_gives (-1) (logv (pr := alone) no_check 8 8 8 2 (number (-1))) (-23294030106722) ltac:(vm_compute; reflexivity) ltac:(lia)) as (z & Z1 & Z2). exists (number (-1)), z. rewrite Z2. repeat (split; [assumption|]). lra.
Qed.

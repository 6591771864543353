(** Proofs of C98: softmax on shares, and a sharper bound for the exponential of a negative number. *)
Require Import ZArith QArith List Bool Lia Reals Lra.
From Verif Require Import Approx Approx_claims Approxfn_claims Approxlog_claims Approxsoft_claims.
From Verif Require Import Ring64 Encoder Arith Arith_proofs Beaver Trunc Provider Binary Binary_proofs Compare Compare_proofs Compare_claims Maximum Maximum_proofs Maximum_claims Regular Regular_proofs Regular_claims Shareapprox Shareapprox_proofs Shareapprox_claims Sharesoft.
Import ListNotations.
Open Scope R_scope.

(** ** The exponential of a negative number *)
(** one squaring: the error in proportion to the number grows as before, the rest by one unit only *)
Lemma damped a F c h : 0 <= a <= 1 -> 1 <= F -> 0 < h -> 0 <= c -> c * h <= 1 ->
  (F * (a + (1 - a) * (c * h))) * (F * (a + (1 - a) * (c * h))) - a * a + h <= a * a * (F * F * (1 + h) - 1) + (1 - a * a) * ((c + 1) * h * (F * F * (1 + h))).
Proof.
  intros Ha HF Hh Hc Hch. assert (Id : a * a * (F * F * (1 + h) - 1) + (1 - a * a) * ((c + 1) * h * (F * F * (1 + h))) - ((F * (a + (1 - a) * (c * h))) * (F * (a + (1 - a) * (c * h))) - a * a + h) =
    (F * F - 1) * h + F * F * (c * h * ((1 - a) * (1 - a)) * (1 - c * h) + (c + 1) * (h * h) * (1 - a * a))) by ring.
  assert (0 <= (F * F - 1) * h) by (apply Rmult_le_pos; nra). assert (0 <= c * h) by (apply Rmult_le_pos; lra). assert (0 <= (1 - a) * (1 - a)) by (apply Rmult_le_pos; lra). assert (0 <= 1 - a * a) by nra.
  assert (0 <= c * h * ((1 - a) * (1 - a)) * (1 - c * h)) by (apply Rmult_le_pos; [apply Rmult_le_pos|]; lra). assert (0 <= (c + 1) * (h * h) * (1 - a * a)) by (apply Rmult_le_pos; [apply Rmult_le_pos; nra|lra]).
  assert (0 <= F * F * (c * h * ((1 - a) * (1 - a)) * (1 - c * h) + (c + 1) * (h * h) * (1 - a * a))) by (apply Rmult_le_pos; [nra|lra]). lra.
Qed.
Section Negative.
  Variable n : nat.
  Hypothesis Hn : (0 < n)%nat.
  Variable pr : provider.
  Hypothesis HV : valid n pr.
  Variables (s E : Z) (T : bool).
  Hypothesis HE : (1 <= E)%Z.
  Hypothesis Hs : (1 < s)%Z.
  Hypothesis HT : T = true -> n = 1%nat.
  Local Notation real := (real s).
  Local Notation eta := (eta s E).
  Local Notation factor := (factor s E).
  Local Notation holds := (holds n s).
  Definition damp (k : nat) (a : R) : R := a * (factor k - 1) + (1 - a) * (INR (S k) * eta * factor k).
  Lemma damp_top k a : 0 <= a <= 1 -> INR (S k) * eta <= 1 -> a + damp k a = factor k * (a + (1 - a) * (INR (S k) * eta)) /\ a + damp k a <= factor k.
  Proof.
    intros Ha Hk. pose proof (factor_ge s E HE Hs k) as F. assert (X : a + damp k a = factor k * (a + (1 - a) * (INR (S k) * eta))) by (unfold damp; ring). split; [exact X|]. rewrite X. rewrite <- (Rmult_1_r (factor k)) at 2. apply Rmult_le_compat_l; [lra|].
    assert ((1 - a) * (INR (S k) * eta) <= (1 - a) * 1) by (apply Rmult_le_compat_l; lra). lra.
  Qed.
  Lemma damp_pos k a : 0 <= a <= 1 -> 0 <= damp k a.
  Proof.
    intros Ha. pose proof (factor_ge s E HE Hs k) as F. pose proof (eta_pos s E HE Hs) as Ep. unfold damp. pose proof (pos_INR (S k)). assert (0 <= INR (S k) * eta * factor k) by (apply Rmult_le_pos; [apply Rmult_le_pos|]; lra).
    assert (0 <= a * (factor k - 1)) by (apply Rmult_le_pos; lra). assert (0 <= (1 - a) * (INR (S k) * eta * factor k)) by (apply Rmult_le_pos; lra). lra.
  Qed.
  Lemma small_squares k : forall j v x a, 0 <= a <= 1 -> INR (S (j + k)) * eta <= 1 -> holds v x -> Rabs (real v - a) <= damp j a -> IZR s * IZR s * factor (j + k) < IZR H63 ->
    yo T (repeatv k (squarev (pr := pr) (within E)) x) (fun z => exists q, holds q z /\ Rabs (real q - squares k a) <= damp (j + k) (squares k a)).
  Proof.
    induction k as [|k IH]; intros j v x a Ha Hj Hx Bv Hf.
    - cbn [repeatv squares Nat.iter nat_rect]. rewrite Nat.add_0_r. apply yo_ok. exists v. now split.
    - cbn [repeatv]. pose proof (eta_pos s E HE Hs) as Ep. pose proof (s_pos s Hs) as Sp. assert (Hj0 : INR (S j) * eta <= 1). { eapply Rle_trans; [|exact Hj]. apply Rmult_le_compat_r; [lra|]. apply le_INR. lia. }
      destruct (damp_top j a Ha Hj0) as [D1 D2]. pose proof (damp_pos j a Ha) as D0. pose proof (factor_ge s E HE Hs j) as F1.
      assert (Bv' : Rabs (real v) <= factor j). { replace (real v) with ((real v - a) + a) by ring. eapply Rle_trans; [apply Rabs_triang|]. rewrite (Rabs_right a) by lra. lra. }
      assert (FF : factor j * factor j <= factor (j + S k)). { eapply Rle_trans; [|apply (factor_mono s E HE Hs (S j)); lia]. cbn [Shareapprox_proofs.factor]. rewrite <- (Rmult_1_r (factor j * factor j)) at 1. apply Rmult_le_compat_l; nra. }
      eapply yo_bind; [apply (square_real n Hn pr HV s E T HE Hs HT v x Hx); eapply (real_product n Hn s T Hs HT); [exact Bv'|exact Bv'|]; eapply Rle_lt_trans; [|exact Hf]; apply Rmult_le_compat_l; [nra|exact FF]|]. intros y (q & Hq & Bq).
      rewrite <- Nat.add_succ_comm in *. replace (squares (S k) a) with (squares k (a * a)) by (now rewrite squares_out, squares_S). apply (IH (S j) q y (a * a)); [nra|exact Hj|exact Hq| |exact Hf].
      replace (real q - a * a) with ((real q - real v * real v) + (real v * real v - a * a)) by ring. eapply Rle_trans; [apply Rabs_triang|]. apply Rle_trans with (eta + ((a + damp j a) * (a + damp j a) - a * a)).
      + apply Rplus_le_compat; [exact Bq|]. replace (real v * real v - a * a) with ((real v - a) * ((real v - a) + 2 * a)) by ring. rewrite Rabs_mult. replace ((a + damp j a) * (a + damp j a) - a * a) with (damp j a * (damp j a + 2 * a)) by ring.
        apply Rmult_le_compat; [apply Rabs_pos|apply Rabs_pos|exact Bv|]. eapply Rle_trans; [apply Rabs_triang|]. rewrite (Rabs_right (2 * a)) by lra. lra.
      + rewrite D1. pose proof (damped a (factor j) (INR (S j)) eta Ha F1 Ep (pos_INR _) Hj0) as Da. unfold damp. cbn [Shareapprox_proofs.factor]. rewrite (S_INR (S j)). lra.
  Qed.
  Lemma exp_negative d v x : holds v x -> - 2 ^ d <= real v <= 0 -> INR (S d) * eta <= 1 -> IZR s * IZR s * factor d < IZR H63 ->
    yo T (expv (pr := pr) (within E) d x) (fun z => exists q, holds q z /\ Rabs (real q - exact_exp s d v) <= damp d (exact_exp s d v)).
  Proof.
    intros Hx Bx Hd Hf. unfold expv. assert (P2 : 0 < 2 ^ d) by (apply pow_lt; lra). pose proof (eta_pos s E HE Hs) as Ep. pose proof (s_pos s Hs) as Sp. pose proof (factor_ge s E HE Hs d) as Fd.
    eapply yo_bind; [apply (div_real n Hn pr HV s E T HE Hs HT v); [apply Z.pow_pos_nonneg; lia|exact Hx]|]. rewrite pow2_IZR. intros y (q & [Hq Iq] & Bq).
    set (a := 1 + real v / 2 ^ d). assert (Ha : 0 <= a <= 1).
    { assert (Id : real v / 2 ^ d * 2 ^ d = real v) by (field; lra). unfold a. split; apply (Rmult_le_reg_r (2 ^ d)); lra. }
    assert (R1 : real (q + 1 * s) = 1 + real q) by (unfold Shareapprox_proofs.real; rewrite plus_IZR, Z.mul_1_l; field; lra).
    assert (B0 : Rabs (real (q + 1 * s) - a) <= eta). { rewrite R1. unfold a. replace (1 + real q - (1 + real v / 2 ^ d)) with (real q - real v / 2 ^ d) by ring. exact Bq. }
    apply (small_squares d 0 (q + 1 * s) _ a Ha Hd).
    - eapply (holds_bound n Hn s T Hs HT); [apply (add_int_ok n Hn); exact Hq| |].
      + replace (real (q + 1 * s)) with ((real (q + 1 * s) - a) + a) by ring. eapply Rle_trans; [apply Rabs_triang|]. rewrite (Rabs_right a) by lra. apply Rplus_le_compat; [exact B0|apply Ha].
      + eapply Rle_lt_trans; [|exact Hf]. assert (F0 : 1 + eta <= factor d) by (apply (factor_mono s E HE Hs 0 d); lia). assert (2 <= IZR s) by (apply (IZR_le 2); lia). rewrite Rmult_assoc. apply Rmult_le_compat_l; [lra|]. nra.
    - eapply Rle_trans; [exact B0|]. unfold damp. cbn [Shareapprox_proofs.factor INR]. assert (0 <= (1 - a) * (eta * eta)) by (apply Rmult_le_pos; nra). lra.
    - exact Hf.
  Qed.
End Negative.
(** the largest value of x^2 e^x for negative x is 4 / e^2 *)
Lemma square_exp x : x <= 0 -> exp x * (x * x) <= 611 / 1000.
Proof.
  intros H. destruct (Req_dec x 0) as [->|N]; [lra|]. pose proof (exp_hyperbola (- x / 4) ltac:(lra)) as Y. replace (1 - 2 * (- x / 4)) with (x / 2 + 1) in Y by field. rewrite exp_plus in Y.
  assert (E1 : 256 / 100 <= exp 1). { eapply Rle_trans; [|apply (approx_le_exp 3 1 ltac:(cbn; lra))]. rewrite exp_approx_power. cbn [pow Nat.pow Nat.mul Nat.add]. lra. }
  replace (exp x) with (exp (x / 2) * exp (x / 2)) by (rewrite <- exp_plus; f_equal; field). pose proof (exp_pos (x / 2)) as P. set (t := exp (x / 2)) in *. assert (XT : 0 <= - x * t) by (apply Rmult_le_pos; lra).
  assert (B : - x * t <= 25 / 32). { apply (Rmult_le_reg_r (256 / 100)); [lra|]. apply Rle_trans with (- x * t * exp 1); [apply Rmult_le_compat_l; [exact XT|exact E1]|lra]. }
  replace (t * t * (x * x)) with ((- x * t) * (- x * t)) by ring. apply Rle_trans with (25 / 32 * (25 / 32)); [apply Rmult_le_compat; lra|lra].
Qed.

Section Claims.
  Variables (n : nat) (pr : provider).
  Hypothesis Hn : (0 < n)%nat.
  Hypothesis HV : valid n pr.
  (** C79: the exponential of a negative number: the rounding errors, too, are in proportion to the result, except for d + 1 units. *)
  Lemma k_C79_negative s E d x st z : (1 <= E)%Z -> (1 < s)%Z -> ((Z.of_nat d + 1) * E <= s)%Z -> sharing n x -> n_sc x = s -> - 2 ^ d <= rval x <= 0 -> IZR s * IZR s * (1 + exp_growth s E d) < 2 ^ 63 ->
    fst (expv (pr := pr) (within E) d x st) = Some z ->
    fst (expv (pr := pr) no_check d x st) = Some z /\ n_sc z = s /\
    let a := limit_exp d (rval x) in Rabs (rval z - a) <= a * exp_growth s E d + (1 - a) * (INR (S d) * (IZR E / IZR s) * (1 + exp_growth s E d)).
  Proof using Hn HV.
    intros HE Hs Hd Hx Sx Bx Hf Hz. split; [eapply weaker_fst; [apply expv_weak|exact Hz]|]. destruct (holds_rval n s x Hx Sx) as [Hv Rv]. set (v := open_a (n_sh x)) in *.
    assert (F : 1 + exp_growth s E d = factor s E d) by (rewrite growth_factor; ring). pose proof (s_pos s Hs) as Sp.
    assert (K : INR (S d) * eta s E <= 1).
    { unfold eta. apply IZR_le in Hd. rewrite mult_IZR, plus_IZR, <- INR_IZR_INZ, <- S_INR in Hd. apply (Rmult_le_reg_r (IZR s)); [exact Sp|]. replace (INR (S d) * (IZR E / IZR s) * IZR s) with (INR (S d) * IZR E) by (field; lra). lra. }
    assert (R63 : 2 ^ 63 = IZR H63) by (change (IZR H63) with (IZR 9223372036854775808); lra). rewrite F, R63 in Hf.
    destruct (yo_some _ _ _ _ _ (exp_negative n Hn pr HV s E false HE Hs ltac:(discriminate) d v x Hv ltac:(now rewrite Rv) K Hf) Hz) as (q & Hq & Bq). destruct (rval_holds n Hn s q z Hs Hq) as [Sz Rz]. split; [exact Sz|]. cbv zeta.
    unfold exact_exp in Bq. rewrite Rv, <- limit_is in Bq. rewrite Rz, F, growth_factor. exact Bq.
  Qed.
  (** the default configuration *)
  Definition rest (E : Z) : R := 24 / 10000 + 14 / 100000 * IZR E.
  Lemma exp_rest T E v x : (E = 1 \/ E = 2)%Z -> (T = true -> n = 1%nat) -> holds n 65536 v x -> -256 <= real 65536 v <= 0 ->
    yo T (expv (pr := pr) (within E) 8 x) (fun z => exists q, holds n 65536 q z /\ Rabs (real 65536 q - exp (real 65536 v)) <= exp (real 65536 v) * (79 / 10000 * IZR E) + rest E).
  Proof using Hn HV.
    intros HE HT Hx Bx. assert (HE' : (1 <= E)%Z) by lia. assert (E12 : 1 <= IZR E <= 2) by (destruct HE as [-> | ->]; lra). destruct (default_growth E HE) as [G _]. rewrite growth_factor in G. assert (R8 : 2 ^ 8 = 256) by lra.
    pose proof (factor_ge 65536 E HE' ltac:(lia) 8) as F1. assert (I9 : INR 9 = 9) by (cbn; lra).
    eapply yo_weaken; [apply (exp_negative n Hn pr HV 65536 E T HE' ltac:(lia) HT 8 v x Hx)|].
    - rewrite R8. lra.
    - rewrite I9. unfold eta. lra.
    - change (IZR H63) with (IZR 9223372036854775808). apply Rle_lt_trans with (65536 * 65536 * (1 + 79 / 10000 * 2)); [apply Rmult_le_compat_l; lra|lra].
    - intros z (q & Hq & Bq). exists q. split; [exact Hq|]. unfold damp, exact_exp in Bq. rewrite I9 in Bq. set (y := real 65536 v) in *. set (a := exp_approx 8 y) in *.
      assert (A0 : 0 <= a) by (unfold a; rewrite exp_approx_power; apply pow_even_nonneg; lia). pose proof (approx_le_exp 8 y ltac:(lra)) as A1. pose proof (approx_ge_exp 8 y ltac:(lia)) as A2. rewrite R8 in A2. fold a in A1, A2. pose proof (square_exp y ltac:(lra)) as A3. pose proof (exp_pos y) as P.
      replace (real 65536 q - exp y) with ((real 65536 q - a) + - (exp y - a)) by ring. eapply Rle_trans; [apply Rabs_triang|]. rewrite Rabs_Ropp, (Rabs_right (exp y - a)) by lra.
      assert (B1 : a * (factor 65536 E 8 - 1) <= exp y * (79 / 10000 * IZR E)) by (apply Rmult_le_compat; lra).
      assert (B2 : (1 - a) * (9 * eta 65536 E * factor 65536 E 8) <= 14 / 100000 * IZR E).
      { apply Rle_trans with (1 * (9 * eta 65536 E * (1 + 79 / 10000 * 2))); [|unfold eta; lra]. assert (0 < eta 65536 E) by (apply eta_pos; lia). assert (0 <= 9 * eta 65536 E * factor 65536 E 8) by (apply Rmult_le_pos; lra). apply Rle_trans with (1 * (9 * eta 65536 E * factor 65536 E 8)); [apply Rmult_le_compat_r; lra|]. rewrite !Rmult_1_l. apply Rmult_le_compat_l; lra. }
      unfold rest. assert (exp y - a <= exp y * (y * y) / 256) by lra. lra.
  Qed.
  Lemma recip_pos T E v x : (E = 1 \/ E = 2)%Z -> (T = true -> n = 1%nat) -> holds n 65536 v x -> let X := real 65536 v in 1 / 100 <= X <= 30 ->
    yo T (reciprocal_posv (pr := pr) (within E) 8 10 x) (fun z => exists u, holds n 65536 u z /\ Rabs (1 - X * real 65536 u) <= X * (X + 1) * (IZR E / 65536) + 1 / 500).
  Proof using Hn HV.
    intros HE HT Hx X HX. destruct (first_estimate n Hn E X HE HX) as (c & nu & Hq & Hnu & C1 & C2 & C3). assert (HE' : (1 <= E)%Z) by lia. assert (E12 : 1 <= IZR E <= 2) by (destruct HE as [-> | ->]; lra). destruct (default_growth E HE) as [G8 _]. rewrite growth_factor in G8. pose proof (factor_ge 65536 E HE' ltac:(lia) 8) as F1.
    assert (R8 : 2 ^ 8 = 256) by lra. assert (IX : / X <= 100). { replace 100 with (/ (1 / 100)) by field. apply Rinv_le_contravar; lra. } assert (IX0 : 0 < / X) by (apply Rinv_0_lt_compat; lra).
    assert (C01 : 0 <= IZR c <= 1000000) by (split; [apply (IZR_le 0)|apply (IZR_le _ 1000000)]; lia). assert (R63 : IZR H63 = 9223372036854775808) by reflexivity.
    assert (RW : real 65536 (65536 - v * 2) = 1 - 2 * X) by (unfold X, real; rewrite minus_IZR, mult_IZR; field).
    assert (LM : Rabs (limit_exp 8 (1 - 2 * X)) <= 3).
    { rewrite limit_is. assert (0 <= exp_approx 8 (1 - 2 * X)) by (rewrite exp_approx_power; apply pow_even_nonneg; lia). rewrite Rabs_right by lra. pose proof (approx_le_exp 8 (1 - 2 * X) ltac:(lra)). pose proof exp_le_3. assert (exp (1 - 2 * X) <= exp 1) by (apply exp_mono; lra). lra. }
    eapply yo_weaken; [apply (reciprocal_pos_real n Hn pr HV 65536 E T HE' ltac:(lia) HT 8 10 v x (IZR c / 1000000) Hx)|].
    - apply (bound64 n 65536 Hn ltac:(lia) _ 60); [rewrite RW; apply Rabs_le; lra|lra].
    - split.
      + unfold exact_exp. rewrite RW, <- limit_is, R63. apply Rle_lt_trans with (65536 * 65536 * (3 * 2)); [|lra]. apply Rmult_le_compat_l; [lra|]. unfold top1. apply Rmult_le_compat; [eapply Rle_trans; [|apply Rmax_l]; lra|lra|apply Rmax_lub; lra|lra].
      + rewrite RW, R8, R63. assert (Rabs (1 - 2 * X) <= 60) by (apply Rabs_le; lra). unfold eta. lra.
    - fold X. split; [lra|]. split; [unfold Rdiv; lra|]. rewrite R63. unfold eta. replace ((4 / (X * X) + IZR E / 65536) * X) with (4 * / X + IZR E / 65536 * X) by (field; lra). assert (IZR E / 65536 * X <= 2 / 65536 * 30) by (apply Rmult_le_compat; lra). lra.
    - fold X. rewrite <- limit_is. exact Hq.
    - lra.
    - fold X. unfold refine, noise, eta. apply IZR_le in C3. rewrite plus_IZR, !mult_IZR in C3. assert (X * (X + 1) * (IZR E / 65536) <= IZR nu / 1000000). { eapply Rle_trans; [|exact Hnu]. assert (0 < X * (X + 1)) by nra. nra. } nra.
    - fold X. intros z (u & Hu & B). exists u. split; [exact Hu|]. eapply Rle_trans; [exact B|]. change (refine 65536 E X) with (newton 65536 E X). apply (chain_ok E X _ c nu (chain nu 9 c) HE); try lra; [reflexivity|exact C1].
  Qed.

  (** ** Softmax *)
  (** one entry: e of S exactly, N of S' as computed, r the computed reciprocal of S', z the computed product N r *)
  Lemma soft_entry E m e S0 N S1 r z : (E = 1 \/ E = 2)%Z -> 2 <= m <= 29 -> 0 <= e <= 1 -> 1 <= S0 <= m -> Rabs (N - e) <= e * (79 / 10000 * IZR E) + rest E -> Rabs (S1 - S0) <= S0 * (79 / 10000 * IZR E) + m * rest E ->
    Rabs (1 - S1 * r) <= S1 * (S1 + 1) * (IZR E / 65536) + 1 / 500 -> Rabs (z - N * r) <= IZR E / 65536 -> Rabs (z - e / S0) <= (1 / 40 + m / 300) * IZR E.
  Proof using.
    clear Hn HV. intros HE Hm He HS0 BN BS Br Bz. unfold rest in *. set (G := 79 / 10000 * IZR E) in *. set (k := 24 / 10000 + 14 / 100000 * IZR E) in *.
    assert (Nm : 0 < G /\ 0 < k /\ G <= 158 / 10000 /\ k <= 268 / 100000) by (unfold G, k; destruct HE as [-> | ->]; lra). destruct Nm as (G0 & k0 & G1 & k1).
    assert (mk : m * k <= 29 * k) by (apply Rmult_le_compat_r; lra). apply Rabs_def2' in BN. apply Rabs_def2' in BS.
    assert (L : 1 - G - 29 * k <= S1). { assert (S0 * (1 - G) >= 1 * (1 - G)) by (apply Rle_ge, Rmult_le_compat_r; lra). lra. }
    assert (U : S1 <= m * (1 + G + k)). { assert (S0 * (1 + G) <= m * (1 + G)) by (apply Rmult_le_compat_r; lra). lra. }
    assert (eG : e * G <= G) by (assert (e * G <= 1 * G) by (apply Rmult_le_compat_r; lra); lra).
    assert (S1p : 9 / 10 <= S1) by lra. assert (I1 : 0 < / S1) by (apply Rinv_0_lt_compat; lra).
    (* the quotient without rounding *)
    set (del := N / S1 - e / S0). assert (Bd : Rabs del <= (2 * G + k * (1 + m)) / S1).
    { assert (I0 : 0 < / S0) by (apply Rinv_0_lt_compat; lra). replace del with ((N - e) * / S1 - (e * / S0) * ((S1 - S0) * / S1)) by (unfold del; field; lra).
      assert (q0 : 0 <= e * / S0 <= 1). { split; [apply Rmult_le_pos; lra|]. apply (Rmult_le_reg_r S0); [lra|]. replace (e * / S0 * S0) with e by (field; lra). lra. }
      assert (q1 : e * / S0 * S0 = e) by (field; lra).
      eapply Rle_trans; [apply Rabs_triang|]. rewrite Rabs_Ropp, (Rabs_mult (N - e)), (Rabs_mult (e * / S0)), (Rabs_mult (S1 - S0)), (Rabs_right (/ S1)), (Rabs_right (e * / S0)) by lra.
      assert (A1 : Rabs (N - e) <= G + k) by (apply Rabs_le; lra). assert (A2 : Rabs (S1 - S0) <= S0 * G + m * k) by (apply Rabs_le; lra).
      assert (A3 : Rabs (N - e) * / S1 <= (G + k) * / S1) by (apply Rmult_le_compat_r; lra).
      assert (A4 : e * / S0 * (Rabs (S1 - S0) * / S1) <= (e * / S0 * (S0 * G + m * k)) * / S1). { rewrite <- Rmult_assoc. apply Rmult_le_compat_r; [lra|]. apply Rmult_le_compat_l; [lra|exact A2]. }
      assert (A5 : e * / S0 * (S0 * G + m * k) <= G + m * k). { replace (e * / S0 * (S0 * G + m * k)) with (e * G + e * / S0 * (m * k)) by (field; lra). assert (e * / S0 * (m * k) <= 1 * (m * k)) by (apply Rmult_le_compat_r; [apply Rmult_le_pos; lra|lra]). lra. }
      assert (A6 : (e * / S0 * (S0 * G + m * k)) * / S1 <= (G + m * k) * / S1) by (apply Rmult_le_compat_r; lra). unfold Rdiv. lra. }
    assert (NS : Rabs (N * / S1) <= 9 / 8).
    { rewrite Rabs_mult, (Rabs_right (/ S1)) by lra. assert (Rabs N <= 1 + G + k) by (apply Rabs_le; lra). apply (Rmult_le_reg_r S1); [lra|]. replace (Rabs N * / S1 * S1) with (Rabs N) by (field; lra). lra. }
    set (rho := S1 * (S1 + 1) * (IZR E / 65536) + 1 / 500) in *.
    assert (Br' : rho <= m * (4747 / 10000000) * IZR E + 1 / 500).
    { unfold rho. assert (P : S1 * (S1 + 1) <= m * (1 + G + k) * (29 * (1 + G + k) + 1)). { assert (m * (1 + G + k) <= 29 * (1 + G + k)) by (apply Rmult_le_compat_r; lra). apply Rmult_le_compat; lra. }
      assert (Q : (1 + G + k) * (29 * (1 + G + k) + 1) <= 31109 / 1000) by (assert (1 + G + k <= 1 + 158 / 10000 + 268 / 100000) by lra; assert ((1 + G + k) * (29 * (1 + G + k) + 1) <= (1 + 158 / 10000 + 268 / 100000) * (29 * (1 + 158 / 10000 + 268 / 100000) + 1)) by (apply Rmult_le_compat; lra); lra).
      assert (Q' : m * ((1 + G + k) * (29 * (1 + G + k) + 1)) <= m * (31109 / 1000)) by (apply Rmult_le_compat_l; lra). assert (E0 : 0 < IZR E) by (destruct HE as [-> | ->]; lra).
      assert (S1 * (S1 + 1) * (IZR E / 65536) <= m * (31109 / 1000) * (IZR E / 65536)) by (apply Rmult_le_compat_r; lra). assert (0 <= m * IZR E) by (apply Rmult_le_pos; lra). lra. }
    assert (rho0 : 0 <= rho) by (eapply Rle_trans; [apply Rabs_pos|exact Br]).
    (* all together *)
    replace (z - e / S0) with ((z - N * r) + (del + - (N * / S1 * (1 - S1 * r)))) by (unfold del; field; lra). eapply Rle_trans; [apply Rabs_triang|]. eapply Rle_trans; [apply Rplus_le_compat; [exact Bz|eapply Rle_trans; [apply Rabs_triang|apply Rplus_le_compat; [exact Bd|rewrite Rabs_Ropp, Rabs_mult; apply Rmult_le_compat; [apply Rabs_pos|apply Rabs_pos|exact NS|exact Br]]]]|].
    assert (Bq : (2 * G + k * (1 + m)) / S1 <= (2 * G + k * (1 + m)) / (1 - G - 29 * k)). { unfold Rdiv. apply Rmult_le_compat_l; [assert (0 <= k * (1 + m)) by (apply Rmult_le_pos; lra); lra|]. apply Rinv_le_contravar; lra. }
    eapply Rle_trans; [apply Rplus_le_compat_l, Rplus_le_compat; [exact Bq|apply Rmult_le_compat_l; [lra|exact Br']]|]. unfold G, k. destruct HE as [-> | ->].
    - replace (1 - 79 / 10000 * 1 - 29 * (24 / 10000 + 14 / 100000 * 1)) with (91844 / 100000) by lra. replace ((2 * (79 / 10000 * 1) + (24 / 10000 + 14 / 100000 * 1) * (1 + m)) / (91844 / 100000)) with ((2 * (79 / 10000 * 1) + (24 / 10000 + 14 / 100000 * 1) * (1 + m)) * (100000 / 91844)) by (field). lra.
    - replace (1 - 79 / 10000 * 2 - 29 * (24 / 10000 + 14 / 100000 * 2)) with (90648 / 100000) by lra. replace ((2 * (79 / 10000 * 2) + (24 / 10000 + 14 / 100000 * 2) * (1 + m)) / (90648 / 100000)) with ((2 * (79 / 10000 * 2) + (24 / 10000 + 14 / 100000 * 2) * (1 + m)) * (100000 / 90648)) by (field). lra.
  Qed.
  Lemma related {A B} (P Q : A -> B -> Prop) : (forall a b, P a b -> Q a b) -> forall x y, Forall2 P x y -> Forall2 Q x y.
  Proof using. clear. intros H. induction 1; constructor; auto. Qed.
  Lemma with_results {A B C} (P : A -> B -> C -> Prop) xs zs : Forall2 (fun x z => exists q, P x q z) xs zs -> exists ps, map fst ps = xs /\ Forall2 (fun p z => P (fst p) (snd p) z) ps zs.
  Proof using.
    clear. induction 1 as [|x z xs zs (q & Hq) _ (ps & <- & IH)]; [exists []; split; [reflexivity|constructor]|]. exists ((x, q) :: ps). split; [reflexivity|]. constructor; [exact Hq|exact IH].
  Qed.
  Lemma sum_near (e : num -> R) (G k : R) ps (zs : list num) : Forall2 (fun p z => holds n 65536 (snd p) z /\ Rabs (real 65536 (snd p) - e (fst p)) <= e (fst p) * G + k) ps zs ->
    Rabs (real 65536 (zsum (map snd ps)) - total (map e (map fst ps))) <= total (map e (map fst ps)) * G + INR (length ps) * k.
  Proof using.
    clear. induction 1 as [|p z ps zs [_ Hp] _ IH]; [cbn [map zsum fold_right total length INR]; unfold real; replace (IZR 0 / 65536 - 0) with 0 by lra; rewrite Rabs_R0; lra|].
    cbn [map total fold_right]. fold (total (map e (map fst ps))). change (length (p :: ps)) with (S (length ps)). rewrite S_INR. change (zsum (snd p :: map snd ps)) with (snd p + zsum (map snd ps))%Z.
    assert (A : real 65536 (snd p + zsum (map snd ps)) = real 65536 (snd p) + real 65536 (zsum (map snd ps))) by (unfold real; rewrite plus_IZR; field). rewrite A. apply Rabs_def2' in Hp. apply Rabs_def2' in IH. apply Rabs_le. lra.
  Qed.
  Lemma products_near (ps : list (num * Z)) (zs : list num) U h : Forall2 (fun p z => exists w, holds n 65536 w z /\ Rabs (real 65536 w - real 65536 (snd p) * U) <= h) ps zs ->
    Rabs (total (map rval zs) - real 65536 (zsum (map snd ps)) * U) <= INR (length ps) * h.
  Proof using Hn.
    induction 1 as [|p z ps zs (w & Hw & Bw) _ IH]; [cbn [map zsum fold_right total length INR]; unfold real; replace (0 - IZR 0 / 65536 * U) with 0 by lra; rewrite Rabs_R0; lra|].
    cbn [map total fold_right]. fold (total (map rval zs)). change (length (p :: ps)) with (S (length ps)). rewrite S_INR. change (zsum (snd p :: map snd ps)) with (snd p + zsum (map snd ps))%Z.
    assert (A : real 65536 (snd p + zsum (map snd ps)) = real 65536 (snd p) + real 65536 (zsum (map snd ps))) by (unfold real; rewrite plus_IZR; field). rewrite A. destruct (rval_holds n Hn 65536 w z ltac:(lia) Hw) as [_ ->]. apply Rabs_def2' in Bw. apply Rabs_def2' in IH. apply Rabs_le. lra.
  Qed.
  Variables (local_bits : run pr (list Z)) (log_steps cascade_steps isqrt : nat -> nat).
  Hypothesis Hlocal : forall st, let u := fst (local_bits st) in length u = n /\ Forall (fun z => 0 <= z < 65536)%Z u.
  Hypothesis Hsqrt : forall m, (2 <= m)%nat -> (1 <= isqrt m < m)%nat.
  Local Notation softmax := (softmaxv (pr := pr) 65536 16 local_bits log_steps cascade_steps isqrt).
  Ltac weakens := repeat match goal with
    | |- weaker (bindo _ _) (bindo _ _) => apply weaker_bind; [|intros ?]
    | |- weaker (mapO _ _) (mapO _ _) => apply weaker_map; intros ?
    | |- weaker (expv _ _ _) _ => apply expv_weak
    | |- weaker (reciprocal_posv _ _ _ _) _ => apply reciprocal_posv_weak
    | |- weaker (mulv _ _ _) _ => apply mulv_weak
    | |- weaker _ _ => apply weaker_refl
    end.
  Lemma softmaxv_weak me chk d k xs : weaker (softmax me chk d k xs) (softmax me no_check d k xs).
  Proof using.
    unfold softmaxv. destruct xs as [|x [|y q]]; weakens.
  Qed.
  Lemma soft_yo T E me xs : (E = 1 \/ E = 2)%Z -> (T = true -> n = 1%nat) -> vector n 65536 xs -> (2 <= length xs <= 29)%nat -> (forall x y, In x xs -> In y xs -> rval x - rval y <= 256) ->
    yo T (softmax me (within E) 8 10 xs) (fun zs => Forall2 (fun x z => n_sc z = 65536%Z /\ Rabs (rval z - exact_softmax (map rval xs) (rval x)) <= (1 / 40 + INR (length xs) / 300) * IZR E) xs zs /\
      Rabs (total (map rval zs) - 1) <= 1 / 500 + INR (length xs) * IZR E / 2000).
  Proof using Hn HV Hlocal Hsqrt.
    intros HE HT [Ne F] L Df. assert (HE' : (1 <= E)%Z) by lia. assert (E12 : 1 <= IZR E <= 2) by (destruct HE as [-> | ->]; lra). set (m := INR (length xs)). assert (Hm : 2 <= m <= 29) by (unfold m; split; [apply (le_INR 2)|replace 29 with (INR 29) by (cbn; lra); apply le_INR]; lia).
    assert (R63 : IZR H63 = 9223372036854775808) by reflexivity.
    assert (Fr : Forall (fun x => holds n 65536 (open_a (n_sh x)) x /\ real 65536 (open_a (n_sh x)) = rval x) xs) by (eapply Forall_impl; [|exact F]; intros x [Hx Sx]; now apply (holds_rval n)).
    assert (DI : forall a b, In a (reveals xs) -> In b (reveals xs) -> (a - b <= 16777216)%Z).
    { intros a b Ia Ib. unfold reveals in Ia, Ib. apply in_map_iff in Ia, Ib. destruct Ia as (x & <- & Ix), Ib as (y & <- & Iy). rewrite Forall_forall in Fr. destruct (Fr x Ix) as [_ Rx], (Fr y Iy) as [_ Ry]. pose proof (Df x y Ix Iy) as Dxy. rewrite <- Rx, <- Ry in Dxy. unfold real in Dxy. apply le_IZR. rewrite minus_IZR. lra. }
    assert (HF : differences_fit xs). { intros a b Ia Ib. pose proof (DI a b Ia Ib). pose proof (DI b a Ib Ia). unfold in64, H63. lia. }
    assert (SH : short n 65536 65536 xs). { unfold short, H63. destruct (Nat.eqb n 2); [rewrite Z.div_same by lia|]; lia. }
    unfold softmaxv. destruct xs as [|xa [|xb xr]]; [cbn in L; lia|cbn in L; lia|]. set (xs := xa :: xb :: xr) in *. clearbody xs. cbv zeta.
    eapply (yo_lift _ _ _ (fun r => exists v, greatest v (reveals xs) /\ nshare n v 65536 (fst r))).
    { intros st. assert (Hloc : yields local_bits (fun u => length u = n /\ Forall (fun z => 0 <= z < 65536)%Z u /\ True)) by (intros st0; destruct (Hlocal st0); auto).
      unfold short in SH. rewrite <- reveals_len in SH.
      destruct (max_dim_ok n Hn pr HV 65536 ltac:(lia) 16 ltac:(lia) eq_refl local_bits (fun _ => True) Hloc 65536 (or_intror eq_refl) (reveals xs) HF isqrt Hsqrt log_steps cascade_steps me (reveals xs) xs (reps n 65536 xs F _ (incl_refl _)) (reveals_ne xs Ne) SH st) as (k & Hk & M & Hv & _). eexists. split; [exact M|exact Hv]. }
    intros r (v & [Iv Gv] & Hv). set (M := real 65536 v). set (e x := exp (rval x - M)).
    unfold reveals in Iv. apply in_map_iff in Iv. destruct Iv as (x0 & Ex0 & Ix0).
    assert (LG : Forall2 (fun x l => In x xs /\ holds n 65536 (open_a (n_sh x) - v) l) xs (map (fun x => sub_num x (AEnc (fst r))) xs)).
    { assert (G : forall l, incl l xs -> Forall2 (fun x l => In x xs /\ holds n 65536 (open_a (n_sh x) - v) l) l (map (fun x => sub_num x (AEnc (fst r))) l)).
      { induction l as [|x l IH]; intros I; [constructor|]. cbn [map]. constructor; [|apply IH; intros y Y; apply I; now right]. assert (Ix : In x xs) by (apply I; now left). split; [exact Ix|]. rewrite Forall_forall in Fr. destruct (Fr x Ix) as [[Nx Bx] _]. split; [now apply (sub_enc_ok n)|].
        apply HF; [now apply (in_map (fun x => open_a (n_sh x)))|]. rewrite <- Ex0. now apply (in_map (fun x => open_a (n_sh x))). }
      apply G, incl_refl. }
    assert (Rl : forall x, In x xs -> real 65536 (open_a (n_sh x) - v) = rval x - M /\ -256 <= rval x - M <= 0).
    { intros x Ix. rewrite Forall_forall in Fr. destruct (Fr x Ix) as [_ Rx]. assert (A : real 65536 (open_a (n_sh x) - v) = rval x - M) by (rewrite <- Rx; unfold M, real; rewrite minus_IZR; field). split; [exact A|]. rewrite <- A. unfold real. rewrite minus_IZR.
      assert (Ox : In (open_a (n_sh x)) (reveals xs)) by (now apply (in_map (fun x => open_a (n_sh x)))). pose proof (Gv _ Ox) as G1. pose proof (DI v (open_a (n_sh x)) ltac:(rewrite <- Ex0; now apply (in_map (fun x => open_a (n_sh x)))) Ox) as G2. apply IZR_le in G1, G2. rewrite minus_IZR in G2. lra. }
    assert (e01 : forall x, In x xs -> 0 <= e x <= 1). { intros x Ix. destruct (Rl x Ix) as [_ B]. unfold e. pose proof (exp_pos (rval x - M)). split; [lra|]. rewrite <- exp_0. apply exp_mono. lra. }
    eapply yo_bind.
    { eapply (yo_map _ _ _ (fun x z => exists q, In x xs /\ holds n 65536 q z /\ Rabs (real 65536 q - e x) <= e x * (79 / 10000 * IZR E) + rest E)); [exact LG|]. intros x l [Ix Hl]. destruct (Rl x Ix) as [A B]. eapply yo_weaken; [apply (exp_rest T E (open_a (n_sh x) - v) l HE HT Hl); rewrite A; exact B|]. intros z (q & Hq & Bq). exists q. rewrite A in Bq. split; [exact Ix|]. split; [exact Hq|exact Bq]. }
    intros ns Hns. apply with_results in Hns. destruct Hns as (ps & Eps & Hns). set (S0 := total (map e xs)). set (S1 := real 65536 (zsum (map snd ps))).
    assert (Lps : length ps = length xs) by (rewrite <- Eps; now rewrite map_length).
    assert (Hns2 : Forall2 (fun p z => holds n 65536 (snd p) z /\ Rabs (real 65536 (snd p) - e (fst p)) <= e (fst p) * (79 / 10000 * IZR E) + rest E) ps ns) by (eapply related; [|exact Hns]; intros p z H; apply H).
    pose proof (sum_near e _ _ ps ns Hns2) as BS. rewrite Eps, Lps in BS. fold S0 S1 m in BS.
    assert (HS0 : 1 <= S0 <= m).
    { split.
      - replace 1 with (e x0). + apply total_ge; [now apply in_map|]. intros w Iw. apply in_map_iff in Iw. destruct Iw as (x & <- & Ix). apply (e01 x Ix). + rewrite Forall_forall in Fr. destruct (Fr x0 Ix0) as [_ Rx]. unfold e, M. rewrite <- Rx, Ex0, Rminus_diag_eq by reflexivity. apply exp_0.
      - pose proof (total_bounds (map e xs) 0 1) as TB. rewrite map_length in TB. fold S0 m in TB. destruct TB as [_ TB]; [|lra]. intros w Iw. apply in_map_iff in Iw. destruct Iw as (x & <- & Ix). apply (e01 x Ix). }
    assert (B1 : 9 / 10 <= S1 <= 30).
    { apply Rabs_def2' in BS. unfold rest in BS. assert (m * (24 / 10000 + 14 / 100000 * IZR E) <= 29 * (24 / 10000 + 14 / 100000 * 2)) by (apply Rmult_le_compat; lra). assert (S0 * (79 / 10000 * IZR E) <= S0 * (79 / 10000 * 2)) by (apply Rmult_le_compat_l; lra). lra. }
    assert (Hsum : holds n 65536 (zsum (map snd ps)) (sum_num ns)).
    { eapply (holds_bound n Hn 65536 T ltac:(lia) HT _ _ 30).
      - apply (sum_num_ok n). + destruct ps; [cbn in Lps; lia|discriminate]. + clear - Hns2. induction Hns2 as [|p z ps ns [[H _] _] _ IH]; [constructor|]. cbn [map]. constructor; [exact H|exact IH].
      - fold S1. rewrite Rabs_right; lra.
      - rewrite R63. lra. }
    eapply yo_bind; [apply (recip_pos T E _ _ HE HT Hsum); fold S1; lra|]. fold S1. intros inv (u & Hu & Bu). set (U := real 65536 u) in *.
    assert (RB : S1 * (S1 + 1) * (IZR E / 65536) + 1 / 500 <= 1 / 10). { assert (S1 * (S1 + 1) <= 30 * 31) by (apply Rmult_le_compat; lra). assert (S1 * (S1 + 1) * (IZR E / 65536) <= 30 * 31 * (2 / 65536)) by (apply Rmult_le_compat; nra). lra. }
    assert (BU : Rabs U <= 2). { apply Rabs_def2' in Bu. apply Rabs_le. split; apply (Rmult_le_reg_l S1); lra. }
    eapply yo_weaken.
    { eapply (yo_map _ _ _ (fun p z => exists w, (In (fst p) xs /\ Rabs (real 65536 (snd p) - e (fst p)) <= e (fst p) * (79 / 10000 * IZR E) + rest E) /\ holds n 65536 w z /\ Rabs (real 65536 w - real 65536 (snd p) * U) <= IZR E / 65536)); [exact Hns|].
      intros p y (Ip & Hy & By). eapply yo_weaken; [apply (mul_real n Hn pr HV 65536 E T HE' ltac:(lia) HT (snd p) u y inv Hy Hu)|].
      - apply (real_product n Hn 65536 T ltac:(lia) HT _ _ 2 2); [|exact BU|rewrite R63; lra]. pose proof (e01 _ Ip) as e1. unfold rest in By. apply Rabs_def2' in By. assert (e (fst p) * (79 / 10000 * IZR E) <= 1 * (79 / 10000 * 2)) by (apply Rmult_le_compat; lra). apply Rabs_le. lra.
      - intros z (w & Hw & Bw). exists w. split; [split; [exact Ip|exact By]|]. split; [exact Hw|exact Bw]. }
    intros zs Hzs. split.
    - match goal with |- Forall2 ?P _ _ => enough (G : Forall2 P (map fst ps) zs) by (rewrite Eps in G; exact G) end. clearbody S1. clear - Hn Hzs HE Hm HS0 BS Bu e01. induction Hzs as [|p z ps' zs' (w & (Ip & Bp) & Hw & Bw) _ IH]; [constructor|]. cbn [map]. constructor; [|exact IH]. destruct (rval_holds n Hn 65536 w z ltac:(lia) Hw) as [Sz Rz]. split; [exact Sz|].
      rewrite Rz, (softmax_shift _ _ M), map_map. change (exp (rval (fst p) - M)) with (e (fst p)). change (total (map (fun x => exp (rval x - M)) xs)) with S0. exact (soft_entry E m _ S0 _ S1 U _ HE Hm (e01 _ Ip) HS0 Bp BS Bu Bw).
    - assert (Hz2 : Forall2 (fun p z => exists w, holds n 65536 w z /\ Rabs (real 65536 w - real 65536 (snd p) * U) <= IZR E / 65536) ps zs) by (eapply related; [|exact Hzs]; intros p z (w & _ & Hw & Bw); exists w; now split).
      pose proof (products_near ps zs U _ Hz2) as PN. rewrite Lps in PN. fold S1 m in PN.
      assert (Br' : S1 * (S1 + 1) * (IZR E / 65536) <= m * IZR E * (4747 / 10000000)).
      { apply Rabs_def2' in BS. unfold rest in BS. assert (k1 : m * (24 / 10000 + 14 / 100000 * IZR E) <= m * (24 / 10000 + 14 / 100000 * 2)) by (apply Rmult_le_compat_l; lra). assert (k2 : S0 * (79 / 10000 * IZR E) <= m * (79 / 10000 * 2)) by (apply Rmult_le_compat; lra).
        assert (U1 : S1 <= m * (101848 / 100000)) by lra. assert (U2 : S1 * (S1 + 1) <= m * (101848 / 100000) * (29 * (101848 / 100000) + 1)) by (apply Rmult_le_compat; lra).
        assert (U3 : S1 * (S1 + 1) <= m * (31102 / 1000)) by lra. assert (U4 : S1 * (S1 + 1) * (IZR E / 65536) <= m * (31102 / 1000) * (IZR E / 65536)) by (apply Rmult_le_compat_r; lra). assert (0 <= m * IZR E) by (apply Rmult_le_pos; lra). lra. }
      assert (mE : 0 <= m * IZR E) by (apply Rmult_le_pos; lra). apply Rabs_def2' in PN. apply Rabs_def2' in Bu. apply Rabs_le. lra.
  Qed.
  (** C98: softmax of 2 to 29 numbers at most 256 apart in the default configuration. *)
  Lemma k_C98_softmax E me xs st zs : (E = 1 \/ E = 2)%Z -> vector n 65536 xs -> (2 <= length xs <= 29)%nat -> (forall x y, In x xs -> In y xs -> rval x - rval y <= 256) -> fst (softmax me (within E) 8 10 xs st) = Some zs ->
    fst (softmax me no_check 8 10 xs st) = Some zs /\
    Forall2 (fun x z => n_sc z = 65536%Z /\ Rabs (rval z - exact_softmax (map rval xs) (rval x)) <= (1 / 40 + INR (length xs) / 300) * IZR E) xs zs /\
    Rabs (total (map rval zs) - 1) <= 1 / 500 + INR (length xs) * IZR E / 2000.
  Proof using Hn HV Hlocal Hsqrt.
    intros HE V L Df Hz. split; [eapply weaker_fst; [apply softmaxv_weak|exact Hz]|]. exact (yo_some _ _ _ _ _ (soft_yo false E me xs HE ltac:(discriminate) V L Df) Hz).
  Qed.
  (** C98: with one party nothing can go wrong. *)
  Lemma k_C98_one_party me xs st : n = 1%nat -> vector n 65536 xs -> (2 <= length xs <= 29)%nat -> (forall x y, In x xs -> In y xs -> rval x - rval y <= 256) -> exists zs, fst (softmax me no_check 8 10 xs st) = Some zs /\
    Forall2 (fun x z => n_sc z = 65536%Z /\ Rabs (rval z - exact_softmax (map rval xs) (rval x)) <= 1 / 40 + INR (length xs) / 300) xs zs /\ Rabs (total (map rval zs) - 1) <= 1 / 500 + INR (length xs) / 2000.
  Proof using Hn HV Hlocal Hsqrt.
    intros H1 V L Df. destruct (yo_true _ _ st (soft_yo true 1 me xs (or_introl eq_refl) (fun _ => H1) V L Df)) as (zs & Ez & Fz & Tz). exists zs. split; [eapply weaker_fst; [apply softmaxv_weak|exact Ez]|]. split; [|lra].
    eapply related; [|exact Fz]. intros x z [Sz Bz]. split; [exact Sz|lra].
  Qed.
  (** C98: the softmax of a single number is exactly 1, whatever the number and the configuration. *)
  Lemma k_C98_single D p chk me d k x st : (1 <= D < 2 ^ 63)%Z -> exists z, fst (softmaxv (pr := pr) D p local_bits log_steps cascade_steps isqrt me chk d k [x] st) = Some [z] /\ sharing n z /\ n_sc z = D /\ rval z = 1.
  Proof using Hn HV.
    intros HD. unfold softmaxv, lift, bindo, bind, okr, ret. pose proof (v_zero n pr HV st) as Z0. destruct (next_zero pr st) as [z0 st']. cbn [fst] in *. assert (N0 : nshare n 0 D (mkNum z0 D)) by (destruct Z0 as (L0 & F0 & O0); split; [split; [exact L0|split; [exact F0|rewrite <- O0; symmetry; apply open_a_eqm]]|reflexivity]).
    pose proof (add_int_ok n Hn _ _ 1%Z _ N0) as N1. replace (0 + 1 * D)%Z with D in N1 by ring. eexists. split; [reflexivity|]. set (z := add_num (mkNum z0 D) (AInt 1)) in *. destruct N1 as [Az Sz]. split; [destruct Az as (L & F & _); split; [exact L|split; [exact F|lia]]|]. split; [exact Sz|].
    unfold rval. rewrite Sz, (ashare_open _ _ _ Az), wrap_id by (unfold in64, H63; lia). field. apply not_0_IZR. lia.
  Qed.
End Claims.
(** C98 refuted for many entries: even with one party, 200 equal numbers give results of more than 3/2 in total, whatever the number and the method. *)
Lemma k_C98_many_refuted : exists pr st, valid 1 pr /\ forall local_bits log_steps cascade_steps isqrt me x, (forall st, let u := fst (local_bits st) in length u = 1%nat /\ Forall (fun z => 0 <= z < 65536)%Z u) -> (forall m, (2 <= m)%nat -> (1 <= isqrt m < m)%nat) ->
  sharing 1 x -> n_sc x = 65536%Z -> exists zs, fst (softmaxv (pr := pr) 65536 16 local_bits log_steps cascade_steps isqrt me no_check 8 10 (repeat x 200) st) = Some zs /\ total (map rval zs) > 3 / 2.
Proof.
  exists alone, tt. split; [exact alone_valid|]. intros local_bits log_steps cascade_steps isqrt me x Hl Hq Hx Sx. set (xs := repeat x 200). set (v := open_a (n_sh x)).
  assert (V : vector 1 65536 xs) by (split; [discriminate|]; apply Forall_forall; intros y Y; apply repeat_spec in Y; subst y; now split).
  assert (RV : forall a, In a (reveals xs) -> a = v) by (intros a A; unfold reveals in A; apply in_map_iff in A; destruct A as (y & <- & Y); apply repeat_spec in Y; now subst y).
  assert (HF : differences_fit xs) by (intros a b A B; rewrite (RV a A), (RV b B), Z.sub_diag; unfold in64, H63; lia).
  assert (Hloc : yields local_bits (fun u => length u = 1%nat /\ Forall (fun z => 0 <= z < 65536)%Z u /\ True)) by (intros st0; destruct (Hl st0); auto).
  assert (Hm : yields (max_dim 65536 16 local_bits log_steps cascade_steps isqrt me xs) (fun m => nshare 1 v 65536 (fst m))).
  { eapply yields_weaken; [apply (max_dim_ok 1 ltac:(lia) alone alone_valid 65536 ltac:(lia) 16 ltac:(lia) eq_refl local_bits (fun _ => True) Hloc 65536 (or_intror eq_refl) (reveals xs) HF isqrt Hq log_steps cascade_steps me (reveals xs) xs (reps 1 65536 xs (proj2 V) _ (incl_refl _)) (reveals_ne xs (proj1 V))); reflexivity|].
    intros m (k & _ & [I _] & Hv & _). apply RV in I. now rewrite I in Hv. }
  specialize (Hm tt). unfold xs in *. change (softmaxv (pr := alone) 65536 16 local_bits log_steps cascade_steps isqrt me no_check 8 10 (repeat x 200) tt) with (bindo (lift (max_dim 65536 16 local_bits log_steps cascade_steps isqrt me (repeat x 200))) (fun m => numerator <~ mapO (expv no_check 8) (map (fun x => sub_num x (AEnc (fst m))) (repeat x 200)) ;; inv <~ reciprocal_posv no_check 8 10 (sum_num numerator) ;; mapO (fun y => mulv no_check y inv) numerator) tt).
  unfold bindo at 1, lift at 1, bind at 1 2. destruct (max_dim _ _ _ _ _ _ _ _ _) as [m st']. destruct st'. cbn [fst] in Hm. cbn [ret fst].
  assert (Z0 : sub_num x (AEnc (fst m)) = mkNum [0%Z] 65536).
  { destruct Hm as [(Lm & _ & Em) Sm]. destruct Hx as (Lx & _ & _). unfold sub_num. rewrite Sm, Sx. cbn [Z.ltb Z.compare Pos.compare Pos.compare_cont]. f_equal. unfold v in Em. rewrite open_a_eqm in Em.
    destruct (n_sh x) as [|b [|? ?]]; try discriminate. destruct (n_sh (fst m)) as [|a [|? ?]]; try discriminate. change (sub_priv [b] [a]) with [wsub b a]. f_equal. change 0%Z with (wrap 0). unfold wsub. apply eqm_wrap_eq. unfold zsum in Em. cbn [fold_right] in Em. rewrite !Z.add_0_r in Em. rewrite Em. apply eqm_refl_eq. ring. }
  assert (MR : forall (f : num -> num) k, map f (repeat x k) = repeat (f x) k) by (intros f k; induction k as [|k IH]; [reflexivity|cbn [repeat map]; now rewrite IH]). rewrite MR, Z0.
  assert (MO : forall (f : num -> runo alone num) a b, f a tt = (Some b, tt) -> forall k, mapO f (repeat a k) tt = (Some (repeat b k), tt)).
  { intros f a b Hf. induction k as [|k IH]; [reflexivity|]. cbn [repeat mapO]. unfold bindo at 1, bind at 1. rewrite Hf. unfold bindo, bind. rewrite IH. reflexivity. }
  unfold bindo at 1, bind at 1. rewrite (MO (expv no_check 8) _ (mkNum [65536%Z] 65536)) by (vm_compute; reflexivity).
  unfold bindo at 1, bind at 1. replace (reciprocal_posv (pr := alone) no_check 8 10 (sum_num (repeat (mkNum [65536%Z] 65536) 200)) tt) with (Some (mkNum [504%Z] 65536), tt) by (vm_compute; reflexivity).
  rewrite (MO (fun y => mulv no_check y (mkNum [504%Z] 65536)) _ (mkNum [504%Z] 65536)) by (vm_compute; reflexivity). cbn [fst]. eexists. split; [reflexivity|].
  assert (A : forall k, total (map rval (repeat (mkNum [504%Z] 65536) k)) = INR k * (504 / 65536)).
  { induction k as [|k IH]; [cbn; lra|]. rewrite S_INR. cbn [repeat map total fold_right]. fold (total (map rval (repeat (mkNum [504%Z] 65536) k))). rewrite IH. unfold rval at 1. cbn [n_sh n_sc]. change (open_a [504%Z]) with 504%Z. lra. }
  rewrite A. replace (INR 200) with 200 by (rewrite INR_IZR_INZ; reflexivity). lra.
Qed.

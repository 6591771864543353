(** Proofs of C94: cos and sin on shares. *)
Require Import ZArith QArith List Bool Lia Reals Lra.
From Verif Require Import Approx Approx_claims Approxfn_claims.
From Verif Require Import Ring64 Encoder Arith Arith_proofs Beaver Trunc Provider Binary Binary_proofs Compare Compare_proofs Compare_claims Maximum Regular Regular_proofs Regular_claims Shareapprox Shareapprox_proofs Shareapprox_claims Sharetrig.
Import ListNotations.
Open Scope R_scope.

(** the radius by which cos and sin are too large, and what they are without rounding, for N = 2^k: r cos(N atan(x/N)), r sin(N atan(x/N)) with r = (1 + (x/N)^2)^(N/2) *)
Definition radius (k : nat) (x : R) : R := sqrt (1 + (x / 2 ^ k) * (x / 2 ^ k)) ^ (2 ^ k).
Definition limit_cos (k : nat) (x : R) : R := radius k x * cos (2 ^ k * atan (x / 2 ^ k)).
Definition limit_sin (k : nat) (x : R) : R := radius k x * sin (2 ^ k * atan (x / 2 ^ k)).
(** the growth of the errors *)
Definition trig_growth (s E : Z) (k : nat) : R := growth s E (3 * 2 ^ k - 3).

(** ** Complex numbers as pairs *)
Definition cmod (z : R * R) : R := sqrt (fst z * fst z + snd z * snd z).
Definition csub (z w : R * R) : R * R := (fst z - fst w, snd z - snd w).
Definition csq (z : R * R) : R * R := (fst z * fst z - snd z * snd z, 2 * fst z * snd z).
Lemma cmod_pos z : 0 <= cmod z. Proof. apply sqrt_pos. Qed.
Lemma cmod_sq z : cmod z * cmod z = fst z * fst z + snd z * snd z. Proof. unfold cmod. apply sqrt_sqrt. nra. Qed.
Lemma cmod_le z b : 0 <= b -> fst z * fst z + snd z * snd z <= b * b -> cmod z <= b.
Proof. intros B H. unfold cmod. rewrite <- (sqrt_square b B). apply sqrt_le_1_alt. exact H. Qed.
Lemma cmod_fst z : Rabs (fst z) <= cmod z.
Proof. apply Rsqr_incr_0; [|apply Rabs_pos|apply cmod_pos]. rewrite <- Rsqr_abs. unfold Rsqr. rewrite cmod_sq. nra. Qed.
Lemma cmod_snd z : Rabs (snd z) <= cmod z.
Proof. apply Rsqr_incr_0; [|apply Rabs_pos|apply cmod_pos]. rewrite <- Rsqr_abs. unfold Rsqr. rewrite cmod_sq. nra. Qed.
Lemma cmod_mul a b c d : cmod (a * c - b * d, a * d + b * c) = cmod (a, b) * cmod (c, d).
Proof. unfold cmod. cbn [fst snd]. rewrite <- sqrt_mult by nra. f_equal. ring. Qed.
Lemma cmod_add a b c d : cmod (a + c, b + d) <= cmod (a, b) + cmod (c, d).
Proof.
  pose proof (cmod_pos (a, b)) as A. pose proof (cmod_pos (c, d)) as C. apply cmod_le; [lra|]. cbn [fst snd].
  pose proof (cmod_sq (a, b)) as A2. pose proof (cmod_sq (c, d)) as C2. cbn [fst snd] in *. set (m := cmod (a, b)) in *. set (p := cmod (c, d)) in *.
  assert (K : a * c + b * d <= m * p). { assert (Q : Rsqr (a * c + b * d) <= Rsqr (m * p)). { unfold Rsqr. replace (m * p * (m * p)) with ((m * m) * (p * p)) by ring. rewrite A2, C2. pose proof (Rle_0_sqr (a * d - b * c)) as V. unfold Rsqr in V. nra. }
    apply Rsqr_incr_0_var; [exact Q|nra]. }
  replace ((m + p) * (m + p)) with (m * m + p * p + 2 * (m * p)) by ring. rewrite A2, C2. lra.
Qed.
Lemma cmod_csq z : cmod (csq z) = cmod z * cmod z.
Proof. destruct z as [a b]. unfold csq. cbn [fst snd]. rewrite <- cmod_mul. f_equal. f_equal; ring. Qed.
(** a square of a number known up to a factor P, plus an error of at most 3 eta in the plane *)
Lemma csq_error z w u m P eta : 0 <= eta -> 1 <= m -> cmod z = m -> 1 <= P -> cmod (csub w z) <= m * (P - 1) -> cmod (csub u (csq w)) <= 3 * eta ->
  cmod (csub u (csq z)) <= m * m * (P * P * ((1 + eta) * (1 + eta) * (1 + eta)) - 1).
Proof.
  intros He Hm Hz HP Hw Hu. destruct z as [a b], w as [c d], u as [e f]. unfold csub, csq in *. cbn [fst snd] in *.
  assert (A : cmod (c * c - d * d - (a * a - b * b), 2 * c * d - 2 * a * b) <= m * (P - 1) * (m * (P - 1) + 2 * m)).
  { replace (c * c - d * d - (a * a - b * b), 2 * c * d - 2 * a * b) with ((c - a) * (c - a + 2 * a) - (d - b) * (d - b + 2 * b), (c - a) * (d - b + 2 * b) + (d - b) * (c - a + 2 * a)) by (f_equal; ring).
    rewrite cmod_mul. apply Rmult_le_compat; [apply cmod_pos|apply cmod_pos|exact Hw|]. eapply Rle_trans; [apply cmod_add|]. apply Rplus_le_compat; [exact Hw|].
    apply cmod_le; [lra|]. cbn [fst snd]. pose proof (cmod_sq (a, b)) as Q. rewrite Hz in Q. cbn [fst snd] in Q. lra. }
  replace (e - (a * a - b * b), f - 2 * a * b) with ((c * c - d * d - (a * a - b * b)) + (e - (c * c - d * d)), (2 * c * d - 2 * a * b) + (f - 2 * c * d)) by (f_equal; ring).
  eapply Rle_trans; [apply cmod_add|]. assert (C : 1 <= m * m * (P * P)). { assert (1 * 1 <= m * m) by (apply Rmult_le_compat; lra). assert (1 * 1 <= P * P) by (apply Rmult_le_compat; lra). assert (1 * 1 <= m * m * (P * P)) by (apply Rmult_le_compat; lra). lra. }
  set (g := m * m * (P * P)) in *. replace (m * m * (P * P * ((1 + eta) * (1 + eta) * (1 + eta)) - 1)) with (m * (P - 1) * (m * (P - 1) + 2 * m) + g * ((1 + eta) * (1 + eta) * (1 + eta) - 1)) by (unfold g; ring).
  assert (D : 3 * eta <= (1 + eta) * (1 + eta) * (1 + eta) - 1). { replace ((1 + eta) * (1 + eta) * (1 + eta) - 1) with (3 * eta + (3 * (eta * eta) + eta * (eta * eta))) by ring. assert (0 <= eta * eta) by nra. assert (0 <= eta * (eta * eta)) by nra. lra. }
  set (h := (1 + eta) * (1 + eta) * (1 + eta) - 1) in *. assert (h <= g * h) by nra. lra.
Qed.
Lemma eix_csq z : eix_step z = csq z. Proof. destruct z as [a b]. unfold eix_step, csq. cbn [fst snd]. f_equal. ring. Qed.
Definition csquares (k : nat) (z : R * R) : R * R := Nat.iter k eix_step z.
Lemma csquares_S k z : csquares (S k) z = csquares k (csq z). Proof. unfold csquares. rewrite Nat_iter_S', eix_csq. reflexivity. Qed.
Lemma csquares_grow k z : 1 <= cmod z -> cmod z <= cmod (csquares k z).
Proof.
  revert z. induction k as [|k IH]; intros z H; [right; reflexivity|]. rewrite csquares_S. assert (cmod z <= cmod (csq z)) by (rewrite cmod_csq; nra). eapply Rle_trans; [exact H0|]. apply IH. lra.
Qed.

Section Claims.
  Variables (n : nat) (pr : provider).
  Hypothesis Hn : (0 < n)%nat.
  Hypothesis HV : valid n pr.
  Lemma eixv_weak chk k x : weaker (eixv (pr := pr) chk k x) (eixv no_check k x).
  Proof.
    apply weaker_bind; [apply divv_weak|]. intros im. apply weaker_bind; [apply squarev_weak|]. intros sq. apply weaker_repeat. intros [re i].
    apply weaker_bind; [apply squarev_weak|]. intros a2. apply weaker_bind; [apply squarev_weak|]. intros b2. apply weaker_bind; [apply mulv_weak|]. intros m. apply weaker_refl.
  Qed.
  Lemma cosv_weak chk k x : weaker (cosv (pr := pr) chk k x) (cosv no_check k x).
  Proof. apply weaker_bind; [apply eixv_weak|]. intros p. apply weaker_refl. Qed.
  Lemma sinv_weak chk k x : weaker (sinv (pr := pr) chk k x) (sinv no_check k x).
  Proof. apply weaker_bind; [apply eixv_weak|]. intros p. apply weaker_refl. Qed.

  Section Run.
    Variables (s E : Z) (T : bool).
    Hypothesis HE : (1 <= E)%Z.
    Hypothesis Hs : (1 < s)%Z.
    Hypothesis HT : T = true -> n = 1%nat.
    Notation real := (real s).
    Notation eta := (eta s E).
    Notation holds := (holds n s).
    Definition gr (m : nat) : R := (1 + eta) ^ m.
    Lemma gr_ge m : 1 <= gr m. Proof. pose proof (eta_pos s E HE Hs) as Ep. unfold gr. apply pow_R1_Rle. lra. Qed.
    Lemma gr_mono m m' : (m <= m')%nat -> gr m <= gr m'. Proof. pose proof (eta_pos s E HE Hs) as Ep. intros H. unfold gr. apply Rle_pow; [lra|exact H]. Qed.
    Lemma gr_step m : gr m * gr m * ((1 + eta) * (1 + eta) * (1 + eta)) = gr (2 * m + 3).
    Proof. unfold gr. rewrite pow_add. replace (2 * m)%nat with (m + m)%nat by lia. rewrite pow_add. cbn [pow]. ring. Qed.
    Fixpoint steps (k m : nat) : nat := match k with O => m | S k => steps k (2 * m + 3) end.
    Lemma steps_le k : forall m, (m <= steps k m)%nat. Proof. induction k as [|k IH]; intros m; cbn [steps]; [lia|]. specialize (IH (2 * m + 3)%nat). lia. Qed.
    Lemma steps_is k : forall m, (steps k m + 3 = 2 ^ k * (m + 3))%nat.
    Proof. induction k as [|k IH]; intros m; cbn [steps]; [cbn; lia|]. rewrite IH, Nat.pow_succ_r'. lia. Qed.
    Lemma real_minus a b : real (a - b) = real a - real b. Proof. pose proof (s_pos s Hs). unfold Shareapprox_proofs.real. rewrite minus_IZR. field. lra. Qed.
    Lemma real_double a : real (a * 2) = 2 * real a. Proof. pose proof (s_pos s Hs). unfold Shareapprox_proofs.real. rewrite mult_IZR. field. lra. Qed.
    Lemma s_one : 1 <= IZR s. Proof. apply (IZR_le 1). lia. Qed.

    (** one step of the loop, from a point known up to a factor *)
    Lemma eix_step_real v w x y z m : holds v x -> holds w y -> 1 <= cmod z -> cmod (csub (real v, real w) z) <= cmod z * (gr m - 1) ->
      IZR s * IZR s * (cmod (csq z) * gr (2 * m + 3)) < IZR H63 ->
      yo T (eix_stepv (pr := pr) (within E) (x, y)) (fun p => exists a b, holds a (fst p) /\ holds b (snd p) /\ cmod (csub (real a, real b) (csq z)) <= cmod (csq z) * (gr (2 * m + 3) - 1)).
    Proof.
      intros Hx Hy Hz Hc Hf. pose proof (eta_pos s E HE Hs) as Ep. pose proof s_one as S1. pose proof (gr_ge m) as G. set (M := cmod z * gr m).
      assert (Bp : cmod (real v, real w) <= M). { replace (real v, real w) with ((real v - fst z) + fst z, (real w - snd z) + snd z) by (f_equal; ring). eapply Rle_trans; [apply cmod_add|]. unfold csub in Hc. cbn [fst snd] in Hc. rewrite <- surjective_pairing. unfold M. lra. }
      pose proof (Rle_trans _ _ _ (cmod_fst (real v, real w)) Bp) as Bv. pose proof (Rle_trans _ _ _ (cmod_snd (real v, real w)) Bp) as Bw. cbn [fst snd] in Bv, Bw.
      assert (MM : M * M <= cmod (csq z) * gr (2 * m + 3)). { rewrite cmod_csq, <- gr_step. unfold M. replace (cmod z * gr m * (cmod z * gr m)) with (cmod z * cmod z * (gr m * gr m)) by ring. apply Rmult_le_compat_l; [nra|].
        rewrite <- (Rmult_1_r (gr m * gr m)) at 1. apply Rmult_le_compat_l; [nra|]. assert (1 * 1 * 1 <= (1 + eta) * (1 + eta) * (1 + eta)) by (repeat apply Rmult_le_compat; lra). lra. }
      assert (F : IZR s * IZR s * (M * M) < IZR H63). { eapply Rle_lt_trans; [|exact Hf]. apply Rmult_le_compat_l; [nra|exact MM]. }
      unfold eix_stepv.
      eapply yo_bind; [apply (square_real n Hn pr HV s E T HE Hs HT v x Hx); eapply (real_product n Hn s T Hs HT); [exact Bv|exact Bv|exact F]|]. intros a2 (qa & Ha & Ea).
      eapply yo_bind; [apply (square_real n Hn pr HV s E T HE Hs HT w y Hy); eapply (real_product n Hn s T Hs HT); [exact Bw|exact Bw|exact F]|]. intros b2 (qb & Hb & Eb).
      eapply yo_bind; [apply (mul_real n Hn pr HV s E T HE Hs HT w v y x Hy Hx); eapply (real_product n Hn s T Hs HT); [exact Bw|exact Bv|exact F]|]. intros mm (qm & Hm & Em).
      assert (Q : cmod (csub (real (qa - qb), real (qm * 2)) (csq z)) <= cmod (csq z) * (gr (2 * m + 3) - 1)).
      { rewrite cmod_csq, <- gr_step. apply (csq_error z (real v, real w) _ (cmod z) (gr m) eta); auto; [lra|]. rewrite real_minus, real_double. unfold csub, csq. cbn [fst snd].
        apply Rabs_def2' in Ea, Eb, Em. apply cmod_le; [lra|]. cbn [fst snd].
        assert (X1 : Rabs (real qa - real qb - (real v * real v - real w * real w)) <= 2 * eta) by (apply Rabs_le; lra).
        assert (X2 : Rabs (2 * real qm - 2 * real v * real w) <= 2 * eta) by (apply Rabs_le; lra).
        assert (SQ : forall t b, Rabs t <= b -> t * t <= b * b) by (intros t b K; apply Rabs_def2' in K; nra). apply SQ in X1, X2. nra. }
      assert (Bo : cmod (real (qa - qb), real (qm * 2)) <= cmod (csq z) * gr (2 * m + 3)).
      { set (o := (real (qa - qb), real (qm * 2))) in *. replace o with ((fst o - fst (csq z)) + fst (csq z), (snd o - snd (csq z)) + snd (csq z)) by (unfold o; f_equal; cbn [fst snd]; ring). eapply Rle_trans; [apply cmod_add|]. unfold csub in Q. rewrite <- surjective_pairing. lra. }
      assert (Fo : IZR s * (cmod (csq z) * gr (2 * m + 3)) < IZR H63). { eapply Rle_lt_trans; [|exact Hf]. rewrite Rmult_assoc. assert (0 <= cmod (csq z) * gr (2 * m + 3)) by (pose proof (cmod_pos (csq z)); pose proof (gr_ge (2 * m + 3)); nra). assert (0 <= IZR s * (cmod (csq z) * gr (2 * m + 3))) by nra. nra. }
      apply yo_ok. cbn [fst snd]. exists (qa - qb)%Z, (qm * 2)%Z. split; [|split; [|exact Q]].
      - eapply (holds_bound n Hn s T Hs HT); [apply (sub_enc_ok n); [apply Ha|apply Hb]|exact (Rle_trans _ _ _ (cmod_fst _) Bo)|exact Fo].
      - eapply (holds_bound n Hn s T Hs HT); [apply (muli_num_ok n); apply Hm|exact (Rle_trans _ _ _ (cmod_snd _) Bo)|exact Fo].
    Qed.
    Lemma eix_loop_real k : forall v w x y z m, holds v x -> holds w y -> 1 <= cmod z -> cmod (csub (real v, real w) z) <= cmod z * (gr m - 1) ->
      IZR s * IZR s * (cmod (csquares k z) * gr (steps k m)) < IZR H63 ->
      yo T (repeatv k (eix_stepv (pr := pr) (within E)) (x, y)) (fun p => exists a b, holds a (fst p) /\ holds b (snd p) /\ cmod (csub (real a, real b) (csquares k z)) <= cmod (csquares k z) * (gr (steps k m) - 1)).
    Proof.
      induction k as [|k IH]; intros v w x y z m Hx Hy Hz Hc Hf; cbn [repeatv steps].
      - apply yo_ok. exists v, w. cbn [fst snd]. split; [exact Hx|]. split; [exact Hy|exact Hc].
      - rewrite csquares_S in *. cbn [steps] in Hf. assert (Z1 : 1 <= cmod (csq z)) by (rewrite cmod_csq; nra).
        eapply yo_bind; [apply (eix_step_real v w x y z m Hx Hy Hz Hc)|].
        + eapply Rle_lt_trans; [|exact Hf]. apply Rmult_le_compat_l; [pose proof s_one; nra|]. apply Rmult_le_compat; [apply cmod_pos|pose proof (gr_ge (2 * m + 3)); lra|apply csquares_grow; exact Z1|apply gr_mono, steps_le].
        + intros [x' y'] (a & b & Ha & Hb & Hab). cbn [fst snd] in *. exact (IH a b x' y' (csq z) (2 * m + 3)%nat Ha Hb Z1 Hab Hf).
    Qed.
    Lemma eix_real k v x : (1 <= k)%nat -> holds v x -> let z := csquares (k - 1) (1 - real v / 2 ^ k * (real v / 2 ^ k), real v / 2 ^ k * 2) in
      IZR s * IZR s * (cmod z * gr (3 * 2 ^ k - 3)) < IZR H63 ->
      yo T (eixv (pr := pr) (within E) k x) (fun p => exists a b, holds a (fst p) /\ holds b (snd p) /\ cmod (csub (real a, real b) z) <= cmod z * (gr (3 * 2 ^ k - 3) - 1)).
    Proof.
      intros Hk Hx. cbv zeta. set (t := real v / 2 ^ k). intros Hf. pose proof (eta_pos s E HE Hs) as Ep. pose proof s_one as S1.
      assert (Y : (steps (k - 1) 3 = 3 * 2 ^ k - 3)%nat). { pose proof (steps_is (k - 1) 3) as H. destruct k as [|k']; [lia|]. replace (S k' - 1)%nat with k' in * by lia. rewrite Nat.pow_succ_r'. lia. }
      set (z1 := (1 - t * t, t * 2)) in *. assert (Z1c : z1 = csq (1, t)) by (unfold z1, csq; cbn [fst snd]; f_equal; ring).
      assert (M0 : 1 <= cmod (1, t)). { unfold cmod. cbn [fst snd]. rewrite <- sqrt_1 at 1. apply sqrt_le_1_alt. nra. }
      assert (M1 : 1 <= cmod z1) by (rewrite Z1c, cmod_csq; nra). rewrite <- Y in *.
      assert (Ff : IZR s * IZR s * (cmod z1 * gr 3) < IZR H63).
      { eapply Rle_lt_trans; [|exact Hf]. apply Rmult_le_compat_l; [nra|]. apply Rmult_le_compat; [lra|pose proof (gr_ge 3); lra|apply csquares_grow; exact M1|apply gr_mono, steps_le]. }
      unfold eixv. eapply yo_bind; [apply (div_real n Hn pr HV s E T HE Hs HT v); [apply Z.pow_pos_nonneg; lia|exact Hx]|]. rewrite pow2_IZR. intros im (qi & Hi & Bi). fold t in Bi.
      assert (B0 : cmod (csub (1, real qi) (1, t)) <= cmod (1, t) * (gr 1 - 1)).
      { unfold gr. rewrite pow_1. replace (1 + eta - 1) with eta by ring. apply Rle_trans with eta; [|nra]. apply cmod_le; [lra|]. unfold csub. cbn [fst snd]. apply Rabs_def2' in Bi. nra. }
      assert (Bm : cmod (1, real qi) <= cmod (1, t) * gr 1).
      { replace (1, real qi) with ((1 - 1) + 1, (real qi - t) + t) by (f_equal; ring). eapply Rle_trans; [apply cmod_add|]. unfold csub in B0. cbn [fst snd] in B0. lra. }
      assert (Bq : Rabs (real qi) <= cmod (1, t) * gr 1) by (exact (Rle_trans _ _ _ (cmod_snd (1, real qi)) Bm)).
      assert (G1 : cmod (1, t) * gr 1 * (cmod (1, t) * gr 1) <= cmod z1 * gr 3). { rewrite Z1c, cmod_csq. replace (cmod (1, t) * gr 1 * (cmod (1, t) * gr 1)) with (cmod (1, t) * cmod (1, t) * (gr 1 * gr 1)) by ring. apply Rmult_le_compat_l; [nra|]. unfold gr. rewrite <- pow_add. apply Rle_pow; [lra|lia]. }
      eapply yo_bind; [apply (square_real n Hn pr HV s E T HE Hs HT qi im Hi); eapply (real_product n Hn s T Hs HT); [exact Bq|exact Bq|]; eapply Rle_lt_trans; [apply Rmult_le_compat_l; [nra|exact G1]|exact Ff]|]. intros sq (qs & Hq & Bs).
      assert (RS : real (s - qs) = 1 - real qs) by (rewrite real_minus; f_equal; unfold Shareapprox_proofs.real; field; lra).
      assert (Q : cmod (csub (real (s - qs), real (qi * 2)) z1) <= cmod z1 * (gr 3 - 1)).
      { rewrite RS, real_double, Z1c, cmod_csq. assert (Q0 : cmod (csub (1 - real qs, 2 * real qi) (csq (1, real qi))) <= eta).
        { apply cmod_le; [lra|]. unfold csub, csq. cbn [fst snd]. apply Rabs_def2' in Bs. assert (X : Rabs (1 - real qs - (1 * 1 - real qi * real qi)) <= eta) by (apply Rabs_le; lra). apply Rabs_def2' in X. nra. }
        (* the square of a point known up to 1 + eta, plus eta *)
        assert (A : cmod (csub (csq (1, real qi)) (csq (1, t))) <= cmod (1, t) * (gr 1 - 1) * (cmod (1, t) * (gr 1 - 1) + 2 * cmod (1, t))).
        { unfold csub, csq. cbn [fst snd].
          replace (1 * 1 - real qi * real qi - (1 * 1 - t * t), 2 * 1 * real qi - 2 * 1 * t) with ((1 - 1) * (1 - 1 + 2 * 1) - (real qi - t) * (real qi - t + 2 * t), (1 - 1) * (real qi - t + 2 * t) + (real qi - t) * (1 - 1 + 2 * 1)) by (f_equal; ring).
          rewrite cmod_mul. apply Rmult_le_compat; [apply cmod_pos|apply cmod_pos|exact B0|]. eapply Rle_trans; [apply cmod_add|]. apply Rplus_le_compat; [exact B0|].
          apply cmod_le; [lra|]. cbn [fst snd]. pose proof (cmod_sq (1, t)) as K. cbn [fst snd] in K. lra. }
        assert (TR : forall p q r, cmod (csub p r) <= cmod (csub p q) + cmod (csub q r)). { intros p q r. unfold csub. replace (fst p - fst r, snd p - snd r) with ((fst p - fst q) + (fst q - fst r), (snd p - snd q) + (snd q - snd r)) by (f_equal; ring). apply cmod_add. }
        eapply Rle_trans; [apply (TR _ (csq (1, real qi)))|]. unfold gr in *. rewrite pow_1 in A. replace (1 + eta - 1) with eta in A by ring. set (m := cmod (1, t)) in *.
        replace (m * m * ((1 + eta) ^ 3 - 1)) with (m * eta * (m * eta + 2 * m) + m * m * eta * (1 + 2 * eta + eta * eta)) by (cbn [pow]; ring).
        assert (eta <= m * m * eta * (1 + 2 * eta + eta * eta)); [|lra]. assert (1 * eta <= m * m * eta) by (apply Rmult_le_compat_r; nra). assert (m * m * eta * 1 <= m * m * eta * (1 + 2 * eta + eta * eta)) by (apply Rmult_le_compat_l; nra). lra. }
      assert (Bo : cmod (real (s - qs), real (qi * 2)) <= cmod z1 * gr 3).
      { set (o := (real (s - qs), real (qi * 2))) in *. replace o with ((fst o - fst z1) + fst z1, (snd o - snd z1) + snd z1) by (unfold o; f_equal; cbn [fst snd]; ring). eapply Rle_trans; [apply cmod_add|]. unfold csub in Q. rewrite <- surjective_pairing. lra. }
      assert (Fo : IZR s * (cmod z1 * gr 3) < IZR H63). { eapply Rle_lt_trans; [|exact Ff]. rewrite Rmult_assoc. assert (0 <= cmod z1 * gr 3) by (pose proof (gr_ge 3); nra). assert (0 <= IZR s * (cmod z1 * gr 3)) by nra. nra. }
      apply (eix_loop_real (k - 1) (s - qs) (qi * 2) (one_minus sq) (muli_num 2 im) z1 3); [| |exact M1|exact Q|exact Hf].
      - eapply (holds_bound n Hn s T Hs HT); [apply (one_minus_ok n Hn); apply Hq|exact (Rle_trans _ _ _ (cmod_fst _) Bo)|exact Fo].
      - eapply (holds_bound n Hn s T Hs HT); [apply (muli_num_ok n); apply Hi|exact (Rle_trans _ _ _ (cmod_snd _) Bo)|exact Fo].
    Qed.
  End Run.

  Lemma limit_is_eix k x : (1 <= k)%nat -> csquares (k - 1) (1 - x / 2 ^ k * (x / 2 ^ k), x / 2 ^ k * 2) = (limit_cos k x, limit_sin k x) /\ cmod (limit_cos k x, limit_sin k x) = radius k x.
  Proof.
    intros Hk. split.
    - exact (eix_polar (with_trig_iterations k default) x Hk).
    - unfold cmod, limit_cos, limit_sin. cbn [fst snd]. set (a := 2 ^ k * atan (x / 2 ^ k)). set (r := radius k x). assert (R0 : 0 <= r) by (apply pow_le, sqrt_pos). pose proof (sin2_cos2 a) as S. unfold Rsqr in S.
      replace (r * cos a * (r * cos a) + r * sin a * (r * sin a)) with (r * r * (sin a * sin a + cos a * cos a)) by ring. rewrite S, Rmult_1_r. now apply sqrt_square.
  Qed.
  (** both results of a run *)
  Definition trig_near (s E : Z) (k : nat) (x : R) (p : num * num) : Prop := n_sc (fst p) = s /\ n_sc (snd p) = s /\
    sqrt (Rsqr (rval (fst p) - limit_cos k x) + Rsqr (rval (snd p) - limit_sin k x)) <= radius k x * trig_growth s E k.
  Definition trig_fits (s E : Z) (k : nat) (x : R) : Prop := IZR s * IZR s * (radius k x * (1 + trig_growth s E k)) < 2 ^ 63.
  Lemma eix_yo T s E k x : (1 <= E)%Z -> (1 < s)%Z -> (T = true -> n = 1%nat) -> (1 <= k)%nat -> sharing n x -> n_sc x = s -> trig_fits s E k (rval x) ->
    yo T (eixv (pr := pr) (within E) k x) (trig_near s E k (rval x)).
  Proof.
    intros HE Hs HT Hk Hx Sx Hf. destruct (holds_rval n s x Hx Sx) as [Hv Rv]. destruct (limit_is_eix k (rval x) Hk) as [L M]. pose proof (eix_real s E T HE Hs HT k _ x Hk Hv) as R. cbv zeta in R. rewrite Rv, L, M in R.
    assert (G : gr s E (3 * 2 ^ k - 3) = 1 + trig_growth s E k) by (unfold gr, trig_growth, growth, eta; ring). rewrite G in R.
    eapply yo_weaken; [apply R; unfold trig_fits in Hf; change (IZR H63) with (IZR 9223372036854775808); lra|]. intros p (a & b & Ha & Hb & B). destruct (rval_holds n Hn s a _ Hs Ha) as [S1 R1]. destruct (rval_holds n Hn s b _ Hs Hb) as [S2 R2].
    split; [exact S1|]. split; [exact S2|]. rewrite R1, R2. unfold cmod, csub in B. cbn [fst snd] in B. unfold Rsqr. replace (1 + trig_growth s E k - 1) with (trig_growth s E k) in B by ring. exact B.
  Qed.
  Lemma plane_fst a b c : sqrt (Rsqr a + Rsqr b) <= c -> Rabs a <= c /\ Rabs b <= c.
  Proof. intros H. split; eapply Rle_trans; [|exact H| |exact H]; rewrite <- sqrt_Rsqr_abs; apply sqrt_le_1_alt; pose proof (Rle_0_sqr a); pose proof (Rle_0_sqr b); lra. Qed.
  (** C94: [cossin] with [k] = functions.trig_iterations on an encrypted number. *)
  Lemma k_C94_cossin s E k x st p : (1 <= E)%Z -> (1 < s)%Z -> (1 <= k)%nat -> sharing n x -> n_sc x = s -> trig_fits s E k (rval x) ->
    fst (cossinv (pr := pr) (within E) k x st) = Some p -> fst (cossinv (pr := pr) no_check k x st) = Some p /\ trig_near s E k (rval x) p.
  Proof.
    intros HE Hs Hk Hx Sx Hf Hz. split; [eapply weaker_fst; [apply eixv_weak|exact Hz]|]. exact (yo_some _ _ _ _ _ (eix_yo false s E k x HE Hs ltac:(discriminate) Hk Hx Sx Hf) Hz).
  Qed.
  (** C94: cos and sin are the two components, each within the error. *)
  Lemma k_C94_cos_sin s E k x st : (1 <= E)%Z -> (1 < s)%Z -> (1 <= k)%nat -> sharing n x -> n_sc x = s -> trig_fits s E k (rval x) ->
    (forall z, fst (cosv (pr := pr) (within E) k x st) = Some z -> fst (cosv (pr := pr) no_check k x st) = Some z /\ n_sc z = s /\ Rabs (rval z - limit_cos k (rval x)) <= radius k (rval x) * trig_growth s E k) /\
    (forall z, fst (sinv (pr := pr) (within E) k x st) = Some z -> fst (sinv (pr := pr) no_check k x st) = Some z /\ n_sc z = s /\ Rabs (rval z - limit_sin k (rval x)) <= radius k (rval x) * trig_growth s E k).
  Proof.
    intros HE Hs Hk Hx Sx Hf. pose proof (eix_yo false s E k x HE Hs ltac:(discriminate) Hk Hx Sx Hf) as Y.
    assert (C : yo false (cosv (pr := pr) (within E) k x) (fun z => n_sc z = s /\ Rabs (rval z - limit_cos k (rval x)) <= radius k (rval x) * trig_growth s E k)).
    { eapply yo_bind; [exact Y|]. intros p (S1 & S2 & B). apply plane_fst in B. apply yo_ok. split; [exact S1|apply B]. }
    assert (S : yo false (sinv (pr := pr) (within E) k x) (fun z => n_sc z = s /\ Rabs (rval z - limit_sin k (rval x)) <= radius k (rval x) * trig_growth s E k)).
    { eapply yo_bind; [exact Y|]. intros p (S1 & S2 & B). apply plane_fst in B. apply yo_ok. split; [exact S2|apply B]. }
    split; intros z Hz; (split; [eapply weaker_fst; [first [apply cosv_weak|apply sinv_weak]|exact Hz]|]).
    - exact (yo_some _ _ _ _ _ C Hz).
    - exact (yo_some _ _ _ _ _ S Hz).
  Qed.
  (** C94: with one party no assumption on the truncations is needed. *)
  Lemma k_C94_one_party s k x st : n = 1%nat -> (1 < s)%Z -> (1 <= k)%nat -> sharing n x -> n_sc x = s -> trig_fits s 1 k (rval x) ->
    exists p, fst (cossinv (pr := pr) no_check k x st) = Some p /\ trig_near s 1 k (rval x) p /\ fst (cosv (pr := pr) no_check k x st) = Some (fst p) /\ fst (sinv (pr := pr) no_check k x st) = Some (snd p).
  Proof.
    intros N1 Hs Hk Hx Sx Hf. destruct (yo_true _ _ st (eix_yo true s 1 k x ltac:(lia) Hs (fun _ => N1) Hk Hx Sx Hf)) as (p & Ep & B). assert (F : fst (cossinv (pr := pr) no_check k x st) = Some p) by (eapply weaker_fst; [apply eixv_weak|exact Ep]).
    exists p. split; [exact F|]. split; [exact B|]. unfold cosv, sinv, bindo, bind. destruct (cossinv no_check k x st) as [[p'|] st']; cbn in F; [|discriminate]. injection F as ->. split; reflexivity.
  Qed.
  (** ** The default configuration *)
  Lemma pow_mul_le c m p j q : 0 <= c -> c ^ m <= p -> p ^ j <= q -> c ^ (m * j) <= q.
  Proof. intros Hc H Hq. rewrite pow_mult. eapply Rle_trans; [|exact Hq]. apply pow_incr. split; [now apply pow_le|exact H]. Qed.
  Lemma default_trig_growth E : (E = 1 \/ E = 2)%Z -> 0 <= trig_growth 65536 E 10 <= IZR E / 20.
  Proof.
    intros HE. unfold trig_growth, growth. change (3 * 2 ^ 10 - 3)%nat with (3 * 1023)%nat. set (c := 1 + IZR E / 65536). assert (C : 1 <= c) by (unfold c; destruct HE as [-> | ->]; lra).
    split; [pose proof (pow_R1_Rle c (3 * 1023) C); lra|].
    assert (G : c ^ (4 * 4 * 4 * 4 * 12) <= 1 + IZR E / 20).
    { destruct HE as [-> | ->].
      - repeat (eapply pow_mul_le; [lra| |]). 1: { instantiate (1 := 1000061039 / 1000000000). unfold c. cbn [pow]. lra. } { instantiate (1 := 1000244179 / 1000000000). cbn [pow]. lra. } { instantiate (1 := 1000977076 / 1000000000). cbn [pow]. lra. } { instantiate (1 := 1003914040 / 1000000000). cbn [pow]. lra. } cbn [pow]. lra.
      - repeat (eapply pow_mul_le; [lra| |]). 1: { instantiate (1 := 1000122077 / 1000000000). unfold c. cbn [pow]. lra. } { instantiate (1 := 1000488399 / 1000000000). cbn [pow]. lra. } { instantiate (1 := 1001955030 / 1000000000). cbn [pow]. lra. } { instantiate (1 := 1007843090 / 1000000000). cbn [pow]. lra. } cbn [pow]. lra. }
    assert (M : c ^ (3 * 1023) <= c ^ (4 * 4 * 4 * 4 * 12)) by (apply Rle_pow; [exact C|lia]). lra.
  Qed.
  Lemma default_radius x : x * x <= 1024 -> 1 <= radius 10 x <= 1 + x * x / 1024.
  Proof.
    intros Hx. pose proof (modulus_power default x ltac:(cbn; lia)) as M. cbv zeta in M. cbn [trig_iterations default] in M. unfold radius. fold (modulus (2 ^ 10) x). split; [apply pow_R1_Rle, modulus_ge|].
    destruct M as [_ M]. eapply Rle_trans; [exact M|]. replace (2 ^ 10) with 1024 by (cbn; ring).
    assert (U : 0 <= x * x / (2 * 1024) <= 1 / 2) by nra. pose proof (exp_minus_1 _ U). replace (x * x / 1024) with (2 * (x * x / (2 * 1024))) by field. lra.
  Qed.
  (** C94: the default configuration, against the cosine and the sine themselves. *)
  Lemma k_C94_default E x st : (E = 1 \/ E = 2)%Z -> sharing n x -> n_sc x = 65536%Z -> let X := rval x in X * X <= 1024 ->
    let bound := X * X / 1024 + Rabs X * (X * X) / (3 * (1024 * 1024)) + (1 + X * X / 1024) * (IZR E / 20) in
    (forall z, fst (cosv (pr := pr) (within E) 10 x st) = Some z -> fst (cosv (pr := pr) no_check 10 x st) = Some z /\ Rabs (rval z - cos X) <= bound) /\
    (forall z, fst (sinv (pr := pr) (within E) 10 x st) = Some z -> fst (sinv (pr := pr) no_check 10 x st) = Some z /\ Rabs (rval z - sin X) <= bound).
  Proof.
    intros HE Hx Sx. cbv zeta. intros HX. pose proof (default_trig_growth E HE) as G. pose proof (default_radius _ HX) as R. assert (E12 : 1 <= IZR E <= 2) by (destruct HE as [-> | ->]; lra). assert (HE' : (1 <= E)%Z) by lia.
    destruct (k_C94_cos_sin 65536 E 10 x st HE' ltac:(lia) ltac:(lia) Hx Sx) as [C S].
    { unfold trig_fits. apply Rle_lt_trans with (65536 * 65536 * (2 * 2)); [|lra]. apply Rmult_le_compat_l; [lra|]. apply Rmult_le_compat; lra. }
    destruct (k_C73_near default (rval x) ltac:(cbn; lia)) as [NC NS]; [cbn [trig_iterations default]; lra|]. cbn [trig_iterations default] in NC, NS. replace (2 ^ 10) with 1024 in NC, NS by (cbn; ring).
    pose proof (limit_is_eix 10 (rval x) ltac:(lia)) as [L _]. assert (LC : limit_cos 10 (rval x) = mpc_cos default (rval x)) by (change (limit_cos 10 (rval x) = fst (eix default (rval x))); change (eix default (rval x)) with (csquares (10 - 1) (1 - rval x / 2 ^ 10 * (rval x / 2 ^ 10), rval x / 2 ^ 10 * 2)); now rewrite L).
    assert (LS : limit_sin 10 (rval x) = mpc_sin default (rval x)) by (change (limit_sin 10 (rval x) = snd (eix default (rval x))); change (eix default (rval x)) with (csquares (10 - 1) (1 - rval x / 2 ^ 10 * (rval x / 2 ^ 10), rval x / 2 ^ 10 * 2)); now rewrite L).
    assert (B : radius 10 (rval x) * trig_growth 65536 E 10 <= (1 + rval x * rval x / 1024) * (IZR E / 20)) by (apply Rmult_le_compat; lra).
    split; intros z Hz.
    - destruct (C z Hz) as (A & _ & D). split; [exact A|]. rewrite LC in D. replace (rval z - cos (rval x)) with ((rval z - mpc_cos default (rval x)) + (mpc_cos default (rval x) - cos (rval x))) by ring. eapply Rle_trans; [apply Rabs_triang|]. lra.
    - destruct (S z Hz) as (A & _ & D). split; [exact A|]. rewrite LS in D. replace (rval z - sin (rval x)) with ((rval z - mpc_sin default (rval x)) + (mpc_sin default (rval x) - sin (rval x))) by ring. eapply Rle_trans; [apply Rabs_triang|]. lra.
  Qed.
End Claims.
(** C94 refuted far from 0: one party, default configuration: cos(100) comes out above 84 and sin(100) below -96, before any overflow; from 215 on the squares overflow too. *)
Lemma k_C94_far_refuted : exists pr st x z w, valid 1 pr /\ sharing 1 x /\ n_sc x = 65536%Z /\ rval x = 100 /\ fst (cosv (pr := pr) no_check 10 x st) = Some z /\ rval z > 84 /\ fst (sinv (pr := pr) no_check 10 x st) = Some w /\ rval w < -96.
Proof.
  destruct (number_ok 100 ltac:(lia)) as (A & B & C). destruct (run_gives 100 (cosv (pr := alone) no_check 10 (number 100)) 5517821 ltac:(vm_compute; reflexivity) ltac:(lia)) as (z & Z1 & Z2). destruct (run_gives 100 (sinv (pr := alone) no_check 10 (number 100)) (-6323880) ltac:(vm_compute; reflexivity) ltac:(lia)) as (w & W1 & W2).
  exists alone, tt, (number 100), z, w. split; [exact alone_valid|]. split; [exact A|]. split; [exact B|]. split; [exact C|]. split; [exact Z1|]. split; [rewrite Z2; lra|]. split; [exact W1|rewrite W2; lra].
Qed.

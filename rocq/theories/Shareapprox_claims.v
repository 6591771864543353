(** Proofs of C79, C80, C81: exp, reciprocal, sigmoid and tanh on shares. *)
Require Import ZArith QArith List Bool Lia Reals Lra.
From Verif Require Import Approx Approx_claims Approxfn_claims.
From Verif Require Import Ring64 Encoder Arith Arith_proofs Beaver Trunc Provider Binary Binary_proofs Compare Compare_proofs Compare_claims Maximum Regular Regular_proofs Regular_claims Shareapprox Shareapprox_proofs.
Import ListNotations.
Open Scope R_scope.

(** the value of a revealed number *)
Definition rval (x : num) : R := IZR (open_a (n_sh x)) / IZR (n_sc x).
(** the exponential without rounding: (1 + x/2^d)^(2^d); how far [m] relative errors of E/s take a number *)
Definition limit_exp (d : nat) (x : R) : R := (1 + x / 2 ^ d) ^ (2 ^ d).
Definition growth (s E : Z) (m : nat) : R := (1 + IZR E / IZR s) ^ m - 1.
Definition exp_growth (s E : Z) (d : nat) : R := growth s E (2 ^ S d - 1).

Section Claims.
  Variables (n : nat) (pr : provider) (D : Z).
  Hypothesis Hn : (0 < n)%nat.
  Hypothesis HV : valid n pr.

  Lemma in_open x : sharing n x -> in64 (open_a (n_sh x)).
  Proof. intros _. apply open_a_in64. Qed.
  Lemma rval_holds s q z : (1 < s)%Z -> holds n s q z -> n_sc z = s /\ rval z = real s q.
  Proof. intros Hs [H I]. pose proof (proj2 H) as S. split; [exact S|]. unfold rval, real. now rewrite (nshare_sharing n q s z ltac:(lia) H I), S. Qed.
  Lemma holds_rval s x : sharing n x -> n_sc x = s -> holds n s (open_a (n_sh x)) x /\ real s (open_a (n_sh x)) = rval x.
  Proof. intros H S. split; [split; [now apply sharing_nshare|now apply in_open]|]. unfold rval, real. now rewrite S. Qed.
  Lemma growth_factor s E d : exp_growth s E d = factor s E d - 1.
  Proof. unfold exp_growth, growth. rewrite factor_pow. reflexivity. Qed.

  (** C79 *)
  Lemma exp_yo T s E d x : (1 <= E)%Z -> (1 < s)%Z -> (T = true -> n = 1%nat) -> (1 <= d)%nat -> sharing n x -> n_sc x = s ->
    IZR s * IZR s * (Rmax 1 (Rabs (limit_exp d (rval x))) * (1 + exp_growth s E d)) < 2 ^ 63 ->
    yo T (expv (pr := pr) (within E) d x) (fun z => n_sc z = s /\ Rabs (rval z - limit_exp d (rval x)) <= Rmax 1 (Rabs (limit_exp d (rval x))) * exp_growth s E d).
  Proof.
    intros HE Hs HT Hd Hx Sx Hf. destruct (holds_rval s x Hx Sx) as [Hv Rv]. set (v := open_a (n_sh x)) in *. pose proof (s_pos s Hs) as S. pose proof (eta_pos s E HE Hs) as Ep.
    assert (L : limit_exp d (rval x) = exact_exp s d v) by (unfold exact_exp, limit_exp; rewrite exp_approx_power, Rv; reflexivity). rewrite L in *. rewrite growth_factor in *.
    replace (1 + (factor s E d - 1)) with (factor s E d) in Hf by ring. change (Rmax 1 (Rabs (exact_exp s d v))) with (top1 (exact_exp s d v)) in *. destruct (top1_ge (exact_exp s d v)) as [M _]. pose proof (factor_ge s E HE Hs d) as F.
    eapply yo_weaken; [apply (exp_real n Hn pr HV s E T HE Hs HT d v x Hv)|].
    - change (IZR H63) with (IZR 9223372036854775808). lra.
    - (* x/2^d fits since x does and d is not 0 *)
      destruct Hv as [_ I]. assert (B : IZR s * Rabs (real s v) <= 9223372036854775808).
      { unfold real, Rdiv. rewrite Rabs_mult, (Rabs_right (/ IZR s)) by (left; now apply Rinv_0_lt_compat). rewrite <- abs_IZR. replace (IZR s * (IZR (Z.abs v) * / IZR s)) with (IZR (Z.abs v)) by (field; lra).
        apply (IZR_le _ 9223372036854775808). unfold in64, H63 in I. lia. }
      assert (E1 : 1 + eta s E <= factor s E d) by exact (factor_mono s E HE Hs 0 d ltac:(lia)).
      assert (S2 : IZR s * (IZR s * (1 + eta s E)) < 9223372036854775808). { eapply Rle_lt_trans; [|apply (Rlt_le_trans _ _ 9223372036854775808 Hf); lra]. rewrite <- Rmult_assoc. apply Rmult_le_compat_l; [nra|]. nra. }
      assert (S2' : 2 <= IZR s) by (apply (IZR_le 2); lia). set (t := IZR s * (1 + eta s E)) in *. assert (T0 : 0 < t) by (unfold t; nra). assert (T2 : 2 * t < 9223372036854775808) by nra.
      assert (P : / 2 ^ d <= / 2). { apply Rinv_le_contravar; [lra|]. rewrite <- (pow_1 2) at 1. apply Rle_pow; [lra|exact Hd]. }
      assert (X : IZR s * (Rabs (real s v) / 2 ^ d) <= 9223372036854775808 * / 2). { unfold Rdiv. rewrite <- Rmult_assoc. apply Rmult_le_compat; [apply Rmult_le_pos; [lra|apply Rabs_pos]|left; apply Rinv_0_lt_compat, pow_lt; lra|exact B|exact P]. }
      change (IZR H63) with (IZR 9223372036854775808). replace (IZR s * (1 + Rabs (real s v) / 2 ^ d + eta s E)) with (t + IZR s * (Rabs (real s v) / 2 ^ d)) by (unfold t; ring). lra.
    - intros z (q & Hq & B & _). destruct (rval_holds s q z Hs Hq) as [Sz Rz]. split; [exact Sz|]. rewrite Rz. exact B.
  Qed.
  (** C79: [exp] with [d] = functions.exp_iterations on an encrypted number. *)
  Lemma k_C79_exp s E d x st z : (1 <= E)%Z -> (1 < s)%Z -> (1 <= d)%nat -> sharing n x -> n_sc x = s ->
    IZR s * IZR s * (Rmax 1 (Rabs (limit_exp d (rval x))) * (1 + exp_growth s E d)) < 2 ^ 63 ->
    fst (expv (pr := pr) (within E) d x st) = Some z ->
    fst (expv (pr := pr) no_check d x st) = Some z /\ n_sc z = s /\ Rabs (rval z - limit_exp d (rval x)) <= Rmax 1 (Rabs (limit_exp d (rval x))) * exp_growth s E d.
  Proof.
    intros HE Hs Hd Hx Sx Hf Hz. split; [eapply weaker_fst; [apply expv_weak|exact Hz]|]. exact (yo_some _ _ _ _ _ (exp_yo false s E d x HE Hs ltac:(discriminate) Hd Hx Sx Hf) Hz).
  Qed.
  (** C79: with one party no assumption on the truncations is needed. *)
  Lemma k_C79_one_party s d x st : n = 1%nat -> (1 < s)%Z -> (1 <= d)%nat -> sharing n x -> n_sc x = s ->
    IZR s * IZR s * (Rmax 1 (Rabs (limit_exp d (rval x))) * (1 + exp_growth s 1 d)) < 2 ^ 63 ->
    exists z, fst (expv (pr := pr) no_check d x st) = Some z /\ n_sc z = s /\ Rabs (rval z - limit_exp d (rval x)) <= Rmax 1 (Rabs (limit_exp d (rval x))) * exp_growth s 1 d.
  Proof.
    intros N1 Hs Hd Hx Sx Hf. destruct (yo_true _ _ st (exp_yo true s 1 d x ltac:(lia) Hs (fun _ => N1) Hd Hx Sx Hf)) as (z & Ez & B). exists z. split; [eapply weaker_fst; [apply expv_weak|exact Ez]|exact B].
  Qed.

  (** ** The default scale and number of iterations, truncations within one or two units *)
  Lemma pow_step c m p q b : 0 <= p -> c ^ m <= p -> 0 <= c -> p * p * b <= q -> 0 <= b -> c <= b -> c ^ (m + m + 1) <= q.
  Proof.
    intros Hp H Hc Hq Hb Hcb. rewrite !pow_add, pow_1. assert (0 <= c ^ m) by now apply pow_le. eapply Rle_trans; [|exact Hq]. apply Rmult_le_compat; [nra|lra|apply Rmult_le_compat; lra|exact Hcb].
  Qed.
  Lemma default_growth E : (E = 1 \/ E = 2)%Z -> exp_growth 65536 E 8 <= 79 / 10000 * IZR E /\ exp_growth 65536 E 7 <= 79 / 20000 * IZR E.
  Proof.
    unfold exp_growth, growth. intros [-> | ->].
    - set (c := 1 + 1 / 65536). assert (C : 0 <= c <= 1000015259 / 1000000000) by (unfold c; lra).
      assert (P1 : c ^ 1 <= 1000015259 / 1000000000) by (rewrite pow_1; apply C).
      pose proof (pow_step c 1 (1000015259 / 1000000000) (1000045778 / 1000000000) (1000015259 / 1000000000) ltac:(lra) P1 ltac:(lra) ltac:(lra) ltac:(lra) ltac:(lra)) as P2. change (1 + 1 + 1)%nat with 3%nat in P2.
      pose proof (pow_step c 3 (1000045778 / 1000000000) (1000106819 / 1000000000) (1000015259 / 1000000000) ltac:(lra) P2 ltac:(lra) ltac:(lra) ltac:(lra) ltac:(lra)) as P3. change (3 + 3 + 1)%nat with 7%nat in P3.
      pose proof (pow_step c 7 (1000106819 / 1000000000) (1000228912 / 1000000000) (1000015259 / 1000000000) ltac:(lra) P3 ltac:(lra) ltac:(lra) ltac:(lra) ltac:(lra)) as P4. change (7 + 7 + 1)%nat with 15%nat in P4.
      pose proof (pow_step c 15 (1000228912 / 1000000000) (1000473143 / 1000000000) (1000015259 / 1000000000) ltac:(lra) P4 ltac:(lra) ltac:(lra) ltac:(lra) ltac:(lra)) as P5. change (15 + 15 + 1)%nat with 31%nat in P5.
      pose proof (pow_step c 31 (1000473143 / 1000000000) (1000961784 / 1000000000) (1000015259 / 1000000000) ltac:(lra) P5 ltac:(lra) ltac:(lra) ltac:(lra) ltac:(lra)) as P6. change (31 + 31 + 1)%nat with 63%nat in P6.
      pose proof (pow_step c 63 (1000961784 / 1000000000) (1001939782 / 1000000000) (1000015259 / 1000000000) ltac:(lra) P6 ltac:(lra) ltac:(lra) ltac:(lra) ltac:(lra)) as P7. change (63 + 63 + 1)%nat with 127%nat in P7.
      pose proof (pow_step c 127 (1001939782 / 1000000000) (1003898646 / 1000000000) (1000015259 / 1000000000) ltac:(lra) P7 ltac:(lra) ltac:(lra) ltac:(lra) ltac:(lra)) as P8. change (127 + 127 + 1)%nat with 255%nat in P8.
      pose proof (pow_step c 255 (1003898646 / 1000000000) (1007827870 / 1000000000) (1000015259 / 1000000000) ltac:(lra) P8 ltac:(lra) ltac:(lra) ltac:(lra) ltac:(lra)) as P9. change (255 + 255 + 1)%nat with 511%nat in P9.
      change (2 ^ 9 - 1)%nat with 511%nat. change (2 ^ 8 - 1)%nat with 255%nat. lra.
    - set (c := 1 + 2 / 65536). assert (C : 0 <= c <= 1000030518 / 1000000000) by (unfold c; lra).
      assert (P1 : c ^ 1 <= 1000030518 / 1000000000) by (rewrite pow_1; apply C).
      pose proof (pow_step c 1 (1000030518 / 1000000000) (1000091557 / 1000000000) (1000030518 / 1000000000) ltac:(lra) P1 ltac:(lra) ltac:(lra) ltac:(lra) ltac:(lra)) as P2. change (1 + 1 + 1)%nat with 3%nat in P2.
      pose proof (pow_step c 3 (1000091557 / 1000000000) (1000213646 / 1000000000) (1000030518 / 1000000000) ltac:(lra) P2 ltac:(lra) ltac:(lra) ltac:(lra) ltac:(lra)) as P3. change (3 + 3 + 1)%nat with 7%nat in P3.
      pose proof (pow_step c 7 (1000213646 / 1000000000) (1000457869 / 1000000000) (1000030518 / 1000000000) ltac:(lra) P3 ltac:(lra) ltac:(lra) ltac:(lra) ltac:(lra)) as P4. change (7 + 7 + 1)%nat with 15%nat in P4.
      pose proof (pow_step c 15 (1000457869 / 1000000000) (1000946494 / 1000000000) (1000030518 / 1000000000) ltac:(lra) P4 ltac:(lra) ltac:(lra) ltac:(lra) ltac:(lra)) as P5. change (15 + 15 + 1)%nat with 31%nat in P5.
      pose proof (pow_step c 31 (1000946494 / 1000000000) (1001924460 / 1000000000) (1000030518 / 1000000000) ltac:(lra) P5 ltac:(lra) ltac:(lra) ltac:(lra) ltac:(lra)) as P6. change (31 + 31 + 1)%nat with 63%nat in P6.
      pose proof (pow_step c 63 (1001924460 / 1000000000) (1003883260 / 1000000000) (1000030518 / 1000000000) ltac:(lra) P6 ltac:(lra) ltac:(lra) ltac:(lra) ltac:(lra)) as P7. change (63 + 63 + 1)%nat with 127%nat in P7.
      pose proof (pow_step c 127 (1003883260 / 1000000000) (1007812356 / 1000000000) (1000030518 / 1000000000) ltac:(lra) P7 ltac:(lra) ltac:(lra) ltac:(lra) ltac:(lra)) as P8. change (127 + 127 + 1)%nat with 255%nat in P8.
      pose proof (pow_step c 255 (1007812356 / 1000000000) (1015716742 / 1000000000) (1000030518 / 1000000000) ltac:(lra) P8 ltac:(lra) ltac:(lra) ltac:(lra) ltac:(lra)) as P9. change (255 + 255 + 1)%nat with 511%nat in P9.
      change (2 ^ 9 - 1)%nat with 511%nat. change (2 ^ 8 - 1)%nat with 255%nat. lra.
  Qed.
  Lemma pow_dbl c m p q : 0 <= p -> 0 <= c -> c ^ m <= p -> p * p <= q -> c ^ (m + m) <= q.
  Proof. intros Hp Hc H Hq. rewrite pow_add. assert (0 <= c ^ m) by now apply pow_le. eapply Rle_trans; [|exact Hq]. apply Rmult_le_compat; assumption. Qed.
  Lemma limit_22 x : 0 <= x <= 22 -> limit_exp 8 x <= 1500000000.
  Proof.
    intros Hx. unfold limit_exp. change (2 ^ 8)%nat with 256%nat. assert (R8 : 2 ^ 8 = 256) by lra. rewrite R8.
    apply Rle_trans with ((278 / 256) ^ 256); [apply pow_incr; lra|].
    set (c := 278 / 256). assert (C : 0 <= c) by (unfold c; lra). assert (P0 : c ^ 1 <= 1085938 / 1000000) by (rewrite pow_1; unfold c; lra).
    pose proof (pow_dbl c 1 (1085938 / 1000000) (1179262 / 1000000) ltac:(lra) C P0 ltac:(lra)) as P1. change (1 + 1)%nat with 2%nat in P1.
    pose proof (pow_dbl c 2 (1179262 / 1000000) (1390659 / 1000000) ltac:(lra) C P1 ltac:(lra)) as P2. change (2 + 2)%nat with 4%nat in P2.
    pose proof (pow_dbl c 4 (1390659 / 1000000) (1933933 / 1000000) ltac:(lra) C P2 ltac:(lra)) as P3. change (4 + 4)%nat with 8%nat in P3.
    pose proof (pow_dbl c 8 (1933933 / 1000000) (3740097 / 1000000) ltac:(lra) C P3 ltac:(lra)) as P4. change (8 + 8)%nat with 16%nat in P4.
    pose proof (pow_dbl c 16 (3740097 / 1000000) (13988326 / 1000000) ltac:(lra) C P4 ltac:(lra)) as P5. change (16 + 16)%nat with 32%nat in P5.
    pose proof (pow_dbl c 32 (13988326 / 1000000) (195673265 / 1000000) ltac:(lra) C P5 ltac:(lra)) as P6. change (32 + 32)%nat with 64%nat in P6.
    pose proof (pow_dbl c 64 (195673265 / 1000000) (38288026636 / 1000000) ltac:(lra) C P6 ltac:(lra)) as P7. change (64 + 64)%nat with 128%nat in P7.
    pose proof (pow_dbl c 128 (38288026636 / 1000000) (1465972983679046 / 1000000) ltac:(lra) C P7 ltac:(lra)) as P8. change (128 + 128)%nat with 256%nat in P8.
    lra.
  Qed.
  Lemma limit_is d x : limit_exp d x = exp_approx d x. Proof. symmetry. apply exp_approx_power. Qed.
  (** C79: the default configuration, against e^x itself. *)
  Lemma k_C79_default E x st z : (E = 1 \/ E = 2)%Z -> sharing n x -> n_sc x = 65536%Z -> fst (expv (pr := pr) (within E) 8 x st) = Some z ->
    fst (expv (pr := pr) no_check 8 x st) = Some z /\
    (-256 <= rval x <= 0 -> Rabs (rval z - exp (rval x)) <= 4 / 1000 + 79 / 10000 * IZR E) /\
    (0 <= rval x <= 22 -> Rabs (rval z - exp (rval x)) <= exp (rval x) * (rval x * rval x / 256 + 79 / 10000 * IZR E)).
  Proof.
    intros HE Hx Sx Hz. destruct (default_growth E HE) as [G8 _]. assert (E12 : 1 <= IZR E <= 2) by (destruct HE as [-> | ->]; lra). assert (HE' : (1 <= E)%Z) by lia.
    assert (G0 : 0 <= exp_growth 65536 E 8) by (rewrite growth_factor; pose proof (factor_ge 65536 E HE' ltac:(lia) 8); lra).
    assert (K : forall M, Rmax 1 (Rabs (limit_exp 8 (rval x))) <= M -> M <= 1500000000 -> Rabs (rval z - limit_exp 8 (rval x)) <= M * (79 / 10000 * IZR E)).
    { intros M HM HM'. assert (M1 : 1 <= Rmax 1 (Rabs (limit_exp 8 (rval x)))) by apply Rmax_l. eapply Rle_trans; [apply (k_C79_exp 65536 E 8 x st z HE' ltac:(lia) ltac:(lia) Hx Sx); [|exact Hz]|apply Rmult_le_compat; lra].
      apply Rle_lt_trans with (65536 * 65536 * (1500000000 * (1 + 79 / 10000 * 2))); [|lra]. apply Rmult_le_compat_l; [lra|]. apply Rmult_le_compat; lra. }
    split; [eapply weaker_fst; [apply expv_weak|exact Hz]|]. assert (R8 : 2 ^ 8 = 256) by lra. split; intros B.
    - assert (U : 0 <= limit_exp 8 (rval x) <= 1). { rewrite limit_is. apply (exp_unit default); cbn [exp_iterations default]; [lia|lra]. }
      specialize (K 1 ltac:(rewrite Rabs_right by lra; apply Rmax_lub; lra) ltac:(lra)). rewrite limit_is in K.
      pose proof (exp_minus_near default (- rval x) ltac:(cbn; lia)) as X. cbn [exp_iterations default] in X. rewrite R8, Ropp_involutive in X. specialize (X ltac:(lra)). unfold mpc_exp in X. cbn [exp_iterations default] in X.
      replace (rval z - exp (rval x)) with ((rval z - exp_approx 8 (rval x)) + - (exp (rval x) - exp_approx 8 (rval x))) by ring. eapply Rle_trans; [apply Rabs_triang|]. rewrite Rabs_Ropp, (Rabs_right (exp _ - _)) by lra. lra.
    - pose proof (approx_le_exp 8 (rval x) ltac:(lra)) as U. pose proof (approx_ge_exp 8 (rval x) ltac:(lia)) as L. rewrite R8 in L. pose proof (limit_22 _ B) as M. assert (L1 : 1 <= limit_exp 8 (rval x)) by (unfold limit_exp; apply pow_R1_Rle; lra). rewrite limit_is in *.
      specialize (K (exp_approx 8 (rval x)) ltac:(rewrite Rabs_right by lra; apply Rmax_lub; lra) M). pose proof (exp_pos (rval x)).
      replace (rval z - exp (rval x)) with ((rval z - exp_approx 8 (rval x)) + - (exp (rval x) - exp_approx 8 (rval x))) by ring. eapply Rle_trans; [apply Rabs_triang|]. rewrite Rabs_Ropp, (Rabs_right (exp _ - _)) by lra.
      assert (exp_approx 8 (rval x) * (79 / 10000 * IZR E) <= exp (rval x) * (79 / 10000 * IZR E)) by (apply Rmult_le_compat_r; lra). lra.
  Qed.

  (** ** Reciprocal *)
  Hypothesis HD : (1 < D)%Z.
  Lemma ratio_own : ratio D D = 1%Z. Proof. apply (ratio_D n Hn). lia. Qed.
  (** one Newton step on the relative error, with the rounding of its two products *)
  Definition newton (E : Z) (X q : R) : R := q * q + X * (X + 1) * (IZR E / IZR D).
  Lemma real_abs v : real D (Z.abs v) = Rabs (real D v).
  Proof. pose proof (s_pos D HD) as S. unfold real, Rdiv. rewrite Rabs_mult, (Rabs_right (/ IZR D)) by (left; now apply Rinv_0_lt_compat). now rewrite abs_IZR. Qed.
  Lemma bound64 v M : Rabs (real D v) <= M -> IZR D * M < 2 ^ 63 -> in64 v.
  Proof. intros A B. apply (real_le D HD) in A. assert (C : IZR (Z.abs v) < 9223372036854775808) by lra. apply lt_IZR in C. unfold in64, H63. lia. Qed.
  Lemma newton_decreases E X q0 k : (1 <= E)%Z -> 0 < X -> 0 <= q0 -> newton E X q0 <= q0 -> 0 <= Nat.iter k (newton E X) q0 <= q0.
  Proof.
    intros HE HX H0 H. pose proof (noise_pos D E HE HD X HX) as N. change (noise D E X) with (X * (X + 1) * (IZR E / IZR D)) in N.
    induction k as [|k IH]; [cbn; lra|]. change (Nat.iter (S k) (newton E X) q0) with (newton E X (Nat.iter k (newton E X) q0)). unfold newton at 1 3. unfold newton at 1 in H.
    set (q := Nat.iter k (newton E X) q0) in *. assert (q * q <= q0 * q0) by (apply Rmult_le_compat; lra). assert (0 <= q * q) by nra. lra.
  Qed.
  Lemma recip_yo T E d k x q0 : (1 <= E)%Z -> (T = true -> n = 1%nat) -> sharing n x -> n_sc x = D -> let X := Rabs (rval x) in 0 < X ->
    IZR D * (2 * X + 1) < 2 ^ 63 -> IZR D * (2 / X) <= 2 ^ 31 -> IZR D * IZR D * ((4 / (X * X) + IZR E / IZR D) * X) < 2 ^ 63 ->
    IZR D * IZR D * (Rmax 1 (Rabs (limit_exp d (1 - 2 * X))) * (1 + exp_growth D E d)) < 2 ^ 63 -> IZR D * (1 + Rabs (1 - 2 * X) / 2 ^ d + IZR E / IZR D) < 2 ^ 63 ->
    (forall q e, exp_near D E d (limit_exp d (1 - 2 * X)) q -> Rabs (e - 3 / 1000) <= / IZR D -> Rabs (1 - X * (3 * q + e)) <= q0) -> q0 <= 1 -> newton E X q0 <= q0 ->
    yo T (reciprocalv (pr := pr) D (within E) d k x) (fun z => n_sc z = D /\ Rabs (1 - rval x * rval z) <= Nat.iter k (newton E X) q0).
  Proof.
    intros HE HT Hx Sx X HX F1 F2 F3 F4 F5 Hq Q1 Q2. destruct (holds_rval D x Hx Sx) as [[Hv Iv] Rv]. set (v := open_a (n_sh x)) in *. pose proof (s_pos D HD) as S.
    assert (W : real D (Z.abs v) = X) by (unfold X; rewrite <- Rv; apply real_abs). change (2 ^ 63) with (2 ^ 63) in *.
    assert (RW : real D (D - Z.abs v * 2) = 1 - 2 * X) by (rewrite <- W; unfold real; rewrite minus_IZR, mult_IZR; field; lra).
    assert (IW : in64 (Z.abs v)) by (apply (bound64 _ (2 * X + 1)); [rewrite W, Rabs_right; lra|exact F1]).
    assert (I2 : in64 (D - Z.abs v * 2)) by (apply (bound64 _ (2 * X + 1)); [rewrite RW; apply Rabs_le; lra|exact F1]).
    assert (Le : exact_exp D d (D - Z.abs v * 2) = limit_exp d (1 - 2 * X)) by (unfold exact_exp; rewrite RW; symmetry; apply limit_is).
    assert (R63 : 2 ^ 63 = IZR H63) by (change (IZR H63) with (IZR 9223372036854775808); lra). rewrite R63 in *.
    assert (Fe : fits_exp D E d (D - Z.abs v * 2)).
    { split; [rewrite Le; replace (factor D E d) with (1 + exp_growth D E d) by (rewrite growth_factor; ring); exact F4|rewrite RW; exact F5]. }
    assert (Fn : fits_nr D E (real D (Z.abs v))) by (rewrite W; split; [exact HX|split; [exact F2|exact F3]]).
    eapply yo_weaken; [apply (reciprocal_real n Hn pr HV D E D T HE HD HT ratio_own d k v x q0 Hv Iv IW I2 Fe Fn)|].
    - rewrite W, <- limit_is. exact Hq.
    - exact Q1.
    - rewrite W. exact Q2.
    - rewrite W. intros z (u & Hz & Iu & B).
      assert (N : nshare n (sg v * u) D z /\ in64 (sg v * u)).
      { split; [exact Hz|]. assert (Q0 : 0 <= q0).
        { destruct (Rle_dec 0 q0) as [|C]; [assumption|exfalso]. unfold newton in Q2. pose proof (noise_pos D E HE HD X HX) as N'. change (noise D E X) with (X * (X + 1) * (IZR E / IZR D)) in N'. nra. }
        pose proof (newton_decreases E X q0 k HE HX Q0 Q2) as Dn. change (refine D E X) with (newton E X) in B.
        apply (bound64 _ (2 / X)); [|lra]. assert (Ru : Rabs (real D (sg v * u)) = Rabs (real D u)). { unfold real. rewrite mult_IZR. unfold sg. destruct (v <? 0)%Z; [replace (-1 * IZR u / IZR D) with (- (IZR u / IZR D)) by (field; lra); apply Rabs_Ropp|f_equal; field; lra]. }
        rewrite Ru. eapply near_inverse; [exact HX|exact B|lra]. }
      destruct (rval_holds D (sg v * u) z HD N) as [Sz Rz]. split; [exact Sz|]. change (refine D E X) with (newton E X) in B. rewrite Rz, <- Rv.
      replace (real D v * real D (sg v * u)) with (X * real D u); [exact B|]. rewrite <- W, <- sg_abs. unfold real. rewrite !mult_IZR. unfold sg. destruct (v <? 0)%Z; field; lra.
  Qed.
  (** C80: [reciprocal] on an encrypted number, [d] iterations of exp and [k] of Newton's method. *)
  Lemma k_C80_error E d k x st z q0 : (1 <= E)%Z -> sharing n x -> n_sc x = D -> let X := Rabs (rval x) in let a := limit_exp d (1 - 2 * X) in 0 < X ->
    IZR D * (2 * X + 1) < 2 ^ 63 -> IZR D * (2 / X) <= 2 ^ 31 -> IZR D * IZR D * ((4 / (X * X) + IZR E / IZR D) * X) < 2 ^ 63 ->
    IZR D * IZR D * (Rmax 1 (Rabs a) * (1 + exp_growth D E d)) < 2 ^ 63 -> IZR D * (1 + Rabs (1 - 2 * X) / 2 ^ d + IZR E / IZR D) < 2 ^ 63 ->
    Rabs (1 - X * (3 * a + 3 / 1000)) + X * (3 * (Rmax 1 (Rabs a) * exp_growth D E d) + / IZR D) <= q0 -> q0 <= 1 -> newton E X q0 <= q0 ->
    fst (reciprocalv (pr := pr) D (within E) d k x st) = Some z ->
    fst (reciprocalv (pr := pr) D no_check d k x st) = Some z /\ n_sc z = D /\ Rabs (1 - rval x * rval z) <= Nat.iter k (newton E X) q0.
  Proof.
    intros HE Hx Sx X a HX F1 F2 F3 F4 F5 Hq Q1 Q2 Hz. split; [eapply weaker_fst; [apply reciprocalv_weak|exact Hz]|].
    refine (yo_some _ _ _ _ _ (recip_yo false E d k x q0 HE ltac:(discriminate) Hx Sx HX F1 F2 F3 F4 F5 _ Q1 Q2) Hz).
    intros q e [B _] Be. fold X a in B |- *. rewrite <- growth_factor in B. change (top1 a) with (Rmax 1 (Rabs a)) in B. eapply Rle_trans; [|exact Hq].
    replace (1 - X * (3 * q + e)) with ((1 - X * (3 * a + 3 / 1000)) + - (X * (3 * (q - a) + (e - 3 / 1000)))) by field. eapply Rle_trans; [apply Rabs_triang|]. apply Rplus_le_compat_l.
    rewrite Rabs_Ropp, Rabs_mult, (Rabs_right X) by lra. apply Rmult_le_compat_l; [lra|]. eapply Rle_trans; [apply Rabs_triang|]. rewrite Rabs_mult, (Rabs_right 3) by lra. lra.
  Qed.

  (** ** Sigmoid and tanh *)
  Definition sigmoid_error (E : Z) (d : nat) : R := 1 / 256 + 3 / 2 * (exp_growth D E d + / 2 ^ d) + 16 * (IZR E / IZR D).
  Lemma sigmoid_yo T E d v x : (1 <= E)%Z -> (T = true -> n = 1%nat) -> nshare n v D x -> in64 v -> in64 (Z.abs v) -> (1 <= d)%nat -> (D <= 2 ^ 28)%Z -> (1024 * E <= D)%Z -> exp_growth D E d <= 1 / 8 -> Rabs (real D v) <= 2 ^ d ->
    yo T (sigmoidv (pr := pr) D (within E) d x) (fun z => exists u, nshare n u D z /\ Rabs (real D u) <= 2 /\ Rabs (real D u - exact_sigmoid (real D v)) <= sigmoid_error E d).
  Proof.
    intros HE HT Hx Iv Iw Hd D28 DE G8 B. pose proof (s_pos D HD) as S. pose proof (eta_pos D E HE HD) as Ep. rewrite growth_factor in G8. pose proof (factor_ge D E HE HD d) as F1.
    assert (E8 : eta D E <= 1 / 1024). { unfold eta. apply IZR_le in DE. rewrite mult_IZR in DE. apply Rmult_le_reg_r with (IZR D); [exact S|]. unfold Rdiv. rewrite Rmult_assoc, Rinv_l by lra. lra. }
    assert (P2 : 2 <= 2 ^ d). { rewrite <- (pow_1 2) at 1. apply Rle_pow; [lra|exact Hd]. } assert (P2i : 0 < / 2 ^ d <= / 2) by (split; [apply Rinv_0_lt_compat; lra|apply Rinv_le_contravar; lra]).
    eapply yo_weaken; [apply (sigmoid_real n Hn pr HV D E D T HE HD HT ratio_own d v x Hd Hx Iv Iw); [rewrite real_abs; exact B|exact G8|exact E8|exact D28]|].
    intros z (u & t & Hz & Iu & Bt & Bu). rewrite real_abs in Bt. set (X := real D v) in *. set (p := factor D E d - 1) in *.
    assert (P0 : 0 <= p <= 1 / 8) by (split; [unfold p; lra|exact G8]).
    assert (Near : 0 <= exp (- Rabs X) - exp_approx d (- Rabs X) <= / 2 ^ d).
    { pose proof (exp_minus_near (with_exp_iterations d default) (Rabs X)) as N. cbn [with_exp_iterations exp_iterations] in N. apply N; [exact Hd|split; [apply Rabs_pos|exact B]]. }
    assert (U : 0 <= exp_approx d (- Rabs X) <= 1). { apply (exp_unit (with_exp_iterations d default)); cbn [with_exp_iterations exp_iterations]; [exact Hd|]. pose proof (Rabs_pos X). lra. }
    pose proof (exp_pos (- Rabs X)) as Xp. set (e := exp (- Rabs X)) in *. set (a := exp_approx d (- Rabs X)) in *. set (b := 1 / 256 + p / 8 + 16 * eta D E) in *. assert (Bb : b <= 1 / 20) by (unfold b; lra).
    apply Rabs_def2' in Bt, Bu. set (r := real D u) in *.
    assert (R1 : 0 <= r <= 5 / 4). { assert (T1 : 7 / 8 <= 1 + t <= 17 / 8) by lra. split; nra. }
    assert (Key : Rabs (r - / (1 + e)) <= sigmoid_error E d).
    { replace (r - / (1 + e)) with (- ((1 - (1 + e) * r) * / (1 + e))) by (field; lra). rewrite Rabs_Ropp, Rabs_mult. assert (I1 : 0 < / (1 + e) <= 1). { split; [apply Rinv_0_lt_compat; lra|]. rewrite <- Rinv_1. apply Rinv_le_contravar; lra. }
      rewrite (Rabs_right (/ (1 + e))) by lra. assert (A : Rabs (1 - (1 + e) * r) <= sigmoid_error E d).
      { unfold sigmoid_error. rewrite growth_factor. fold p. change (IZR E / IZR D) with (eta D E). replace (1 - (1 + e) * r) with ((1 - (1 + t) * r) + (t - e) * r) by ring. eapply Rle_trans; [apply Rabs_triang|].
        assert (A1 : Rabs (1 - (1 + t) * r) <= b) by (apply Rabs_le; lra). assert (A2 : Rabs ((t - e) * r) <= (p + / 2 ^ d) * (5 / 4)). { rewrite Rabs_mult. apply Rmult_le_compat; try apply Rabs_pos; apply Rabs_le; lra. } unfold b in A1. lra. }
      pose proof (Rabs_pos (1 - (1 + e) * r)). nra. }
    assert (Sg : exact_sigmoid (Rabs X) = / (1 + e)) by reflexivity.
    destruct (Z.ltb_spec v 0) as [N|N].
    - exists (D - u)%Z. assert (Rr : real D (D - u) = 1 - r) by (unfold r, real; rewrite minus_IZR; field; lra). rewrite Rr. split; [exact Hz|]. split; [apply Rabs_le; lra|].
      assert (Xn : X < 0) by (unfold X, real, Rdiv; apply IZR_lt in N; pose proof (Rinv_0_lt_compat _ S); nra). rewrite (sigmoid_sym X), <- (Rabs_left X Xn), Sg. replace (1 - r - (1 - / (1 + e))) with (- (r - / (1 + e))) by ring. rewrite Rabs_Ropp. exact Key.
    - exists u. fold r. split; [exact Hz|]. split; [apply Rabs_le; lra|]. assert (Xn : 0 <= X) by (unfold X, real, Rdiv; apply IZR_le in N; pose proof (Rinv_0_lt_compat _ S); nra).
      rewrite <- (Rabs_right X) by lra. rewrite Sg. exact Key.
  Qed.
  Lemma fits_in E d v : (1 <= E)%Z -> (D <= 2 ^ 28)%Z -> exp_growth D E d <= 1 / 8 -> Rabs (real D v) <= 2 ^ d -> in64 (Z.abs v).
  Proof.
    intros HE D28 G B. pose proof (s_pos D HD) as S. pose proof (eta_pos D E HE HD) as Ep. assert (D28' : IZR D <= 268435456) by (apply (IZR_le D 268435456), D28).
    apply (bound64 _ (2 ^ d)); [rewrite real_abs, Rabs_Rabsolu; exact B|]. unfold exp_growth, growth in G. pose proof (poly (2 ^ Datatypes.S d - 1) (IZR E / IZR D) Ep) as P.
    assert (I : 2 ^ d <= INR (2 ^ Datatypes.S d - 1)). { assert (Q : (1 <= 2 ^ d)%nat) by (pose proof (Nat.pow_nonzero 2 d ltac:(lia)); lia). apply Rle_trans with (INR (2 ^ d)); [rewrite two_pow_INR; lra|]. apply le_INR. rewrite Nat.pow_succ_r'. lia. }
    assert (P0 : 0 < 2 ^ d) by (apply pow_lt; lra). assert (M : 2 ^ d * (IZR E / IZR D) <= 1 / 8). { assert (2 ^ d * (IZR E / IZR D) <= INR (2 ^ Datatypes.S d - 1) * (IZR E / IZR D)) by (apply Rmult_le_compat_r; [left; exact Ep|exact I]). lra. }
    assert (E1 : 1 <= IZR E) by (apply (IZR_le 1); exact HE). assert (M2 : 2 ^ d * IZR E <= 1 / 8 * IZR D). { apply (Rmult_le_compat_r (IZR D)) in M; [|lra]. replace (2 ^ d * (IZR E / IZR D) * IZR D) with (2 ^ d * IZR E) in M by (field; lra). lra. }
    assert (M3 : 2 ^ d <= 33554432) by nra. assert (IZR D * 2 ^ d <= 268435456 * 33554432) by (apply Rmult_le_compat; lra). lra.
  Qed.
  Lemma sigmoid_rval T E d x : (1 <= E)%Z -> (T = true -> n = 1%nat) -> sharing n x -> n_sc x = D -> (1 <= d)%nat -> (D <= 2 ^ 28)%Z -> (1024 * E <= D)%Z -> exp_growth D E d <= 1 / 8 -> Rabs (rval x) <= 2 ^ d ->
    yo T (sigmoidv (pr := pr) D (within E) d x) (fun z => n_sc z = D /\ Rabs (rval z - exact_sigmoid (rval x)) <= sigmoid_error E d).
  Proof.
    intros HE HT Hx Sx Hd D28 DE G8 B. destruct (holds_rval D x Hx Sx) as [[Hv Iv] Rv]. set (v := open_a (n_sh x)) in *. rewrite <- Rv in *. pose proof (s_pos D HD) as S. assert (D28' : IZR D <= 268435456) by (apply (IZR_le D 268435456), D28).
    assert (Iw : in64 (Z.abs v)) by (apply (fits_in E d v); assumption).
    eapply yo_weaken; [apply (sigmoid_yo T E d v x); assumption|]. intros z (u & Hu & Bu & K). assert (Iu : in64 u) by (apply (bound64 u 2 Bu); lra).
    destruct (rval_holds D u z HD (conj Hu Iu)) as [Sz Rz]. split; [exact Sz|]. rewrite Rz. exact K.
  Qed.
  (** C81: [sigmoid] by the reciprocal method. *)
  Lemma k_C81_sigmoid E d x st z : (1 <= E)%Z -> sharing n x -> n_sc x = D -> (1 <= d)%nat -> (D <= 2 ^ 28)%Z -> (1024 * E <= D)%Z -> exp_growth D E d <= 1 / 8 -> Rabs (rval x) <= 2 ^ d ->
    fst (sigmoidv (pr := pr) D (within E) d x st) = Some z ->
    fst (sigmoidv (pr := pr) D no_check d x st) = Some z /\ n_sc z = D /\ Rabs (rval z - / (1 + exp (- rval x))) <= 1 / 256 + 3 / 2 * (exp_growth D E d + / 2 ^ d) + 16 * (IZR E / IZR D).
  Proof.
    intros HE Hx Sx Hd D28 DE G8 B Hz. split; [eapply weaker_fst; [apply sigmoidv_weak|exact Hz]|]. exact (yo_some _ _ _ _ _ (sigmoid_rval false E d x HE ltac:(discriminate) Hx Sx Hd D28 DE G8 B) Hz).
  Qed.
  Lemma tanh_rval T E d x : (1 <= E)%Z -> (T = true -> n = 1%nat) -> sharing n x -> n_sc x = D -> (1 <= d)%nat -> (D <= 2 ^ 28)%Z -> (1024 * E <= D)%Z -> exp_growth D E d <= 1 / 8 -> 2 * Rabs (rval x) <= 2 ^ d ->
    yo T (tanhv (pr := pr) D (within E) d x) (fun z => n_sc z = D /\ Rabs (rval z - tanh (rval x)) <= 2 * sigmoid_error E d).
  Proof.
    intros HE HT Hx Sx Hd D28 DE G8 B. destruct (holds_rval D x Hx Sx) as [[Hv Iv] Rv]. set (v := open_a (n_sh x)) in *. rewrite <- Rv in *. pose proof (s_pos D HD) as S. assert (D28' : IZR D <= 268435456) by (apply (IZR_le D 268435456), D28).
    assert (R2 : real D (v * 2) = real D v * 2) by (unfold real; rewrite mult_IZR; field; lra). assert (B2 : Rabs (real D (v * 2)) <= 2 ^ d) by (rewrite R2, Rabs_mult, (Rabs_right 2) by lra; lra).
    pose proof (fits_in E d (v * 2) HE D28 G8 B2) as Iw. assert (I2 : in64 (v * 2)) by (unfold in64 in *; lia).
    unfold tanhv. eapply yo_bind; [apply (sigmoid_yo T E d (v * 2) _ HE HT (muli_num_ok n 2 v D x Hv)); assumption|]. intros z (u & Hu & Bu & K). apply yo_ok.
    assert (Ru : real D (u * 2 - 1 * D) = 2 * real D u - 1) by (unfold real; rewrite minus_IZR, mult_IZR, Z.mul_1_l; field; lra).
    assert (Iu : in64 (u * 2 - 1 * D)) by (apply (bound64 _ 5); [rewrite Ru; apply Rabs_def2' in Bu; apply Rabs_le; lra|lra]).
    destruct (rval_holds D (u * 2 - 1 * D) (sub_num (muli_num 2 z) (AInt 1)) HD) as [Sz Rz]; [split; [apply (sub_int_ok n Hn), (muli_num_ok n); exact Hu|exact Iu]|]. split; [exact Sz|].
    rewrite Rz, Ru, tanh_sigmoid. rewrite R2 in K. replace (2 * real D u - 1 - (2 * exact_sigmoid (real D v * 2) - 1)) with (2 * (real D u - exact_sigmoid (real D v * 2))) by ring. rewrite Rabs_mult, (Rabs_right 2) by lra. lra.
  Qed.
  (** C81: [tanh], within twice the error of sigmoid. *)
  Lemma k_C81_tanh E d x st z : (1 <= E)%Z -> sharing n x -> n_sc x = D -> (1 <= d)%nat -> (D <= 2 ^ 28)%Z -> (1024 * E <= D)%Z -> exp_growth D E d <= 1 / 8 -> 2 * Rabs (rval x) <= 2 ^ d ->
    fst (tanhv (pr := pr) D (within E) d x st) = Some z ->
    fst (tanhv (pr := pr) D no_check d x st) = Some z /\ n_sc z = D /\ Rabs (rval z - tanh (rval x)) <= 2 * (1 / 256 + 3 / 2 * (exp_growth D E d + / 2 ^ d) + 16 * (IZR E / IZR D)).
  Proof.
    intros HE Hx Sx Hd D28 DE G8 B Hz. split; [eapply weaker_fst; [apply tanhv_weak|exact Hz]|]. exact (yo_some _ _ _ _ _ (tanh_rval false E d x HE ltac:(discriminate) Hx Sx Hd D28 DE G8 B) Hz).
  Qed.
End Claims.

(** ** The default configuration: scale 65536, 8 and 10 iterations *)
Lemma chain_step E X q c nu : 0 <= q <= IZR c / 1000000 -> X * (X + 1) * (IZR E / 65536) <= IZR nu / 1000000 -> 0 <= X * (X + 1) * (IZR E / 65536) ->
  0 <= newton 65536 E X q <= IZR (c * c / 1000000 + 1 + nu) / 1000000.
Proof.
  intros Hq Hn H0. unfold newton. split; [nra|]. rewrite !plus_IZR. pose proof (Z.mod_pos_bound (c * c) 1000000 ltac:(lia)) as M. pose proof (Z.div_mod (c * c) 1000000 ltac:(lia)) as Dm.
  assert (C : IZR (c * c) <= 1000000 * IZR (c * c / 1000000) + 1000000). { rewrite <- mult_IZR, <- plus_IZR. apply IZR_le. lia. }
  rewrite mult_IZR in C. assert (q * q <= IZR c / 1000000 * (IZR c / 1000000)) by (apply Rmult_le_compat; lra). lra.
Qed.
Definition chain (nu : Z) (k : nat) (c : Z) : Z := Nat.iter k (fun c => c * c / 1000000 + 1 + nu)%Z c.
Lemma chain_bound E X q c nu k : 0 <= q <= IZR c / 1000000 -> X * (X + 1) * (IZR E / 65536) <= IZR nu / 1000000 -> 0 <= X * (X + 1) * (IZR E / 65536) ->
  0 <= Nat.iter k (newton 65536 E X) q <= IZR (chain nu k c) / 1000000.
Proof. intros Hq Hn H0. induction k as [|k IH]; [exact Hq|]. cbn [Nat.iter nat_rect chain]. apply chain_step; assumption. Qed.
Lemma exp_le1 y : y <= 0 -> exp y <= 1. Proof. intros H. rewrite <- exp_0. now apply exp_mono. Qed.
(** the first estimate: [q] is an exponential computed on shares *)
Section Estimate.
  Variables (E : Z) (X q e : R).
  Hypothesis HE : (E = 1 \/ E = 2)%Z.
  Let a := limit_exp 8 (1 - 2 * X).
  Hypothesis Hq : exp_near 65536 E 8 a q.
  Hypothesis He : Rabs (e - 3 / 1000) <= / IZR 65536.
  Hypothesis HX : 1 / 100 <= X <= 30.
  Let Ha : 0 <= a /\ a <= exp (1 - 2 * X) /\ exp (1 - 2 * X) * (1 - (1 - 2 * X) * (1 - 2 * X) / 256) <= a.
  Proof.
    unfold a. rewrite limit_is. assert (R8 : 2 ^ 8 = 256) by lra. split; [rewrite exp_approx_power; apply pow_even_nonneg; lia|]. split; [apply approx_le_exp; lra|]. rewrite <- R8. apply approx_ge_exp. lia.
  Qed.
  Let E12 : 1 <= IZR E <= 2. Proof. destruct HE as [-> | ->]; lra. Qed.
  Let e_near : 3 / 1000 - 16 / 1000000 <= e <= 3 / 1000 + 16 / 1000000. Proof. apply Rabs_def2' in He. lra. Qed.
  Let coarse : Rabs (q - a) <= Rmax 1 a * (158 / 10000).
  Proof.
    destruct Hq as [B _]. rewrite <- growth_factor in B. destruct (default_growth E HE) as [G _]. unfold top1 in B. rewrite (Rabs_right a) in B by (apply Rle_ge, Ha). assert (1 <= Rmax 1 a) by apply Rmax_l.
    eapply Rle_trans; [exact B|]. apply Rmult_le_compat_l; lra.
  Qed.
  (** below 1 the error is that of the last squaring: 2 rho sqrt(a) + rho^2 + E/65536 with rho < 79/10000 *)
  Let fine : a <= 1 -> (sqrt a - 79 / 10000) * (sqrt a - 79 / 10000) - 2 * (79 / 10000) * (79 / 10000) - 31 / 1000000 <= q <= (sqrt a + 79 / 10000) * (sqrt a + 79 / 10000) + 31 / 1000000.
  Proof.
    intros A1. destruct Hq as [_ B]. specialize (B ltac:(lia)). cbv zeta in B. change (8 - 1)%nat with 7%nat in B. rewrite <- growth_factor in B. destruct (default_growth E HE) as [_ G].
    assert (S1 : 0 <= sqrt a <= 1) by (split; [apply sqrt_pos|rewrite <- sqrt_1; apply sqrt_le_1_alt; exact A1]). assert (SS : sqrt a * sqrt a = a) by (apply sqrt_sqrt, Ha).
    assert (T1 : top1 (sqrt a) = 1) by (unfold top1; rewrite Rabs_right by lra; apply Rmax_left; lra). rewrite T1, Rmult_1_l in B.
    assert (G0 : 0 <= exp_growth 65536 E 7) by (rewrite growth_factor; pose proof (factor_ge 65536 E ltac:(lia) ltac:(lia) 7); lra). set (g := exp_growth 65536 E 7) in *.
    assert (B' : Rabs (q - a) <= 79 / 10000 * (79 / 10000 + 2 * sqrt a) + 31 / 1000000).
    { eapply Rle_trans; [exact B|]. apply Rplus_le_compat; [apply Rmult_le_compat; lra|unfold eta; lra]. }
    apply Rabs_def2' in B'. clear - B' SS. set (r := sqrt a) in *. lra.
  Qed.
  Let hyper : X * a <= 1 / 2.
  Proof. eapply Rle_trans; [|apply (exp_hyperbola X); lra]. apply Rmult_le_compat_l; [lra|]. apply Ha. Qed.
  Let low3 : 1 / 2 <= X -> 25 / 10000 <= 3 * q + e.
  Proof.
    intros H. assert (A1 : a <= 1). { eapply Rle_trans; [apply Ha|]. apply exp_le1. lra. }
    pose proof (fine A1) as F. pose proof (Rle_0_sqr (sqrt a - 79 / 10000)) as Z0. unfold Rsqr in Z0. lra.
  Qed.
  Let high2 : 2 <= X -> X * (3 * q + e) <= 161 / 100.
  Proof.
    intros H. assert (A1 : a <= 1). { eapply Rle_trans; [apply Ha|]. apply exp_le1. lra. }
    pose proof (fine A1) as F. assert (SS : sqrt a * sqrt a = a) by (apply sqrt_sqrt, Ha). set (r := sqrt a) in *.
    assert (Q : q <= 2 * a + 2 * (79 / 10000) * (79 / 10000) + 31 / 1000000) by (pose proof (Rle_0_sqr (r - 79 / 10000)) as Z0; unfold Rsqr in Z0; lra).
    assert (XA : X * a <= 1 / 4).
    { apply Rle_trans with (X * exp (1 - 2 * X)); [apply Rmult_le_compat_l; [lra|apply Ha]|]. pose proof (exp_hyperbola (X / 2) ltac:(lra)) as Y. replace (1 - 2 * (X / 2)) with (1 - X) in Y by field.
      replace (1 - 2 * X) with ((1 - X) + - X) by ring. rewrite exp_plus. pose proof (exp_neg_le 2) as E2. replace (INR 2) with 2 in E2 by (cbn; ring). assert (exp (- X) <= exp (- (2))) by (apply exp_mono; lra). pose proof (exp_pos (- X)). pose proof (exp_pos (1 - X)).
      assert (P1 : X * exp (1 - X) <= 1) by lra. assert (P2 : exp (- X) <= 1 / 4) by lra. replace (X * (exp (1 - X) * exp (- X))) with (X * exp (1 - X) * exp (- X)) by ring. assert (0 <= X * exp (1 - X)) by nra. nra. }
    assert (XQ : X * q <= X * (2 * a + 2 * (79 / 10000) * (79 / 10000) + 31 / 1000000)) by (apply Rmult_le_compat_l; lra). assert (XE : X * e <= X * (3 / 1000 + 16 / 1000000)) by (apply Rmult_le_compat_l; lra). lra.
  Qed.
  Lemma estimate_1 : X <= 1 / 2 -> Rabs (1 - X * (3 * q + e)) <= 971 / 1000.
  Proof.
    intros H. assert (A1 : 1 <= a). { unfold a, limit_exp. apply pow_R1_Rle. assert (2 ^ 8 = 256) by lra. lra. }
    pose proof coarse as C. rewrite Rmax_right in C by exact A1. apply Rabs_def2' in C. apply Rabs_le. assert (U : X * q <= X * (a * (1 + 158 / 10000))) by (apply Rmult_le_compat_l; lra). assert (L : X * (1 - 158 / 10000) <= X * q) by (apply Rmult_le_compat_l; lra).
    assert (X * e <= X * (4 / 1000)) by (apply Rmult_le_compat_l; lra). assert (0 <= X * e) by (apply Rmult_le_pos; lra). lra.
  Qed.
  Lemma estimate_2 : 1 / 2 <= X <= 2 -> Rabs (1 - X * (3 * q + e)) <= 969 / 1000.
  Proof.
    intros H. assert (A1 : a <= 1). { eapply Rle_trans; [apply Ha|]. apply exp_le1. lra. }
    pose proof coarse as C. rewrite Rmax_left in C by exact A1. apply Rabs_def2' in C. apply Rabs_le.
    assert (AL : 357 / 10000 <= a).
    { destruct Ha as (_ & _ & L). pose proof (exp_neg_ge 3) as E3. replace (INR 3) with 3 in E3 by (cbn; ring). assert (exp (- (3)) <= exp (1 - 2 * X)) by (apply exp_mono; lra). eapply Rle_trans; [|exact L]. apply Rle_trans with (/ 3 ^ 3 * (1 - 9 / 256)); [lra|]. apply Rmult_le_compat; [lra|lra|lra|]. nra. }
    assert (U : X * q <= X * (a + 158 / 10000)) by (apply Rmult_le_compat_l; lra). assert (L : X * (199 / 10000) <= X * q) by (apply Rmult_le_compat_l; lra).
    assert (X * e <= X * (4 / 1000)) by (apply Rmult_le_compat_l; lra). assert (X * (29 / 10000) <= X * e) by (apply Rmult_le_compat_l; lra). lra.
  Qed.
  Lemma estimate_3 : 2 <= X <= 3 -> Rabs (1 - X * (3 * q + e)) <= 979 / 1000.
  Proof.
    intros H. assert (A1 : a <= 1). { eapply Rle_trans; [apply Ha|]. apply exp_le1. lra. }
    pose proof (fine A1) as F. assert (SS : sqrt a * sqrt a = a) by (apply sqrt_sqrt, Ha). pose proof (sqrt_pos a) as S0. set (r := sqrt a) in *. pose proof (high2 ltac:(lra)) as Hi.
    assert (AL : 37 / 10000 <= a).
    { destruct Ha as (_ & _ & L). pose proof (exp_neg_ge 5) as E3. replace (INR 5) with 5 in E3 by (cbn; ring). assert (exp (- (5)) <= exp (1 - 2 * X)) by (apply exp_mono; lra). eapply Rle_trans; [|exact L]. apply Rle_trans with (/ 3 ^ 5 * (1 - 25 / 256)); [lra|]. apply Rmult_le_compat; [lra|lra|lra|]. nra. }
    assert (RL : 608 / 10000 <= r) by (destruct (Rle_dec (608 / 10000) r); [assumption|exfalso; nra]). assert (R2 : (608 / 10000 - 79 / 10000) * (608 / 10000 - 79 / 10000) <= (r - 79 / 10000) * (r - 79 / 10000)) by (apply Rmult_le_compat; lra). assert (QL : 26 / 10000 <= q) by lra.
    apply Rabs_le. assert (L : X * (78 / 10000 + 29 / 10000) <= X * (3 * q + e)) by (apply Rmult_le_compat_l; lra). lra.
  Qed.
  Lemma estimate_more g : 3 <= X -> g <= 25 / 10000 * X -> g <= 39 / 100 -> Rabs (1 - X * (3 * q + e)) <= 1 - g.
  Proof. intros H G G'. pose proof (low3 ltac:(lra)) as L. pose proof (high2 ltac:(lra)) as Hi. apply Rabs_le. assert (X * (25 / 10000) <= X * (3 * q + e)) by (apply Rmult_le_compat_l; lra). lra. Qed.
End Estimate.

Section Default.
  Variables (n : nat) (pr : provider).
  Hypothesis Hn : (0 < n)%nat.
  Hypothesis HV : valid n pr.
  Lemma chain_ok E X q0 c nu b : (E = 1 \/ E = 2)%Z -> 0 < X -> 0 <= q0 <= IZR c / 1000000 -> 2 * X * (X + 1) / 65536 <= IZR nu / 1000000 -> chain nu 9 c = b -> (b <= 44700)%Z ->
    Nat.iter 10 (newton 65536 E X) q0 <= X * (X + 1) * (IZR E / 65536) + 1 / 500.
  Proof.
    intros HE HX Hq Hnu Hb B. assert (E12 : 1 <= IZR E <= 2) by (destruct HE as [-> | ->]; lra).
    assert (XX : 0 < X * (X + 1)) by nra. assert (N0 : 0 <= X * (X + 1) * (IZR E / 65536)) by nra. assert (N1 : X * (X + 1) * (IZR E / 65536) <= IZR nu / 1000000) by nra.
    pose proof (chain_bound E X q0 c nu 9 Hq N1 N0) as C. rewrite Hb in C. apply IZR_le in B. change (Nat.iter 10 (newton 65536 E X) q0) with (newton 65536 E X (Nat.iter 9 (newton 65536 E X) q0)). set (t := Nat.iter 9 _ _) in *. unfold newton.
    assert (t * t <= 447 / 10000 * (447 / 10000)) by (apply Rmult_le_compat; lra). lra.
  Qed.
  Lemma recip_default T E x c nu : (E = 1 \/ E = 2)%Z -> (T = true -> n = 1%nat) -> sharing n x -> n_sc x = 65536%Z -> let X := Rabs (rval x) in 1 / 100 <= X <= 30 ->
    (forall q e, exp_near 65536 E 8 (limit_exp 8 (1 - 2 * X)) q -> Rabs (e - 3 / 1000) <= / IZR 65536 -> Rabs (1 - X * (3 * q + e)) <= IZR c / 1000000) ->
    2 * X * (X + 1) / 65536 <= IZR nu / 1000000 -> (chain nu 9 c <= 44700)%Z -> (0 <= c <= 1000000)%Z -> (c * c + 1000000 * nu <= 1000000 * c)%Z ->
    yo T (reciprocalv (pr := pr) 65536 (within E) 8 10 x) (fun z => n_sc z = 65536%Z /\ Rabs (1 - rval x * rval z) <= X * (X + 1) * (IZR E / 65536) + 1 / 500).
  Proof.
    intros HE HT Hx Sx X HX Hq Hnu Hc C01 Cd. assert (E12 : 1 <= IZR E <= 2) by (destruct HE as [-> | ->]; lra). destruct (default_growth E HE) as [G8 _]. assert (HE' : (1 <= E)%Z) by lia.
    assert (G0 : 0 <= exp_growth 65536 E 8) by (rewrite growth_factor; pose proof (factor_ge 65536 E HE' ltac:(lia) 8); lra). assert (R8 : 2 ^ 8 = 256) by lra.
    assert (IX : / X <= 100). { replace 100 with (/ (1 / 100)) by field. apply Rinv_le_contravar; lra. } assert (IX0 : 0 < / X) by (apply Rinv_0_lt_compat; lra).
    assert (C01' : 0 <= IZR c <= 1000000) by (split; [apply (IZR_le 0)|apply (IZR_le _ 1000000)]; lia).
    assert (LM : Rabs (limit_exp 8 (1 - 2 * X)) <= 3).
    { rewrite limit_is. assert (0 <= exp_approx 8 (1 - 2 * X)) by (rewrite exp_approx_power; apply pow_even_nonneg; lia). rewrite Rabs_right by lra. pose proof (approx_le_exp 8 (1 - 2 * X) ltac:(lra)). pose proof exp_le_3. assert (exp (1 - 2 * X) <= exp 1) by (apply exp_mono; lra). lra. }
    eapply yo_weaken; [apply (recip_yo n pr 65536 Hn HV ltac:(lia) T E 8 10 x (IZR c / 1000000) HE' HT Hx Sx)|].
    - fold X. lra.
    - fold X. lra.
    - fold X. unfold Rdiv. assert (2 * / X <= 200) by lra. lra.
    - fold X. replace ((4 / (X * X) + IZR E / 65536) * X) with (4 * / X + IZR E / 65536 * X) by (field; lra). assert (IZR E / 65536 * X <= 2 / 65536 * 30) by (apply Rmult_le_compat; lra). lra.
    - fold X. apply Rle_lt_trans with (65536 * 65536 * (3 * 2)); [|lra]. apply Rmult_le_compat_l; [lra|]. apply Rmult_le_compat; [eapply Rle_trans; [|apply Rmax_l]; lra|lra|apply Rmax_lub; lra|lra].
    - fold X. rewrite R8. assert (Rabs (1 - 2 * X) <= 60) by (apply Rabs_le; lra). lra.
    - fold X. exact Hq.
    - lra.
    - fold X. unfold newton. apply IZR_le in Cd. rewrite plus_IZR, !mult_IZR in Cd. assert (X * (X + 1) * (IZR E / 65536) <= IZR nu / 1000000). { eapply Rle_trans; [|exact Hnu]. assert (0 < X * (X + 1)) by nra. nra. } nra.
    - fold X. intros z [Sz B]. split; [exact Sz|]. eapply Rle_trans; [exact B|]. apply (chain_ok E X _ c nu (chain nu 9 c) HE); try lra; [reflexivity|exact Hc].
  Qed.
  (** a bound c / 10^6 on the relative error of the first estimate, from which nine iterations with rounding errors of at most nu / 10^6 come close *)
  Lemma first_estimate E X : (E = 1 \/ E = 2)%Z -> 1 / 100 <= X <= 30 -> exists c nu,
    (forall q e, exp_near 65536 E 8 (limit_exp 8 (1 - 2 * X)) q -> Rabs (e - 3 / 1000) <= / IZR 65536 -> Rabs (1 - X * (3 * q + e)) <= IZR c / 1000000) /\
    2 * X * (X + 1) / 65536 <= IZR nu / 1000000 /\ (chain nu 9 c <= 44700)%Z /\ (0 <= c <= 1000000)%Z /\ (c * c + 1000000 * nu <= 1000000 * c)%Z.
  Proof.
    intros HE HX.
    assert (K : forall lo hi c nu, lo <= X <= hi -> 0 <= hi -> 2 * hi * (hi + 1) / 65536 <= IZR nu / 1000000 -> (chain nu 9 c <= 44700)%Z -> (0 <= c <= 1000000)%Z -> (c * c + 1000000 * nu <= 1000000 * c)%Z ->
      (forall q e, exp_near 65536 E 8 (limit_exp 8 (1 - 2 * X)) q -> Rabs (e - 3 / 1000) <= / IZR 65536 -> Rabs (1 - X * (3 * q + e)) <= IZR c / 1000000) ->
      exists c nu, (forall q e, exp_near 65536 E 8 (limit_exp 8 (1 - 2 * X)) q -> Rabs (e - 3 / 1000) <= / IZR 65536 -> Rabs (1 - X * (3 * q + e)) <= IZR c / 1000000) /\
        2 * X * (X + 1) / 65536 <= IZR nu / 1000000 /\ (chain nu 9 c <= 44700)%Z /\ (0 <= c <= 1000000)%Z /\ (c * c + 1000000 * nu <= 1000000 * c)%Z).
    { intros lo hi c nu Hl Hh Hnu C1 C2 C3 Hq. exists c, nu. split; [exact Hq|]. split; [|split; [exact C1|split; assumption]]. eapply Rle_trans; [|exact Hnu]. assert (X * (X + 1) <= hi * (hi + 1)) by (apply Rmult_le_compat; lra). lra. }
    assert (M : forall g lo hi c nu, lo <= X <= hi -> 3 <= lo -> g = 25 / 10000 * lo -> g <= 39 / 100 -> 2 * hi * (hi + 1) / 65536 <= IZR nu / 1000000 -> (chain nu 9 c <= 44700)%Z -> (0 <= c <= 1000000)%Z -> (c * c + 1000000 * nu <= 1000000 * c)%Z -> 1 - g = IZR c / 1000000 ->
      exists c nu, (forall q e, exp_near 65536 E 8 (limit_exp 8 (1 - 2 * X)) q -> Rabs (e - 3 / 1000) <= / IZR 65536 -> Rabs (1 - X * (3 * q + e)) <= IZR c / 1000000) /\
        2 * X * (X + 1) / 65536 <= IZR nu / 1000000 /\ (chain nu 9 c <= 44700)%Z /\ (0 <= c <= 1000000)%Z /\ (c * c + 1000000 * nu <= 1000000 * c)%Z).
    { intros g lo hi c nu Hl H3 Hg G39 Hnu C1 C2 C3 Hc. apply (K lo hi c nu Hl ltac:(lra) Hnu C1 C2 C3). intros q e Hq He. rewrite <- Hc. apply (estimate_more E X q e HE Hq He HX); lra. }
    destruct (Rle_dec X (1 / 2)); [apply (K (1 / 100) (1 / 2) 971000%Z 23%Z); try lra; try lia; [vm_compute; discriminate|intros q e Hq He; pose proof (estimate_1 E X q e HE Hq He HX ltac:(lra)); lra]|].
    destruct (Rle_dec X 2); [apply (K (1 / 2) 2 969000%Z 184%Z); try lra; try lia; [vm_compute; discriminate|intros q e Hq He; pose proof (estimate_2 E X q e HE Hq He HX ltac:(lra)); lra]|].
    destruct (Rle_dec X 3); [apply (K 2 3 979000%Z 367%Z); try lra; try lia; [vm_compute; discriminate|intros q e Hq He; pose proof (estimate_3 E X q e HE Hq He HX ltac:(lra)); lra]|].
    destruct (Rle_dec X 4); [apply (M (75 / 10000) 3 4 992500%Z 611%Z); try lra; try lia; vm_compute; discriminate|].
    destruct (Rle_dec X 6); [apply (M (1 / 100) 4 6 990000%Z 1282%Z); try lra; try lia; vm_compute; discriminate|].
    destruct (Rle_dec X 10); [apply (M (15 / 1000) 6 10 985000%Z 3358%Z); try lra; try lia; vm_compute; discriminate|].
    destruct (Rle_dec X 15); [apply (M (25 / 1000) 10 15 975000%Z 7325%Z); try lra; try lia; vm_compute; discriminate|].
    destruct (Rle_dec X 20); [apply (M (375 / 10000) 15 20 962500%Z 12818%Z); try lra; try lia; vm_compute; discriminate|].
    destruct (Rle_dec X 25); [apply (M (5 / 100) 20 25 950000%Z 19837%Z); try lra; try lia; vm_compute; discriminate|].
    apply (M (625 / 10000) 25 30 937500%Z 28382%Z); try lra; try lia; vm_compute; discriminate.
  Qed.
  Lemma recip_default_all T E x : (E = 1 \/ E = 2)%Z -> (T = true -> n = 1%nat) -> sharing n x -> n_sc x = 65536%Z -> let X := Rabs (rval x) in 1 / 100 <= X <= 30 ->
    yo T (reciprocalv (pr := pr) 65536 (within E) 8 10 x) (fun z => n_sc z = 65536%Z /\ Rabs (1 - rval x * rval z) <= X * (X + 1) * (IZR E / 65536) + 1 / 500).
  Proof. intros HE HT Hx Sx X HX. destruct (first_estimate E X HE HX) as (c & nu & Hq & Hnu & C1 & C2 & C3). apply (recip_default T E x c nu HE HT Hx Sx HX Hq); assumption. Qed.
  (** C80: the default configuration between 0.01 and 30. *)
  Lemma k_C80_default E x st z : (E = 1 \/ E = 2)%Z -> sharing n x -> n_sc x = 65536%Z -> let X := Rabs (rval x) in 1 / 100 <= X <= 30 -> fst (reciprocalv (pr := pr) 65536 (within E) 8 10 x st) = Some z ->
    fst (reciprocalv (pr := pr) 65536 no_check 8 10 x st) = Some z /\ n_sc z = 65536%Z /\ Rabs (1 - rval x * rval z) <= X * (X + 1) * (IZR E / 65536) + 1 / 500.
  Proof.
    intros HE Hx Sx X HX Hz. split; [eapply weaker_fst; [apply reciprocalv_weak|exact Hz]|]. exact (yo_some _ _ _ _ _ (recip_default_all false E x HE ltac:(discriminate) Hx Sx HX) Hz).
  Qed.
  (** C80: ... with one party, whatever the run. *)
  Lemma k_C80_one_party x st : n = 1%nat -> sharing n x -> n_sc x = 65536%Z -> let X := Rabs (rval x) in 1 / 100 <= X <= 30 ->
    exists z, fst (reciprocalv (pr := pr) 65536 no_check 8 10 x st) = Some z /\ n_sc z = 65536%Z /\ Rabs (1 - rval x * rval z) <= X * (X + 1) / 65536 + 1 / 500.
  Proof.
    intros N1 Hx Sx X HX. destruct (yo_true _ _ st (recip_default_all true 1 x ltac:(lia) (fun _ => N1) Hx Sx HX)) as (z & Ez & Sz & B). exists z. split; [eapply weaker_fst; [apply reciprocalv_weak|exact Ez]|]. split; [exact Sz|]. fold X in B. lra.
  Qed.
  Lemma default_error E : (E = 1 \/ E = 2)%Z -> sigmoid_error 65536 E 8 <= 1 / 100 + IZR E / 80.
  Proof. intros HE. destruct (default_growth E HE) as [G _]. unfold sigmoid_error. assert (E12 : 1 <= IZR E <= 2) by (destruct HE as [-> | ->]; lra). replace (2 ^ 8) with 256 by lra. lra. Qed.
  (** C81: the default configuration. *)
  Lemma k_C81_default E x st z : (E = 1 \/ E = 2)%Z -> sharing n x -> n_sc x = 65536%Z ->
    (fst (sigmoidv (pr := pr) 65536 (within E) 8 x st) = Some z -> Rabs (rval x) <= 256 ->
      fst (sigmoidv (pr := pr) 65536 no_check 8 x st) = Some z /\ Rabs (rval z - / (1 + exp (- rval x))) <= 1 / 100 + IZR E / 80) /\
    (fst (tanhv (pr := pr) 65536 (within E) 8 x st) = Some z -> Rabs (rval x) <= 128 ->
      fst (tanhv (pr := pr) 65536 no_check 8 x st) = Some z /\ Rabs (rval z - tanh (rval x)) <= 1 / 50 + IZR E / 40).
  Proof.
    intros HE Hx Sx. pose proof (default_error E HE) as K. destruct (default_growth E HE) as [G _]. assert (E12 : 1 <= IZR E <= 2) by (destruct HE as [-> | ->]; lra). assert (R8 : 2 ^ 8 = 256) by lra. split; intros Hz B.
    - destruct (k_C81_sigmoid n pr 65536 Hn HV ltac:(lia) E 8 x st z ltac:(lia) Hx Sx ltac:(lia) ltac:(lia) ltac:(lia) ltac:(lra) ltac:(lra) Hz) as (A & _ & C). split; [exact A|]. eapply Rle_trans; [exact C|exact K].
    - destruct (k_C81_tanh n pr 65536 Hn HV ltac:(lia) E 8 x st z ltac:(lia) Hx Sx ltac:(lia) ltac:(lia) ltac:(lia) ltac:(lra) ltac:(lra) Hz) as (A & _ & C). split; [exact A|]. eapply Rle_trans; [exact C|]. unfold sigmoid_error in K. lra.
  Qed.
  (** C81: ... with one party, whatever the run. *)
  Lemma k_C81_one_party x st : n = 1%nat -> sharing n x -> n_sc x = 65536%Z ->
    (Rabs (rval x) <= 256 -> exists z, fst (sigmoidv (pr := pr) 65536 no_check 8 x st) = Some z /\ n_sc z = 65536%Z /\ Rabs (rval z - / (1 + exp (- rval x))) <= 1 / 40) /\
    (Rabs (rval x) <= 128 -> exists z, fst (tanhv (pr := pr) 65536 no_check 8 x st) = Some z /\ n_sc z = 65536%Z /\ Rabs (rval z - tanh (rval x)) <= 1 / 20).
  Proof.
    intros N1 Hx Sx. pose proof (default_error 1 ltac:(lia)) as K. destruct (default_growth 1 ltac:(lia)) as [G _]. assert (R8 : 2 ^ 8 = 256) by lra. split; intros B.
    - destruct (yo_true _ _ st (sigmoid_rval n pr 65536 Hn HV ltac:(lia) true 1 8 x ltac:(lia) (fun _ => N1) Hx Sx ltac:(lia) ltac:(lia) ltac:(lia) ltac:(lra) ltac:(lra))) as (z & Ez & Sz & C). exists z. split; [eapply weaker_fst; [apply sigmoidv_weak|exact Ez]|]. split; [exact Sz|]. unfold exact_sigmoid in C. lra.
    - destruct (yo_true _ _ st (tanh_rval n pr 65536 Hn HV ltac:(lia) true 1 8 x ltac:(lia) (fun _ => N1) Hx Sx ltac:(lia) ltac:(lia) ltac:(lia) ltac:(lra) ltac:(lra))) as (z & Ez & Sz & C). exists z. split; [eapply weaker_fst; [apply tanhv_weak|exact Ez]|]. split; [exact Sz|]. lra.
  Qed.
End Default.

(** ** One party, a fixed provider: what happens outside these ranges *)
Open Scope Z_scope.
Definition alone : provider := mkProvider unit
  (fun s => (([13], [9], [9]), s)) (fun s => (([12345], [-777], [wmul 12345 (-777)]), s)) (fun s => (([31], [961]), s)) (fun s => (([99], [0]), s)) (fun s => (([1], [1]), s)) (fun s => ([0], s)) (fun s => ([0], s)).
Open Scope R_scope.
Lemma alone_valid : valid 1 alone.
Proof. constructor; intros []; cbn -[H63 wmul Z.lxor Z.land]; repeat split; try (repeat constructor; unfold in64, H63; vm_compute; intuition discriminate); try (vm_compute; reflexivity); right; vm_compute; reflexivity. Qed.
Definition number (v : Z) : num := mkNum [v * 65536]%Z 65536.
Lemma number_ok v : (Z.abs v <= 1000)%Z -> sharing 1 (number v) /\ n_sc (number v) = 65536%Z /\ rval (number v) = IZR v.
Proof.
  intros H. assert (I : in64 (v * 65536)) by (unfold in64, H63; lia). split; [split; [reflexivity|split; [constructor; [exact I|constructor]|reflexivity]]|]. split; [reflexivity|].
  unfold rval, number. cbn [n_sh n_sc]. unfold open_a. cbn [fold_left]. unfold wadd. rewrite Z.add_0_l, wrap_id by exact I. rewrite mult_IZR. field.
Qed.
Lemma run_gives v (m : runo alone num) a : option_map (fun z => (open_a (n_sh z), n_sc z)) (fst (m tt)) = Some (a, 65536%Z) -> (Z.abs v <= 1000)%Z -> exists z, fst (m tt) = Some z /\ rval z = IZR a / 65536.
Proof. intros H _. destruct (fst (m tt)) as [z|]; [|discriminate]. exists z. split; [reflexivity|]. cbn [option_map] in H. injection H as H1 H2. unfold rval. now rewrite H1, H2. Qed.
(** C79 refuted from 23 on: the last square overflows. *)
Lemma k_C79_overflow_refuted : exists pr st x z, valid 1 pr /\ sharing 1 x /\ n_sc x = 65536%Z /\ rval x = 23 /\ fst (expv (pr := pr) no_check 8 x st) = Some z /\ rval z < - (600000000).
Proof.
  destruct (number_ok 23 ltac:(lia)) as (A & B & C). destruct (run_gives 23 (expv (pr := alone) no_check 8 (number 23)) (-40753612216313) ltac:(vm_compute; reflexivity) ltac:(lia)) as (z & Z1 & Z2).
  exists alone, tt, (number 23), z. split; [exact alone_valid|]. split; [exact A|]. split; [exact B|]. split; [exact C|]. split; [exact Z1|]. rewrite Z2. lra.
Qed.
(** C80 refuted above: the rounding of the two products is not negligible at 250 (73% off), and from 256 on the iterations diverge. *)
Lemma k_C80_far_refuted : exists pr st, valid 1 pr /\
  (exists x z, sharing 1 x /\ n_sc x = 65536%Z /\ rval x = 250 /\ fst (reciprocalv (pr := pr) 65536 no_check 8 10 x st) = Some z /\ rval x * rval z > 17 / 10) /\
  (exists x z, sharing 1 x /\ n_sc x = 65536%Z /\ rval x = 256 /\ fst (reciprocalv (pr := pr) 65536 no_check 8 10 x st) = Some z /\ rval z < -1000000).
Proof.
  exists alone, tt. split; [exact alone_valid|]. split.
  - destruct (number_ok 250 ltac:(lia)) as (A & B & C). destruct (run_gives 250 (reciprocalv (pr := alone) 65536 no_check 8 10 (number 250)) 454 ltac:(vm_compute; reflexivity) ltac:(lia)) as (z & Z1 & Z2).
    exists (number 250), z. split; [exact A|]. split; [exact B|]. split; [exact C|]. split; [exact Z1|]. rewrite Z2, C. lra.
  - destruct (number_ok 256 ltac:(lia)) as (A & B & C). destruct (run_gives 256 (reciprocalv (pr := alone) 65536 no_check 8 10 (number 256)) (-15556290703081472) ltac:(vm_compute; reflexivity) ltac:(lia)) as (z & Z1 & Z2).
    exists (number 256), z. split; [exact A|]. split; [exact B|]. split; [exact C|]. split; [exact Z1|]. rewrite Z2. lra.
Qed.
(** C81 refuted: sigmoid(0) is not 1/2 nor tanh(0) zero, and past 512 the result is no probability. *)
Lemma k_C81_refuted : exists pr st, valid 1 pr /\
  (exists x z, sharing 1 x /\ n_sc x = 65536%Z /\ rval x = 0 /\ fst (sigmoidv (pr := pr) 65536 no_check 8 x st) = Some z /\ rval z = 255 / 512) /\
  (exists x z, sharing 1 x /\ n_sc x = 65536%Z /\ rval x = 0 /\ fst (tanhv (pr := pr) 65536 no_check 8 x st) = Some z /\ rval z = - (1 / 256)) /\
  (exists x z, sharing 1 x /\ n_sc x = 65536%Z /\ rval x = 513 /\ fst (sigmoidv (pr := pr) 65536 no_check 8 x st) = Some z /\ rval z < -27).
Proof.
  exists alone, tt. split; [exact alone_valid|]. split; [|split].
  - destruct (number_ok 0 ltac:(lia)) as (A & B & C). destruct (run_gives 0 (sigmoidv (pr := alone) 65536 no_check 8 (number 0)) 32640 ltac:(vm_compute; reflexivity) ltac:(lia)) as (z & Z1 & Z2).
    exists (number 0), z. split; [exact A|]. split; [exact B|]. split; [exact C|]. split; [exact Z1|]. rewrite Z2. lra.
  - destruct (number_ok 0 ltac:(lia)) as (A & B & C). destruct (run_gives 0 (tanhv (pr := alone) 65536 no_check 8 (number 0)) (-256) ltac:(vm_compute; reflexivity) ltac:(lia)) as (z & Z1 & Z2).
    exists (number 0), z. split; [exact A|]. split; [exact B|]. split; [exact C|]. split; [exact Z1|]. rewrite Z2. lra.
  - destruct (number_ok 513 ltac:(lia)) as (A & B & C). destruct (run_gives 513 (sigmoidv (pr := alone) 65536 no_check 8 (number 513)) (-1794028) ltac:(vm_compute; reflexivity) ltac:(lia)) as (z & Z1 & Z2).
    exists (number 513), z. split; [exact A|]. split; [exact B|]. split; [exact C|]. split; [exact Z1|]. rewrite Z2. lra.
Qed.

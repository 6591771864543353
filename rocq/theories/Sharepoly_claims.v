(** Proofs of C102: polynomials on shares (crypten/common/functions/power.py:63-97, modelled in Regular.v). *)
Require Import ZArith QArith Qreals List Bool Lia Reals Lra Psatz.
From Verif Require Import Rtensor_proofs Realgrad_claims Approx Approx_claims Approxfn_claims Enclose Approxlog_claims Approxsoft_claims.
From Verif Require Import Ring64 Encoder Arith Arith_proofs Beaver Trunc Provider Binary Binary_proofs Convert_proofs Compare Compare_proofs Compare_claims Maximum Maximum_proofs Maximum_claims Regular Regular_proofs Regular_claims Shareapprox Shareapprox_proofs Shareapprox_claims Sharesoft Sharesoft_claims Shareroot_claims.
Import ListNotations.
Open Scope R_scope.

(** *** Specification *)
(** c1 x + c2 x^2 + ... *)
Fixpoint horner (cs : list Q) (x : R) : R := match cs with [] => 0 | c :: cs => x * (Q2R c + horner cs x) end.

(** ** Polynomials *)
Lemma pow_one M k : 1 <= M -> 1 <= M ^ k. Proof. intros H. rewrite <- (pow1 k). apply pow_incr. lra. Qed.
Lemma pow_mono M j k : 1 <= M -> (j <= k)%nat -> M ^ j <= M ^ k. Proof. intros H L. now apply Rle_pow. Qed.
Lemma mul_near a A b B P Q u v : Rabs A <= P -> Rabs B <= Q -> Rabs (a - A) <= P * (u - 1) -> Rabs (b - B) <= Q * (v - 1) -> 0 <= P -> 0 <= Q -> 1 <= u -> 1 <= v -> Rabs (a * b - A * B) <= P * Q * (u * v - 1).
Proof.
  intros HA HB Ha Hb HP HQ Hu Hv. replace (a * b - A * B) with ((a - A) * (b - B) + ((a - A) * B + A * (b - B))) by ring. eapply Rle_trans; [apply Rabs_triang|]. eapply Rle_trans; [apply Rplus_le_compat_l, Rabs_triang|]. rewrite !Rabs_mult.
  pose proof (Rabs_pos A). pose proof (Rabs_pos B). pose proof (Rabs_pos (a - A)). pose proof (Rabs_pos (b - B)).
  assert (K1 : Rabs (a - A) * Rabs (b - B) <= P * (u - 1) * (Q * (v - 1))) by (apply Rmult_le_compat; assumption). assert (K2 : Rabs (a - A) * Rabs B <= P * (u - 1) * Q) by (apply Rmult_le_compat; assumption). assert (K3 : Rabs A * Rabs (b - B) <= P * (Q * (v - 1))) by (apply Rmult_le_compat; assumption). lra.
Qed.
Section Poly.
  Variable n : nat.
  Hypothesis Hn : (0 < n)%nat.
  Variable pr : provider.
  Hypothesis HV : valid n pr.
  Variables (s E : Z) (T : bool).
  Hypothesis HE : (1 <= E)%Z.
  Hypothesis Hs : (1 < s)%Z.
  Hypothesis HT : T = true -> n = 1%nat.
  Local Notation real := (real s).
  Local Notation eta := (eta s E).
  Local Notation g := (1 + eta).
  Local Notation holds := (holds n s).
  Lemma float_any c : Rabs (real (encodeQ s c) - Q2R c) <= / IZR s.
  Proof using Hs.
    clear - Hs. destruct c as [a b]. unfold Q2R. cbn [Qnum Qden]. change (IZR a * / IZR (Zpos b)) with (IZR a / IZR (Zpos b)). destruct (Z_le_gt_dec 0 a) as [P|P]; [now apply float_real|].
    assert (Ee : encodeQ s (a # b) = (- encodeQ s (- a # b))%Z) by (unfold encodeQ; cbn [Qnum Qden]; rewrite Z.mul_opp_r, Z.quot_opp_l by lia; lia). pose proof (float_real s Hs (- a) b ltac:(lia)) as F. pose proof (s_pos s Hs) as Sp. rewrite Ee.
    replace (real (- encodeQ s (- a # b)) - IZR a / IZR (Zpos b)) with (- (real (encodeQ s (- a # b)) - IZR (- a) / IZR (Zpos b))); [now rewrite Rabs_Ropp|]. unfold Shareapprox_proofs.real. rewrite !opp_IZR. field. split; [apply not_0_IZR; lia|lra].
  Qed.
  Variables (h M : R) (K : nat).
  Hypothesis HM : 1 <= M.
  Hypothesis Hh : Rabs h <= M.
  Definition near (k : nat) (z : num) : Prop := exists q, holds q z /\ Rabs (real q - h ^ S k) <= M ^ S k * (g ^ k - 1).
  Lemma power_bound k : Rabs (h ^ k) <= M ^ k. Proof. rewrite <- RPow_abs. apply pow_incr. split; [apply Rabs_pos|exact Hh]. Qed.
  Lemma g_one k : 1 <= g ^ k. Proof. apply pow_one. pose proof (eta_pos s E HE Hs). lra. Qed.
  Lemma near_bound k q : Rabs (real q - h ^ S k) <= M ^ S k * (g ^ k - 1) -> Rabs (real q) <= M ^ S k * g ^ k.
  Proof. intros H. replace (real q) with ((real q - h ^ S k) + h ^ S k) by ring. eapply Rle_trans; [apply Rabs_triang|]. pose proof (power_bound (S k)). lra. Qed.
  Lemma near_mul j k x y : near j x -> near k y -> (j + k + 2 <= 2 * K)%nat -> IZR s * IZR s * (M ^ (2 * K) * g ^ (2 * K)) < IZR H63 -> yo T (mulv (pr := pr) (within E) x y) (near (j + k + 1)).
  Proof.
    intros (p & Hp & Bp) (q & Hq & Bq) L Hf. pose proof (s_pos s Hs) as Sp. pose proof (eta_pos s E HE Hs) as Ep. pose proof (g_one j) as Gj. pose proof (g_one k) as Gk. pose proof (pow_one M (S j) HM) as Mj. pose proof (pow_one M (S k) HM) as Mk.
    assert (MM : M ^ S (j + k + 1) = M ^ S j * M ^ S k) by (rewrite <- pow_add; f_equal; lia). assert (GG : g ^ (j + k + 1) = g ^ j * g ^ k * g) by (rewrite !pow_add, pow_1; ring).
    eapply yo_weaken; [apply (mul_real n Hn pr HV s E T HE Hs HT p q x y Hp Hq); eapply (real_product n Hn s T Hs HT); [apply near_bound, Bp|apply near_bound, Bq|]|].
    - eapply Rle_lt_trans; [|exact Hf]. apply Rmult_le_compat_l; [nra|]. replace (M ^ S j * g ^ j * (M ^ S k * g ^ k)) with (M ^ (S j + S k) * g ^ (j + k)) by (rewrite !(pow_add _ (S j)), (pow_add g j); ring). apply Rmult_le_compat; [left; apply pow_lt; lra|left; apply pow_lt; lra|apply pow_mono; [exact HM|lia]|apply pow_mono; [lra|lia]].
    - intros z (r & Hr & Br). exists r. split; [exact Hr|]. replace (h ^ S (j + k + 1)) with (h ^ S j * h ^ S k) by (rewrite <- pow_add; f_equal; lia).
      pose proof (mul_near _ _ _ _ _ _ _ _ (power_bound (S j)) (power_bound (S k)) Bp Bq ltac:(lra) ltac:(lra) Gj Gk) as N. replace (real r - h ^ S j * h ^ S k) with ((real r - real p * real q) + (real p * real q - h ^ S j * h ^ S k)) by ring. eapply Rle_trans; [apply Rabs_triang|]. eapply Rle_trans; [apply Rplus_le_compat; [exact Br|exact N]|].
      rewrite MM, GG. set (A := M ^ S j * M ^ S k) in *. set (G := g ^ j * g ^ k) in *. assert (1 <= A) by (unfold A; nra). assert (1 <= G) by (unfold G; nra). assert (1 <= A * G) by nra. assert (1 * eta <= A * G * eta) by (apply Rmult_le_compat_r; lra). lra.
  Qed.
  Lemma seq_next k m i : map (fun j => (j + k + 1)%nat) (seq i m) = seq (i + k + 1) m.
  Proof. revert i. induction m as [|m IH]; intros i; [reflexivity|]. cbn [seq map]. now rewrite IH. Qed.
  Lemma near_last m zs : Forall2 near (seq 0 (S m)) zs -> near m (last zs nil_num).
  Proof.
    intros H. rewrite seq_S in H. apply Forall2_app_inv_l in H. destruct H as (l1 & l2 & _ & H2 & ->). inversion H2 as [|a z l l' Hz Hl E1 E2]; subst. inversion Hl; subst. rewrite last_last. exact Hz.
  Qed.
  Lemma grow_near fuel : forall m zs, Forall2 near (seq 0 m) zs -> (1 <= m <= 2 * K)%nat -> (K <= m + fuel)%nat -> IZR s * IZR s * (M ^ (2 * K) * g ^ (2 * K)) < IZR H63 ->
    yo T (grow (pr := pr) (within E) fuel K zs) (fun zs => exists m, (K <= m)%nat /\ Forall2 near (seq 0 m) zs).
  Proof.
    induction fuel as [|f IH]; intros m zs H L F Hf; cbn [grow]; [apply yo_ok; exists m; split; [lia|exact H]|].
    pose proof (Forall2_length _ _ _ H) as Lz. rewrite seq_length in Lz. rewrite <- Lz. destruct (Nat.ltb_spec m K) as [C|C]; [|apply yo_ok; exists m; split; [lia|exact H]].
    eapply yo_bind.
    - eapply (yo_map _ _ (fun j z => near j z /\ (j < m)%nat) (fun j z => near (j + (m - 1) + 1) z)).
      + assert (G : forall i, Forall2 near (seq i (length zs)) zs -> (i + length zs <= m)%nat -> Forall2 (fun j z => near j z /\ (j < m)%nat) (seq i (length zs)) zs).
        { clear. induction zs as [|z zs IH]; intros i H L; [constructor|]. cbn [length seq] in *. inversion H; subst. constructor; [split; [assumption|lia]|]. apply IH; [assumption|lia]. }
        rewrite <- Lz in G. apply G; [exact H|lia].
      + intros j z [Hz Hj]. apply near_mul; [exact Hz| |lia|exact Hf]. destruct m as [|m]; [lia|]. replace (S m - 1)%nat with m by lia. now apply near_last.
    - intros new Hnew. apply (IH (m + m)%nat); [|lia|lia|exact Hf]. rewrite seq_app. apply Forall2_app; [exact H|]. cbn [Nat.add]. replace (seq m m) with (map (fun j => (j + (m - 1) + 1)%nat) (seq 0 m)) by (rewrite seq_next; f_equal; lia).
      clear - Hnew. induction Hnew; cbn [map]; constructor; assumption.
  Qed.
  Fixpoint psum (k : nat) (cs : list Q) : R := match cs with [] => 0 | c :: cs => Q2R c * h ^ S k + psum (S k) cs end.
  Lemma psum_horner cs : forall k, psum k cs = h ^ k * horner cs h.
  Proof. induction cs as [|c cs IH]; intros k; cbn [psum horner]; [ring|]. rewrite IH. cbn [pow]. ring. Qed.
  Variable C : R.
  Hypothesis HC : 1 <= C.
  Hypothesis Hf : IZR s * IZR s * (2 * C * (M ^ (2 * K) * g ^ (2 * K))) < IZR H63.
  Hypothesis HK : (1 <= K)%nat /\ (Z.of_nat K <= s)%Z.
  Definition unit_error : R := eta + C * (M ^ K * (g ^ K - 1)).
  Lemma big : 1 <= M ^ (2 * K) * g ^ (2 * K).
  Proof. pose proof (pow_one M (2 * K) HM). pose proof (g_one (2 * K)). nra. Qed.
  Lemma term_near k c z : near k z -> (k < K)%nat -> Rabs (Q2R c) <= C -> yo T (mulc (pr := pr) (within E) z (KFloat c)) (fun y => exists q, nshare n q s y /\ Rabs (real q - Q2R c * h ^ S k) <= unit_error).
  Proof.
    intros (p & Hp & Bp) L Hc. pose proof (s_pos s Hs) as Sp. pose proof (eta_pos s E HE Hs) as Ep. pose proof (Rinv_0_lt_compat _ Sp) as Ip. assert (Ie : / IZR s <= eta). { unfold Shareapprox_proofs.eta, Rdiv. rewrite <- (Rmult_1_l (/ IZR s)) at 1. apply Rmult_le_compat_r; [lra|]. apply (IZR_le 1); exact HE. }
    assert (I1 : / IZR s <= 1). { rewrite <- Rinv_1. apply Rinv_le_contravar; [lra|]. apply (IZR_le 1). lia. }
    cbn [mulc]. rewrite (proj2 (proj1 Hp)). pose proof (float_any c) as Fc. set (e := encodeQ s c) in *. pose proof (near_bound k p Bp) as Bb.
    assert (Be : Rabs (real e) <= 2 * C). { replace (real e) with ((real e - Q2R c) + Q2R c) by ring. eapply Rle_trans; [apply Rabs_triang|]. lra. }
    pose proof (pow_one M (S k) HM) as Mk. pose proof (g_one k) as Gk. assert (ML : M ^ S k <= M ^ K) by (apply pow_mono; [exact HM|lia]). assert (GL : g ^ S k <= g ^ K) by (apply pow_mono; [lra|lia]). cbn [pow] in GL. fold (pow g k) in GL. pose proof (g_one (S k)) as GS. cbn [pow] in GS. fold (pow g k) in GS.
    eapply yo_weaken; [apply (mulp_real n Hn pr HV s E T HE Hs HT p e z Hp); eapply (real_product n Hn s T Hs HT); [exact Bb|exact Be|]|].
    - eapply Rle_lt_trans; [|exact Hf]. apply Rmult_le_compat_l; [nra|]. rewrite (Rmult_comm (M ^ S k * g ^ k)). apply Rmult_le_compat_l; [lra|]. apply Rmult_le_compat; [lra|lra|apply pow_mono; [exact HM|lia]|apply pow_mono; [lra|lia]].
    - intros y (q & Hq & Bq). exists q. split; [apply Hq|]. replace (real q - Q2R c * h ^ S k) with ((real q - real p * real e) + (real p * (real e - Q2R c) + Q2R c * (real p - h ^ S k))) by ring. eapply Rle_trans; [apply Rabs_triang|]. unfold unit_error. apply Rplus_le_compat; [exact Bq|]. eapply Rle_trans; [apply Rabs_triang|]. rewrite !Rabs_mult.
      assert (A1 : Rabs (real p) * Rabs (real e - Q2R c) <= M ^ S k * g ^ k * eta) by (apply Rmult_le_compat; try apply Rabs_pos; [exact Bb|lra]). assert (A2 : Rabs (Q2R c) * Rabs (real p - h ^ S k) <= C * (M ^ S k * (g ^ k - 1))) by (apply Rmult_le_compat; try apply Rabs_pos; assumption).
      assert (A3 : 1 * (M ^ S k * g ^ k * eta) <= C * (M ^ S k * g ^ k * eta)) by (apply Rmult_le_compat_r; [apply Rmult_le_pos; nra|lra]).
      assert (A4 : C * (M ^ S k * (g * g ^ k - 1)) <= C * (M ^ K * (g ^ K - 1))) by (apply Rmult_le_compat_l; [lra|]; apply Rmult_le_compat; lra). lra.
  Qed.
  Lemma sum_terms cs : forall k zs, Forall2 (fun p z => exists q, nshare n q s z /\ Rabs (real q - Q2R (snd p) * h ^ S (fst p)) <= unit_error) (combine (seq k (length cs)) cs) zs -> exists qs, Forall2 (fun q z => nshare n q s z) qs zs /\ length qs = length cs /\ Rabs (real (zsum qs) - psum k cs) <= INR (length cs) * unit_error.
  Proof.
    pose proof (s_pos s Hs) as Sp. induction cs as [|c cs IH]; intros k zs H; cbn [length seq combine] in H; inversion H as [|a z l l' (q & Hq & Bq) Hl]; subst.
    - exists []. split; [constructor|]. split; [reflexivity|]. cbn [zsum fold_right psum length INR]. unfold Shareapprox_proofs.real. replace (IZR 0 / IZR s - 0) with 0 by (field; lra). rewrite Rabs_R0. lra.
    - destruct (IH (S k) l' Hl) as (qs & F & L & B). exists (q :: qs). split; [now constructor|]. split; [cbn; now rewrite L|]. cbn [psum]. change (zsum (q :: qs)) with (q + zsum qs)%Z. change (length (c :: cs)) with (S (length cs)). rewrite S_INR. cbn [fst snd] in Bq.
      assert (A : real (q + zsum qs) = real q + real (zsum qs)) by (unfold Shareapprox_proofs.real; rewrite plus_IZR; field; lra). rewrite A. apply Rabs_def2' in Bq. apply Rabs_def2' in B. apply Rabs_le. lra.
  Qed.
  Lemma psum_bound cs : forall k, (k + length cs <= K)%nat -> Forall (fun c => Rabs (Q2R c) <= C) cs -> Rabs (psum k cs) <= INR (length cs) * (C * M ^ K).
  Proof.
    induction cs as [|c cs IH]; intros k L F; cbn [psum]; [cbn [length INR]; rewrite Rabs_R0; lra|]. inversion F as [|a l Hc Fc]; subst. change (length (c :: cs)) with (S (length cs)) in *. rewrite S_INR. eapply Rle_trans; [apply Rabs_triang|]. pose proof (IH (S k) ltac:(lia) Fc).
    assert (Rabs (Q2R c * h ^ S k) <= C * M ^ K) by (rewrite Rabs_mult; apply Rmult_le_compat; try apply Rabs_pos; [exact Hc|]; eapply Rle_trans; [apply power_bound|]; apply pow_mono; [exact HM|lia]). lra.
  Qed.
  Lemma polynomial_near v x cs : holds v x -> real v = h -> length cs = K -> Forall (fun c => Rabs (Q2R c) <= C) cs ->
    yo T (polynomial (pr := pr) (within E) x (map KFloat cs)) (fun z => exists q, holds q z /\ Rabs (real q - horner cs h) <= INR K * unit_error /\ Rabs (horner cs h) <= INR K * (C * M ^ K)).
  Proof.
    intros Hx Rx Lc Fc. pose proof (s_pos s Hs) as Sp. pose proof (eta_pos s E HE Hs) as Ep. pose proof big as Bg. destruct HK as [HK1 HKs].
    assert (Hf' : IZR s * IZR s * (M ^ (2 * K) * g ^ (2 * K)) < IZR H63). { eapply Rle_lt_trans; [|exact Hf]. apply Rmult_le_compat_l; [nra|]. nra. }
    assert (N0 : near 0 x). { exists v. split; [exact Hx|]. rewrite Rx. cbn [pow]. replace (h - h * 1) with 0 by ring. rewrite Rabs_R0. lra. }
    pose proof (psum_bound cs 0 ltac:(lia) Fc) as PB. rewrite psum_horner, Lc in PB. cbn [pow] in PB. rewrite Rmult_1_l in PB.
    assert (Fin : forall q z, nshare n q s z -> Rabs (real q - horner cs h) <= INR K * unit_error -> exists q, holds q z /\ Rabs (real q - horner cs h) <= INR K * unit_error /\ Rabs (horner cs h) <= INR K * (C * M ^ K)).
    { intros q z Hq Bq. exists q. split; [|split; [exact Bq|exact PB]]. eapply (holds_bound n Hn s T Hs HT); [exact Hq| |].
      - replace (real q) with ((real q - horner cs h) + horner cs h) by ring. eapply Rle_trans; [apply Rabs_triang|]. apply Rplus_le_compat; [exact Bq|exact PB].
      - eapply Rle_lt_trans; [|exact Hf]. rewrite Rmult_assoc. apply Rmult_le_compat_l; [lra|]. assert (INR K <= IZR s) by (rewrite INR_IZR_INZ; now apply IZR_le). pose proof (pos_INR K) as P0.
        replace (INR K * unit_error + INR K * (C * M ^ K)) with (INR K * (unit_error + C * M ^ K)) by ring. pose proof (pow_one M K HM) as MK. pose proof (g_one K) as GK. assert (E1 : eta <= g ^ K). { eapply Rle_trans; [|apply (pow_mono g 1 K); [lra|exact HK1]]. rewrite pow_1. lra. }
        assert (MM : M ^ K <= M ^ (2 * K)) by (apply pow_mono; [exact HM|lia]). assert (GG : g ^ K <= g ^ (2 * K)) by (apply pow_mono; [lra|lia]).
        assert (U : unit_error + C * M ^ K <= 2 * C * (M ^ (2 * K) * g ^ (2 * K))).
        { unfold unit_error. replace (eta + C * (M ^ K * (g ^ K - 1)) + C * M ^ K) with (eta + C * (M ^ K * g ^ K)) by ring. assert (Q1 : M ^ K * g ^ K <= M ^ (2 * K) * g ^ (2 * K)) by (apply Rmult_le_compat; lra). assert (Q2 : 1 * g ^ K <= M ^ K * g ^ K) by (apply Rmult_le_compat_r; lra). assert (C * (M ^ K * g ^ K) <= C * (M ^ (2 * K) * g ^ (2 * K))) by (apply Rmult_le_compat_l; lra). assert (1 * (M ^ (2 * K) * g ^ (2 * K)) <= C * (M ^ (2 * K) * g ^ (2 * K))) by (apply Rmult_le_compat_r; lra). lra. }
        assert (0 <= unit_error + C * M ^ K). { unfold unit_error. assert (0 <= C * (M ^ K * (g ^ K - 1))) by (apply Rmult_le_pos; [lra|]; apply Rmult_le_pos; lra). assert (0 <= C * M ^ K) by (apply Rmult_le_pos; lra). lra. }
        apply Rmult_le_compat; lra. }
    destruct cs as [|c [|c' cs']]; [cbn in Lc; lia| |].
    - cbn [map polynomial]. eapply yo_weaken; [apply (term_near 0 c x N0 ltac:(lia)); now inversion Fc|]. intros z (q & Hq & Bq). apply (Fin q z Hq). assert (I1 : INR K = 1) by (rewrite <- Lc; reflexivity). rewrite I1, Rmult_1_l. cbn [horner]. replace (Q2R c * h ^ 1) with (h * (Q2R c + 0)) in Bq by ring. exact Bq.
    - set (l := c :: c' :: cs') in *. assert (W : polynomial (pr := pr) (within E) x (map KFloat l) = (x2 <~ squarev (within E) x ;; terms <~ grow (within E) (length (map KFloat l)) (length (map KFloat l)) [x; x2] ;; ys <~ zipO (mulc (within E)) (firstn (length (map KFloat l)) terms) (map KFloat l) ;; okr (sum_num ys))) by reflexivity.
      rewrite W, map_length, Lc. clear W. assert (K2 : (2 <= K)%nat) by (rewrite <- Lc; cbn [length l]; lia).
      eapply yo_bind; [apply (square_real n Hn pr HV s E T HE Hs HT v x Hx); eapply (real_product n Hn s T Hs HT); [rewrite Rx; exact Hh|rewrite Rx; exact Hh|]|].
      + eapply Rle_lt_trans; [|exact Hf']. apply Rmult_le_compat_l; [nra|]. replace (M * M) with (M ^ 2 * 1) by ring. apply Rmult_le_compat; [left; apply pow_lt; lra|lra|apply pow_mono; [exact HM|lia]|apply g_one].
      + intros x2 (q2 & Hq2 & B2). assert (N1 : near 1 x2). { exists q2. split; [exact Hq2|]. rewrite Rx in B2. replace (h ^ 2) with (h * h) by ring. eapply Rle_trans; [exact B2|]. rewrite pow_1. replace (g - 1) with eta by ring. pose proof (pow_one M 2 HM). nra. }
        eapply yo_bind; [apply (grow_near K 2 [x; x2]); [constructor; [exact N0|constructor; [exact N1|constructor]]|lia|lia|exact Hf']|]. intros zs (m & Lm & Hz).
        assert (Hz' : Forall2 (fun j z => near j z /\ (j < K)%nat) (seq 0 K) (firstn K zs)).
        { replace m with (K + (m - K))%nat in Hz by lia. rewrite seq_app in Hz. apply Forall2_app_inv_l in Hz. destruct Hz as (l1 & l2 & H1 & _ & ->). pose proof (Forall2_length _ _ _ H1) as L1. rewrite seq_length in L1. rewrite L1, firstn_app, Nat.sub_diag, firstn_all, firstn_O, app_nil_r, <- L1.
          assert (G : forall i, Forall2 near (seq i (length l1)) l1 -> (i + length l1 <= K)%nat -> Forall2 (fun j z => near j z /\ (j < K)%nat) (seq i (length l1)) l1).
          { clear. induction l1 as [|z zs IH]; intros i H L; [constructor|]. cbn [length seq] in *. inversion H; subst. constructor; [split; [assumption|lia]|]. apply IH; [assumption|lia]. }
          rewrite <- L1 in G. apply G; [exact H1|lia]. }
        eapply yo_bind.
        * eapply (yo_zip _ _ _ (fun c k => k = KFloat c /\ Rabs (Q2R c) <= C) (fun j c y => exists q, nshare n q s y /\ Rabs (real q - Q2R c * h ^ S j) <= unit_error) _ _ l); [exact Hz'| |rewrite seq_length; now rewrite Lc|].
          -- clear - Fc. induction Fc; cbn [map]; constructor; auto.
          -- intros j z c0 k [Hj Lj] [-> Hc]. now apply term_near.
        * intros ys Hys. apply yo_ok. rewrite <- Lc in Hys. destruct (sum_terms l 0 ys Hys) as (qs & Fq & Lq & Bq). apply (Fin (zsum qs)); [apply (sum_num_ok n); [destruct qs; [cbn in Lq; discriminate|discriminate]|exact Fq]|]. rewrite psum_horner, Lc in Bq. cbn [pow] in Bq. rewrite Rmult_1_l in Bq. exact Bq.
  Qed.
End Poly.

Section Claims.
  Variables (n : nat) (pr : provider).
  Hypothesis Hn : (0 < n)%nat.
  Hypothesis HV : valid n pr.
  Lemma poly_yo T s E M C x cs : (1 <= E)%Z -> (1 < s)%Z -> (T = true -> n = 1%nat) -> sharing n x -> n_sc x = s -> Rabs (rval x) <= M -> 1 <= M -> 1 <= C -> Forall (fun c => Rabs (Q2R c) <= C) cs -> cs <> [] -> (Z.of_nat (length cs) <= s)%Z ->
    IZR s * IZR s * (2 * C * (M * (1 + IZR E / IZR s)) ^ (2 * length cs)) < 2 ^ 63 ->
    yo T (polynomial (pr := pr) (within E) x (map KFloat cs)) (fun z => n_sc z = s /\ Rabs (rval z - horner cs (rval x)) <= INR (length cs) * (IZR E / IZR s + C * (M ^ length cs * ((1 + IZR E / IZR s) ^ length cs - 1)))).
  Proof using Hn HV.
    intros HE Hs HT Hx Sx Bx HM HC Fc Ne Lk Fit. destruct (holds_rval n s x Hx Sx) as [Hv Rv]. set (v := open_a (n_sh x)) in *. rewrite <- Rv in *.
    eapply yo_weaken; [apply (polynomial_near n Hn pr HV s E T HE Hs HT (real s v) M (length cs) HM Bx C HC) with (v := v); [|split; [destruct cs; [contradiction|cbn [length]; lia]|exact Lk]|exact Hv|reflexivity|reflexivity|exact Fc]|].
    - rewrite Rpow_mult_distr in Fit. unfold eta. replace (IZR H63) with (2 ^ 63) by (unfold H63; rewrite pow_IZR; reflexivity). exact Fit.
    - intros z (q & Hq & Bq & _). destruct (rval_holds n Hn s q z ltac:(lia) Hq) as [Sz Rz]. split; [exact Sz|]. rewrite Rz. exact Bq.
  Qed.
  (** C102: a polynomial at a number of any size: each of the k terms is off by one unit and by the error of the powers, which grows with the largest power M^k. *)
  Lemma k_C102_polynomial s E M C x cs st z : (1 <= E)%Z -> (1 < s)%Z -> sharing n x -> n_sc x = s -> Rabs (rval x) <= M -> 1 <= M -> 1 <= C -> Forall (fun c => Rabs (Q2R c) <= C) cs -> cs <> [] -> (Z.of_nat (length cs) <= s)%Z ->
    IZR s * IZR s * (2 * C * (M * (1 + IZR E / IZR s)) ^ (2 * length cs)) < 2 ^ 63 -> fst (polynomial (pr := pr) (within E) x (map KFloat cs) st) = Some z ->
    fst (polynomial (pr := pr) no_check x (map KFloat cs) st) = Some z /\ n_sc z = s /\
    Rabs (rval z - horner cs (rval x)) <= INR (length cs) * (IZR E / IZR s + C * (M ^ length cs * ((1 + IZR E / IZR s) ^ length cs - 1))).
  Proof using Hn HV.
    intros HE Hs Hx Sx Bx HM HC Fc Ne Lk Fit Hz. split; [eapply weaker_fst; [apply polynomial_weak|exact Hz]|]. exact (yo_some _ _ _ _ _ (poly_yo false s E M C x cs HE Hs ltac:(discriminate) Hx Sx Bx HM HC Fc Ne Lk Fit) Hz).
  Qed.
  (** C102: with one party no assumption on the truncations is needed. *)
  Lemma k_C102_one_party s M C x cs st : n = 1%nat -> (1 < s)%Z -> sharing n x -> n_sc x = s -> Rabs (rval x) <= M -> 1 <= M -> 1 <= C -> Forall (fun c => Rabs (Q2R c) <= C) cs -> cs <> [] -> (Z.of_nat (length cs) <= s)%Z ->
    IZR s * IZR s * (2 * C * (M * (1 + 1 / IZR s)) ^ (2 * length cs)) < 2 ^ 63 -> exists z, fst (polynomial (pr := pr) no_check x (map KFloat cs) st) = Some z /\ n_sc z = s /\
    Rabs (rval z - horner cs (rval x)) <= INR (length cs) * (1 / IZR s + C * (M ^ length cs * ((1 + 1 / IZR s) ^ length cs - 1))).
  Proof using Hn HV.
    intros H1 Hs Hx Sx Bx HM HC Fc Ne Lk Fit. destruct (yo_true _ _ st (poly_yo true s 1 M C x cs ltac:(lia) Hs (fun _ => H1) Hx Sx Bx HM HC Fc Ne Lk Fit)) as (z & Ez & Bz). exists z. split; [eapply weaker_fst; [apply polynomial_weak|exact Ez]|exact Bz].
  Qed.
End Claims.

(** C102 refuted without room for the powers: with one party, at the default precision, the polynomial x^4 is given as 0 at x = 256. *)
Lemma k_C102_room_refuted : exists pr x z st, valid 1 pr /\ sharing 1 x /\ n_sc x = 65536%Z /\ rval x = 256 /\ fst (polynomial (pr := pr) no_check x (map KFloat [0 # 1; 0 # 1; 0 # 1; 1 # 1]%Q) st) = Some z /\ rval z = 0 /\ horner [0 # 1; 0 # 1; 0 # 1; 1 # 1]%Q (rval x) = 256 ^ 4.
Proof.
  destruct (number_ok 256 ltac:(lia)) as (A & B & C). destruct (run_gives 256 (polynomial (pr := alone) no_check (number 256) (map KFloat [0 # 1; 0 # 1; 0 # 1; 1 # 1]%Q)) 0 ltac:(vm_compute; reflexivity) ltac:(lia)) as (z & Z1 & Z2).
  exists alone, (number 256), z, tt. split; [exact alone_valid|]. split; [exact A|]. split; [exact B|]. split; [exact C|]. split; [exact Z1|]. split; [rewrite Z2; lra|]. rewrite C. cbn [horner]. unfold Q2R. cbn [Qnum Qden]. rewrite Rinv_1. ring.
Qed.

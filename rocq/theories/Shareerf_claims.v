(** Proofs of C104: the error function on shares, and how far it is from the true one. *)
Require Import ZArith QArith Qreals List Bool Lia Reals Lra Psatz Machin.
From Verif Require Import Rtensor Rtensor_proofs Realgrad Realgrad_claims Approx Approx_claims Approxfn_claims Enclose Approxlog_claims Approxsoft_claims.
From Verif Require Import Ring64 Encoder Arith Arith_proofs Beaver Trunc Provider Binary Binary_proofs Convert_proofs Compare Compare_proofs Compare_claims Maximum Maximum_proofs Maximum_claims Regular Regular_proofs Regular_claims Shareapprox Shareapprox_proofs Shareapprox_claims Sharepoly_claims Shareerf.
Import ListNotations.
Open Scope R_scope.

(** *** Specification *)
(** the error function, on [-1, 1] *)
Definition error_function (F : R -> R) : Prop := F 0 = 0 /\ forall x, -1 <= x <= 1 -> derivable_pt_lim F x (2 / sqrt PI * exp (- (x * x))).

(** ** Constants *)
Lemma pi_bounds : 31415926 / 10000000 <= PI <= 31415927 / 10000000.
Proof.
  pose proof (PI_2_3_7_ineq 5) as [A B]. unfold tg_alt, PI_2_3_7_tg, Ratan_seq in A, B. cbn [Nat.mul Nat.add sum_f_R0 pow INR] in A, B. split; lra.
Qed.
Lemma root_pi : Rabs (Q2R two_over_root_pi - 2 / sqrt PI) <= / 3000000 /\ 112837 / 100000 < 2 / sqrt PI < 1128380 / 1000000.
Proof.
  destruct pi_bounds as [A B]. assert (P : 0 < sqrt PI) by (apply sqrt_lt_R0; lra). assert (S : sqrt PI * sqrt PI = PI) by (apply sqrt_sqrt; lra). set (r := sqrt PI) in *. set (k := 2 / r). assert (K : k * r = 2) by (unfold k; field; lra). assert (Kp : 0 < k) by (unfold k; apply Rdiv_lt_0_compat; lra).
  assert (KK : k * k * PI = 4) by (rewrite <- S; replace (k * k * (r * r)) with ((k * r) * (k * r)) by ring; rewrite K; ring). clearbody k r.
  unfold Q2R, two_over_root_pi. cbn [Qnum Qden].
  assert (L : 11283790 / 10000000 <= k). { apply Rnot_lt_le. intros N. assert (k * k < 11283790 / 10000000 * (11283790 / 10000000)) by nra. assert (k * k * PI <= k * k * (31415927 / 10000000)) by (apply Rmult_le_compat_l; nra). nra. }
  assert (U : k <= 11283793 / 10000000). { apply Rnot_lt_le. intros N. assert (11283793 / 10000000 * (11283793 / 10000000) < k * k) by nra. assert (k * k * (31415926 / 10000000) <= k * k * PI) by (apply Rmult_le_compat_l; nra). nra. }
  split; [apply Rabs_le; lra|lra].
Qed.
(** the multipliers *)
Lemma factorial_fact n : Z.pos (factorial n) = Z.of_nat (fact n).
Proof. induction n as [|n IH]; [reflexivity|]. cbn [factorial]. rewrite Pos2Z.inj_mul, IH, Zpos_P_of_succ_nat. change (fact (S n)) with (S n * fact n)%nat. lia. Qed.
Lemma multiplier_real n : Q2R (multiplier n) = (-1) ^ n / (INR (fact n) * (2 * INR n + 1)).
Proof.
  unfold multiplier, Q2R, Rdiv. cbn [Qnum Qden]. f_equal.
  - destruct (Nat.even n) eqn:Ev.
    + apply Nat.even_spec in Ev. destruct Ev as [k ->]. now rewrite pow_1_even.
    + assert (O : Nat.Odd n) by (apply Nat.odd_spec; unfold Nat.odd; now rewrite Ev). destruct O as [k ->]. rewrite Nat.add_1_r. now rewrite pow_1_odd.
  - f_equal. rewrite Pos2Z.inj_mul, mult_IZR, factorial_fact, <- INR_IZR_INZ. f_equal. rewrite Zpos_P_of_succ_nat, <- Nat2Z.inj_succ, <- INR_IZR_INZ, S_INR, mult_INR. cbn [INR]. lra.
Qed.

(** ** Powers *)
Section Powers.
  Variable n : nat.
  Hypothesis Hn : (0 < n)%nat.
  Variable pr : provider.
  Hypothesis HV : valid n pr.
  Variables (s E : Z) (T : bool).
  Hypothesis HE : (1 <= E)%Z.
  Hypothesis Hs : (1 < s)%Z.
  Hypothesis HT : T = true -> n = 1%nat.
  Variable h : R.
  Hypothesis Hh : Rabs h <= 1.
  Variable K : nat.
  Local Notation real := (real s).
  Local Notation eta := (eta s E).
  Local Notation g := (1 + eta).
  Local Notation holds := (holds n s).
  Local Notation near := (near n s E h 1).
  Hypothesis Hf : IZR s * IZR s * (2 * g ^ (2 * K)) < IZR H63.
  Lemma room : IZR s * IZR s * (1 ^ (2 * K) * g ^ (2 * K)) < IZR H63.
  Proof. pose proof (s_pos s Hs). pose proof (g_one s E HE Hs (2 * K)). eapply Rle_lt_trans; [|exact Hf]. apply Rmult_le_compat_l; [nra|]. rewrite pow1. lra. Qed.
  Lemma near_square j x : near j x -> (2 * j + 2 <= 2 * K)%nat -> yo T (squarev (pr := pr) (within E) x) (near (j + j + 1)).
  Proof.
    intros (p & Hp & Bp) L. pose proof (eta_pos s E HE Hs) as Ep. pose proof (s_pos s Hs) as Sp. pose proof (g_one s E HE Hs j) as Gj. pose proof (near_bound s E h 1 Hh j p Bp) as Nb. rewrite pow1 in *. rewrite Rmult_1_l in *.
    eapply yo_weaken; [apply (square_real n Hn pr HV s E T HE Hs HT p x Hp); eapply (real_product n Hn s T Hs HT); [exact Nb|exact Nb|]|].
    - pose proof room as R. rewrite pow1, Rmult_1_l in R. eapply Rle_lt_trans; [|exact R]. apply Rmult_le_compat_l; [nra|]. rewrite <- pow_add. apply pow_mono; [lra|lia].
    - intros z (r & Hr & Br). exists r. split; [exact Hr|]. replace (h ^ S (j + j + 1)) with (h ^ S j * h ^ S j) by (rewrite <- pow_add; f_equal; lia). rewrite pow1, Rmult_1_l.
      pose proof (power_bound h 1 Hh (S j)) as Pb. rewrite pow1 in Pb. pose proof (mul_near _ _ _ _ 1 1 _ _ Pb Pb ltac:(rewrite Rmult_1_l; exact Bp) ltac:(rewrite Rmult_1_l; exact Bp) ltac:(lra) ltac:(lra) Gj Gj) as N.
      replace (real r - h ^ S j * h ^ S j) with ((real r - real p * real p) + (real p * real p - h ^ S j * h ^ S j)) by ring. eapply Rle_trans; [apply Rabs_triang|]. rewrite !pow_add, pow_1. set (G := g ^ j) in *. assert (1 <= G * G) by nra. nra.
  Qed.
  Lemma pow_near D fuel : forall p j x, near j x -> (Pos.to_nat p < fuel)%nat -> (S j * Pos.to_nat (effective p) <= 2 * K)%nat -> yo T (powv (pr := pr) D (within E) fuel x (Zpos p)) (near (S j * Pos.to_nat (effective p) - 1)).
  Proof.
    induction fuel as [|f IH]; intros p j x Hx L C; [lia|]. cbn [powv]. replace (Z.pos p =? 0)%Z with false by reflexivity. destruct p as [p|p|].
    - replace (Z.pos p~1 =? 1)%Z with false by reflexivity. replace (Z.pos p~1 =? 2)%Z with false by reflexivity. replace (Z.pos p~1 mod 2 =? 0)%Z with false by (symmetry; rewrite Pos2Z.inj_xI, Z.add_comm, Z.mul_comm, Z.mod_add by lia; reflexivity).
      replace ((Z.pos p~1 - 1) / 2)%Z with (Z.pos p) by (rewrite Pos2Z.inj_xI; replace (2 * Z.pos p + 1 - 1)%Z with (Z.pos p * 2)%Z by lia; now rewrite Z.div_mul by lia). cbn [effective] in *. rewrite Pos2Nat.inj_mul in *. change (Pos.to_nat 3) with 3%nat in *. pose proof (Pos2Nat.is_pos (effective p)) as Pe. set (e := Pos.to_nat (effective p)) in *.
      eapply yo_bind; [apply (near_square j x Hx); nia|]. intros y Hy. eapply yo_bind; [apply (near_mul n Hn pr HV s E T HE Hs HT h 1 K (Rle_refl 1) Hh (j + j + 1) j y x Hy Hx); [nia|exact room]|]. intros z Hz.
      replace (S j * (3 * e) - 1)%nat with (S (j + j + 1 + j + 1) * e - 1)%nat by (f_equal; lia). apply IH; [exact Hz|lia|]. fold e. nia.
    - destruct (Pos.eq_dec p 1) as [->|N].
      + change (Z.pos 2 =? 1)%Z with false. change (Z.pos 2 =? 2)%Z with true. cbn [effective] in *. change (Pos.to_nat (2 * 1)) with 2%nat in *. replace (S j * 2 - 1)%nat with (j + j + 1)%nat by lia. apply near_square; [exact Hx|lia].
      + replace (Z.pos p~0 =? 1)%Z with false by reflexivity. replace (Z.pos p~0 =? 2)%Z with false by (symmetry; apply Z.eqb_neq; lia). replace (Z.pos p~0 mod 2 =? 0)%Z with true by (symmetry; rewrite Pos2Z.inj_xO, Z.mul_comm, Z.mod_mul by lia; reflexivity).
        replace (Z.pos p~0 / 2)%Z with (Z.pos p) by (rewrite Pos2Z.inj_xO, Z.mul_comm; now rewrite Z.div_mul by lia). cbn [effective] in *. rewrite Pos2Nat.inj_mul in *. change (Pos.to_nat 2) with 2%nat in *. pose proof (Pos2Nat.is_pos (effective p)) as Pe. set (e := Pos.to_nat (effective p)) in *.
        eapply yo_bind; [apply (near_square j x Hx); nia|]. intros y Hy. replace (S j * (2 * e) - 1)%nat with (S (j + j + 1) * e - 1)%nat by (f_equal; lia). apply IH; [exact Hy|lia|]. fold e. nia.
    - change (Z.pos 1 =? 1)%Z with true. apply yo_ok. cbn [effective]. change (Pos.to_nat 1) with 1%nat. replace (S j * 1 - 1)%nat with j by lia. exact Hx.
  Qed.
  (** one term of the sum *)
  Definition term_noise (k : nat) (c : R) : R := eta + g ^ k / IZR s + Rabs c * (g ^ k - 1).
  Lemma term_erf k c z : near k z -> (k < 2 * K)%nat -> Rabs (Q2R c) <= 1 -> yo T (mulc (pr := pr) (within E) z (KFloat c)) (fun y => exists q, holds q y /\ Rabs (real q - Q2R c * h ^ S k) <= term_noise k (Q2R c)).
  Proof.
    intros (p & Hp & Bp) L Hc. pose proof (s_pos s Hs) as Sp. pose proof (eta_pos s E HE Hs) as Ep. pose proof (Rinv_0_lt_compat _ Sp) as Ip. assert (I1 : / IZR s <= 1). { rewrite <- Rinv_1. apply Rinv_le_contravar; [lra|]. apply (IZR_le 1). lia. }
    cbn [mulc]. rewrite (proj2 (proj1 Hp)). pose proof (float_any s Hs c) as Fc. set (e := encodeQ s c) in *. pose proof (near_bound s E h 1 Hh k p Bp) as Bb. rewrite pow1 in *. rewrite Rmult_1_l in *.
    assert (Be : Rabs (real e) <= 2). { replace (real e) with ((real e - Q2R c) + Q2R c) by ring. eapply Rle_trans; [apply Rabs_triang|]. lra. }
    eapply yo_weaken; [apply (mulp_real n Hn pr HV s E T HE Hs HT p e z Hp); eapply (real_product n Hn s T Hs HT); [exact Bb|exact Be|]|].
    - eapply Rle_lt_trans; [|exact Hf]. apply Rmult_le_compat_l; [nra|]. rewrite Rmult_comm. apply Rmult_le_compat_l; [lra|]. apply pow_mono; [lra|lia].
    - intros y (q & Hq & Bq). exists q. split; [exact Hq|]. replace (real q - Q2R c * h ^ S k) with ((real q - real p * real e) + (real p * (real e - Q2R c) + Q2R c * (real p - h ^ S k))) by ring. eapply Rle_trans; [apply Rabs_triang|]. unfold term_noise. rewrite Rplus_assoc. apply Rplus_le_compat; [exact Bq|].
      eapply Rle_trans; [apply Rabs_triang|]. rewrite !Rabs_mult. unfold Rdiv. apply Rplus_le_compat; [apply Rmult_le_compat; try apply Rabs_pos; [exact Bb|exact Fc]|apply Rmult_le_compat_l; [apply Rabs_pos|exact Bp]].
  Qed.
  Definition degree (m : nat) : nat := Pos.to_nat (effective (Pos.of_succ_nat (2 * m))).
  Definition noise (ns : list nat) : R := fold_right (fun m r => term_noise (degree m - 1) (Q2R (multiplier m)) + r) 0 ns.
  Definition erf_sum (ns : list nat) (o : R) : R := fold_left (fun o m => o + powi h (2 * Z.of_nat m + 1) * Q2R (multiplier m)) ns o.
  Lemma coeff_small m : Rabs (Q2R (multiplier m)) <= 1.
  Proof.
    unfold multiplier, Q2R. cbn [Qnum Qden]. rewrite Rabs_mult. set (d := (factorial m * Pos.of_succ_nat (2 * m))%positive). assert (D : 1 <= IZR (Z.pos d)) by (apply (IZR_le 1); lia). rewrite (Rabs_right (/ _)) by (apply Rle_ge; left; apply Rinv_0_lt_compat; lra).
    assert (X : Rabs (IZR (if Nat.even m then 1 else -1)) = 1) by (destruct (Nat.even m); [apply Rabs_R1|unfold Rabs; destruct (Rcase_abs (-1)); lra]). rewrite X, Rmult_1_l. rewrite <- Rinv_1. apply Rinv_le_contravar; lra.
  Qed.
  Lemma powi_degree m : powi h (2 * Z.of_nat m + 1) = h ^ degree m.
  Proof. rewrite powi_effective. replace (2 * Z.of_nat m + 1)%Z with (Z.pos (Pos.of_succ_nat (2 * m))) by lia. reflexivity. Qed.
  Lemma loop_near D v x : holds v x -> real v = h -> forall ns o w B e, holds w o -> Rabs (real w - B) <= e -> Forall (fun m => (degree m <= 2 * K)%nat) ns -> Rabs B + e + 2 * INR (length ns) + noise ns < IZR s ->
    yo T (erf_loop (pr := pr) D (within E) ns x o) (fun z => exists q, holds q z /\ Rabs (real q - erf_sum ns B) <= e + noise ns).
  Proof.
    intros Hv Rv. assert (N0 : near 0 x). { exists v. split; [exact Hv|]. rewrite Rv. cbn [pow]. replace (h - h * 1) with 0 by ring. rewrite Rabs_R0. lra. }
    pose proof (s_pos s Hs) as Sp. pose proof (eta_pos s E HE Hs) as Ep.
    induction ns as [|m ns IH]; intros o w B e Ho Hw F Fit; cbn [erf_loop].
    { apply yo_ok. exists w. split; [exact Ho|]. cbn [erf_sum fold_left noise fold_right]. rewrite Rplus_0_r. exact Hw. }
    inversion F as [|a l Hm Fm]; subst. pose proof (Pos2Nat.is_pos (effective (Pos.of_succ_nat (2 * m)))) as Dp. fold (degree m) in Dp. cbn [noise fold_right] in *. fold (noise ns) in *. change (length (m :: ns)) with (S (length ns)) in Fit. rewrite S_INR in Fit.
    assert (Tn : 0 <= term_noise (degree m - 1) (Q2R (multiplier m))). { unfold term_noise. pose proof (g_one s E HE Hs (degree m - 1)) as G. pose proof (Rabs_pos (Q2R (multiplier m))). assert (0 <= g ^ (degree m - 1) / IZR s) by (apply Rmult_le_pos; [lra|left; now apply Rinv_0_lt_compat]). assert (0 <= Rabs (Q2R (multiplier m)) * (g ^ (degree m - 1) - 1)) by (apply Rmult_le_pos; lra). lra. }
    assert (Nn : 0 <= noise ns). { clear - HE Hs. induction ns as [|a ns IH]; [cbn; lra|]. cbn [noise fold_right]. fold (noise ns). unfold term_noise at 1. pose proof (s_pos s Hs). pose proof (eta_pos s E HE Hs). pose proof (g_one s E HE Hs (degree a - 1)) as G. pose proof (Rabs_pos (Q2R (multiplier a))). assert (0 <= g ^ (degree a - 1) / IZR s) by (apply Rmult_le_pos; [lra|left; now apply Rinv_0_lt_compat]). assert (0 <= Rabs (Q2R (multiplier a)) * (g ^ (degree a - 1) - 1)) by (apply Rmult_le_pos; lra). lra. }
    eapply yo_bind. { unfold pow_num. replace (2 * Z.of_nat m + 1)%Z with (Z.pos (Pos.of_succ_nat (2 * m))) by lia. apply (pow_near D _ _ 0 x N0); [lia|]. fold (degree m). lia. }
    intros t Ht. fold (degree m) in Ht. rewrite Nat.mul_1_l in Ht. eapply yo_bind; [apply (term_erf _ (multiplier m) t Ht); [lia|apply coeff_small]|]. intros y (q & Hq & Bq). replace (S (degree m - 1)) with (degree m) in Bq by lia.
    set (c := Q2R (multiplier m)) in *. assert (Cb : Rabs (c * h ^ degree m) <= 1). { rewrite Rabs_mult. pose proof (coeff_small m) as C1. fold c in C1. pose proof (power_bound h 1 Hh (degree m)) as P1. rewrite pow1 in P1. rewrite <- (Rmult_1_r 1). apply Rmult_le_compat; try apply Rabs_pos; assumption. }
    assert (Wq : Rabs (real (w + q) - (B + h ^ degree m * c)) <= e + term_noise (degree m - 1) c). { replace (real (w + q) - (B + h ^ degree m * c)) with ((real w - B) + (real q - c * h ^ degree m)) by (unfold Shareapprox_proofs.real; rewrite plus_IZR; field; lra). eapply Rle_trans; [apply Rabs_triang|]. lra. }
    assert (Bn : Rabs (B + h ^ degree m * c) <= Rabs B + 1) by (eapply Rle_trans; [apply Rabs_triang|]; rewrite (Rmult_comm _ c); lra).
    eapply yo_weaken; [eapply (IH _ (w + q)%Z (B + h ^ degree m * c) (e + term_noise (degree m - 1) c))|].
    - eapply (holds_bound n Hn s T Hs HT); [apply (add_enc_ok n); [apply Ho|apply Hq]| |].
      + replace (real (w + q)) with ((real (w + q) - (B + h ^ degree m * c)) + (B + h ^ degree m * c)) by ring. eapply Rle_trans; [apply Rabs_triang|]. apply Rplus_le_compat; [exact Wq|exact Bn].
      + eapply Rlt_le_trans with (IZR s * IZR s); [apply Rmult_lt_compat_l; [exact Sp|]; pose proof (pos_INR (length ns)); lra|]. left. eapply Rle_lt_trans; [|exact Hf]. pose proof (g_one s E HE Hs (2 * K)). rewrite <- (Rmult_1_r (IZR s * IZR s)) at 1. apply Rmult_le_compat_l; nra.
    - exact Wq.
    - exact Fm.
    - pose proof (pos_INR (length ns)). lra.
    - intros z (q' & Hq' & B'). exists q'. split; [exact Hq'|]. cbn [erf_sum fold_left]. rewrite powi_degree. fold c. unfold erf_sum in B'. lra.
  Qed.
End Powers.

(** ** The true error function *)
Lemma increasing_from f f' : (forall t, 0 <= t -> derivable_pt_lim f t (f' t)) -> (forall t, 0 <= t -> 0 <= f' t) -> f 0 = 0 -> forall u, 0 <= u -> 0 <= f u.
Proof.
  intros D P Z u [U|<-]; [|lra]. destruct (MVT_cor2 f f' 0 u U) as (c & Ec & Hc); [intros c Hc; apply D; lra|]. assert (0 <= f' c * (u - 0)) by (apply Rmult_le_pos; [apply P|]; lra). lra.
Qed.
Definition tay (k : nat) (u : R) : R := rsumn k (fun n => (-1) ^ n * u ^ n / INR (fact n)).
Lemma fact_pos n : 0 < INR (fact n). Proof. apply lt_0_INR, lt_O_fact. Qed.
Lemma d_tay k : forall u, derivable_pt_lim (tay (S k)) u (- tay k u).
Proof.
  induction k as [|k IH]; intros u.
  - apply (d_ext (fun _ => 1)); [intros t; unfold tay, rsumn, rsum; cbn; field|]. eapply d_val; [|apply d_const]. unfold tay, rsumn, rsum. cbn. ring.
  - apply (d_ext (fun t => tay (S k) t + (-1) ^ S k / INR (fact (S k)) * t ^ S k)); [intros t; unfold tay; rewrite (rsumn_S (S k)); field; apply Rgt_not_eq, fact_pos|]. eapply d_val; [|apply d_plus; [apply IH|apply d_scal, (derivable_pt_lim_pow u (S k))]].
    unfold tay at 2. rewrite (rsumn_S k). fold (tay k u). change (pred (S k)) with k. change (fact (S k)) with (S k * fact k)%nat. rewrite mult_INR. change ((-1) ^ S k) with (-1 * (-1) ^ k). field. split; [apply Rgt_not_eq, fact_pos|apply not_0_INR; discriminate].
Qed.
Lemma tay_zero k : tay (S k) 0 = 1.
Proof. induction k as [|k IH]; [unfold tay, rsumn, rsum; cbn; field|]. unfold tay in *. rewrite rsumn_S, IH. rewrite pow_i by lia. unfold Rdiv. ring. Qed.
(** the alternating series of exp(-u): the error is at most the next term, and has its sign *)
Lemma exp_series k : forall u, 0 <= u -> 0 <= (-1) ^ k * (exp (- u) - tay k u) <= u ^ k / INR (fact k).
Proof.
  assert (De : forall t, derivable_pt_lim (fun u => exp (- u)) t (- exp (- t))). { intros t. eapply d_val; [|apply (d_comp (fun u => - u) exp); [apply d_opp, d_id|apply derivable_pt_lim_exp]]. ring. }
  assert (Dr : forall k t, derivable_pt_lim (fun u => (-1) ^ S k * (exp (- u) - tay (S k) u)) t ((-1) ^ k * (exp (- t) - tay k t))). { intros j t. eapply d_val; [|apply d_scal, d_minus; [apply De|apply d_tay]]. cbn [pow]. ring. }
  induction k as [|k IH].
  - intros u U. unfold tay, rsumn, rsum. cbn [seq map fold_right pow fact INR]. pose proof (exp_pos (- u)). pose proof (exp_le1 (- u) ltac:(lra)). lra.
  - assert (Z : (-1) ^ S k * (exp (- 0) - tay (S k) 0) = 0) by (rewrite tay_zero, Ropp_0, exp_0; ring). intros u U. split.
    + apply (increasing_from _ _ (fun t _ => Dr k t)); [intros t Ht; apply IH; exact Ht|exact Z|exact U].
    + enough (0 <= / INR (fact (S k)) * u ^ S k - (-1) ^ S k * (exp (- u) - tay (S k) u)) by (unfold Rdiv; lra).
      apply (increasing_from (fun u => / INR (fact (S k)) * u ^ S k - (-1) ^ S k * (exp (- u) - tay (S k) u)) (fun t => / INR (fact (S k)) * (INR (S k) * t ^ k) - (-1) ^ k * (exp (- t) - tay k t))); [| | |exact U].
      * intros t _. apply d_minus; [apply d_scal, (derivable_pt_lim_pow t (S k))|apply Dr].
      * intros t Ht. destruct (IH t Ht) as [_ B]. replace (/ INR (fact (S k)) * (INR (S k) * t ^ k)) with (t ^ k / INR (fact k)); [lra|]. change (fact (S k)) with (S k * fact k)%nat. rewrite mult_INR. field. split; [apply Rgt_not_eq, fact_pos|apply not_0_INR; discriminate].
      * rewrite Z, pow_i by lia. ring.
Qed.
Lemma d_taylor k x : derivable_pt_lim (taylor k) x (2 / sqrt PI * tay (S k) (x * x)).
Proof.
  unfold taylor. apply d_scal. apply (d_rsumn (S k) (fun n t => (-1) ^ n * t ^ (2 * n + 1) / (INR (fact n) * (2 * INR n + 1))) (fun n => (-1) ^ n * (x * x) ^ n / INR (fact n))). intros i _. pose proof (fact_pos i) as Fp. pose proof (pos_INR i) as Ip.
  apply (d_ext (fun t => (-1) ^ i / (INR (fact i) * (2 * INR i + 1)) * t ^ (2 * i + 1))); [intros t; field; split; lra|]. eapply d_val; [|apply d_scal, (derivable_pt_lim_pow x (2 * i + 1))].
  replace (pred (2 * i + 1)) with (2 * i)%nat by lia. replace (INR (2 * i + 1)) with (2 * INR i + 1) by (rewrite plus_INR, mult_INR; cbn [INR]; lra). rewrite pow_mult. replace (x ^ 2) with (x * x) by ring. field. split; lra.
Qed.
(** the Taylor polynomials are the error function up to the next term (without its 1/(2k+3)) *)
Lemma taylor_close F k x : error_function F -> Rabs x <= 1 -> Rabs (taylor k x - F x) <= 2 / sqrt PI * (Rabs x / INR (fact (S k))).
Proof.
  intros [F0 DF] B. assert (P : 0 < 2 / sqrt PI) by (destruct root_pi as [_ R]; lra). set (r := 2 / sqrt PI) in *. apply Rabs_def2' in B. set (f := fun t => taylor k t - F t). assert (f0 : f 0 = 0). { unfold f. rewrite F0. unfold taylor. fold r. assert (Z : rsumn (S k) (fun n => (-1) ^ n * 0 ^ (2 * n + 1) / (INR (fact n) * (2 * INR n + 1))) = 0). { generalize (S k). induction n as [|n IH]; [reflexivity|]. rewrite rsumn_S, IH, pow_i by lia. unfold Rdiv. ring. } rewrite Z. ring. }
  assert (D : forall t, -1 <= t <= 1 -> derivable_pt_lim f t (r * (tay (S k) (t * t) - exp (- (t * t))))). { intros t Ht. eapply d_val; [|apply d_minus; [apply d_taylor|apply DF, Ht]]. unfold r. ring. }
  assert (Bd : forall t, -1 <= t <= 1 -> Rabs (r * (tay (S k) (t * t) - exp (- (t * t)))) <= r * / INR (fact (S k))).
  { intros t Ht. rewrite Rabs_mult, (Rabs_right r) by lra. apply Rmult_le_compat_l; [lra|]. assert (T : 0 <= t * t <= 1) by nra. destruct (exp_series (S k) (t * t) (proj1 T)) as [A1 A2]. pose proof (fact_pos (S k)) as Fp. assert (Pk : (t * t) ^ S k <= 1) by (rewrite <- (pow1 (S k)); apply pow_incr; exact T).
    assert (U : (t * t) ^ S k / INR (fact (S k)) <= / INR (fact (S k))) by (unfold Rdiv; rewrite <- (Rmult_1_l (/ _)) at 2; apply Rmult_le_compat_r; [left; now apply Rinv_0_lt_compat|exact Pk]).
    rewrite Rabs_minus_sym. rewrite <- (Rmult_1_l (Rabs _)), <- (pow_1_abs (S k)), <- Rabs_mult. rewrite Rabs_right; lra. }
  assert (X : f x = f x - f 0) by (rewrite f0; ring). change (Rabs (f x) <= r * (Rabs x / INR (fact (S k)))). rewrite X. replace (r * (Rabs x / INR (fact (S k)))) with (r * / INR (fact (S k)) * Rabs x) by (unfold Rdiv; ring).
  destruct (Rtotal_order 0 x) as [H|[<-|H]].
  - destruct (MVT_cor2 f _ 0 x H (fun c Hc => D c ltac:(lra))) as (c & Ec & Hc). rewrite Ec, Rminus_0_r, Rabs_mult. apply Rmult_le_compat_r; [apply Rabs_pos|]. apply Bd. lra.
  - rewrite Rminus_diag_eq, Rabs_R0 by reflexivity. lra.
  - destruct (MVT_cor2 f _ x 0 H (fun c Hc => D c ltac:(lra))) as (c & Ec & Hc). rewrite Rabs_minus_sym, Ec, Rabs_mult. replace (Rabs (0 - x)) with (Rabs x) by (rewrite <- Rabs_Ropp; f_equal; ring). apply Rmult_le_compat_r; [apply Rabs_pos|]. apply Bd. lra.
Qed.
(** C104: the Taylor polynomial that erf follows (C77) is the error function up to its next term, at every degree. *)
Lemma k_C104_taylor F k x : error_function F -> Rabs x <= 1 -> Rabs (taylor k x - F x) <= 2 / sqrt PI / INR (fact (S k)).
Proof.
  intros HF B. eapply Rle_trans; [apply (taylor_close F k x HF B)|]. pose proof (Rinv_0_lt_compat _ (fact_pos (S k))) as I. assert (P : 0 < 2 / sqrt PI) by (destruct root_pi as [_ R]; lra). set (r := 2 / sqrt PI) in *. replace (r / INR (fact (S k))) with (r * (1 * / INR (fact (S k)))) by (unfold Rdiv; ring).
  apply Rmult_le_compat_l; [lra|]. unfold Rdiv. apply Rmult_le_compat_r; [left; exact I|exact B].
Qed.

(** ** The method in the default configuration *)
Lemma big_facts : INR (fact 5) = 120 /\ INR (fact 6) = 720 /\ INR (fact 7) = 5040 /\ INR (fact 8) = 40320 /\ INR (fact 9) = 362880.
Proof. assert (G : forall n p, Z.pos (factorial n) = p -> INR (fact n) = IZR p) by (intros n p <-; now rewrite factorial_fact, <- INR_IZR_INZ). repeat split; (rewrite (G _ _ eq_refl); apply f_equal; reflexivity). Qed.
Lemma erf_default x : mpc_erf default x = (x - x ^ 3 / 3 + x ^ 6 / 10 - x ^ 9 / 42 + x ^ 12 / 216 - x ^ 18 / 1320 + x ^ 18 / 9360 - x ^ 27 / 75600 + x ^ 24 / 685440) * (2 / sqrt PI).
Proof.
  unfold mpc_erf. apply Rmult_eq_compat_r. cbn [default erf_iterations seq fold_left]. rewrite !powi_effective.
  change (powerRZ x (effectiveZ (2 * Z.of_nat 1 + 1))) with (x ^ 3). change (powerRZ x (effectiveZ (2 * Z.of_nat 2 + 1))) with (x ^ 6). change (powerRZ x (effectiveZ (2 * Z.of_nat 3 + 1))) with (x ^ 9). change (powerRZ x (effectiveZ (2 * Z.of_nat 4 + 1))) with (x ^ 12).
  change (powerRZ x (effectiveZ (2 * Z.of_nat 5 + 1))) with (x ^ 18). change (powerRZ x (effectiveZ (2 * Z.of_nat 6 + 1))) with (x ^ 18). change (powerRZ x (effectiveZ (2 * Z.of_nat 7 + 1))) with (x ^ 27). change (powerRZ x (effectiveZ (2 * Z.of_nat 8 + 1))) with (x ^ 24).
  destruct big_facts as (F5 & F6 & F7 & F8 & _). rewrite F5, F6, F7, F8. cbn [fact INR Nat.mul Nat.add]. generalize (x ^ 3) (x ^ 6) (x ^ 9) (x ^ 12) (x ^ 18) (x ^ 27) (x ^ 24). intros. field.
Qed.
Lemma taylor_default x : taylor 8 x = (x - x ^ 3 / 3 + x ^ 5 / 10 - x ^ 7 / 42 + x ^ 9 / 216 - x ^ 11 / 1320 + x ^ 13 / 9360 - x ^ 15 / 75600 + x ^ 17 / 685440) * (2 / sqrt PI).
Proof.
  unfold taylor. rewrite Rmult_comm. apply Rmult_eq_compat_r. unfold rsumn, rsum. cbn [seq map fold_right]. destruct big_facts as (F5 & F6 & F7 & F8 & _). rewrite F5, F6, F7, F8.
  change (2 * 0 + 1)%nat with 1%nat. change (2 * 1 + 1)%nat with 3%nat. change (2 * 2 + 1)%nat with 5%nat. change (2 * 3 + 1)%nat with 7%nat. change (2 * 4 + 1)%nat with 9%nat. change (2 * 5 + 1)%nat with 11%nat. change (2 * 6 + 1)%nat with 13%nat. change (2 * 7 + 1)%nat with 15%nat. change (2 * 8 + 1)%nat with 17%nat.
  rewrite pow_1. generalize (x ^ 3) (x ^ 5) (x ^ 7) (x ^ 9) (x ^ 11) (x ^ 13) (x ^ 15) (x ^ 17). intros. cbn [fact INR Nat.mul Nat.add pow]. field.
Qed.
Lemma pow01 x k : 0 <= x <= 1 -> 0 <= x ^ k <= 1. Proof. intros H. split; [apply pow_le; lra|]. rewrite <- (pow1 k). apply pow_incr. exact H. Qed.
Lemma quarter y : 0 <= y <= 1 -> 0 <= y * (1 - y) <= 1 / 4. Proof. intros H. split; [nra|]. pose proof (Rle_0_sqr (y - 1 / 2)) as Q. unfold Rsqr in Q. lra. Qed.
(** C104: on [0, 1] the method of the default configuration is within 1/100 of the error function, in spite of the wrong powers (C77). *)
Lemma k_C104_method F x : error_function F -> 0 <= x <= 1 -> Rabs (mpc_erf default x - F x) <= 1 / 100.
Proof.
  intros HF X. assert (Ax : Rabs x <= 1) by (apply Rabs_le; lra). pose proof (taylor_close F 8 x HF Ax) as T. destruct root_pi as [_ R]. set (r := 2 / sqrt PI) in *. destruct big_facts as (_ & _ & _ & _ & F9). rewrite F9 in T.
  assert (T' : Rabs (taylor 8 x - F x) <= 1 / 100000). { eapply Rle_trans; [exact T|]. assert (Rabs x / 362880 <= 1 / 362880) by lra. assert (0 <= Rabs x / 362880) by (pose proof (Rabs_pos x); lra). nra. } clear T.
  assert (D : mpc_erf default x - taylor 8 x = (- (x ^ 5 * (1 - x)) / 10 + x ^ 7 * (1 - x ^ 2) / 42 - x ^ 9 * (1 - x ^ 3) / 216 + x ^ 11 * (1 - x ^ 7) / 1320 - x ^ 13 * (1 - x ^ 5) / 9360 + x ^ 15 * (1 - x ^ 12) / 75600 - x ^ 17 * (1 - x ^ 7) / 685440) * r) by (rewrite erf_default, taylor_default; fold r; field).
  assert (P5 : 0 <= x ^ 5 * (1 - x) <= 67 / 1000). { split; [apply Rmult_le_pos; [apply pow_le|]; lra|]. assert (0 <= (x - 5 / 6) * (x - 5 / 6) * (x ^ 4 + 2 / 3 * x ^ 3 + 5 / 12 * x ^ 2 + 25 / 108 * x + 125 / 1296 * 1 + 0)). { apply Rmult_le_pos; [apply Rle_0_sqr|]. pose proof (pow01 x 4 X). pose proof (pow01 x 3 X). pose proof (pow01 x 2 X). lra. } enough (x ^ 5 * (1 - x) <= 3125 / 46656) by lra. ring_simplify in H. ring_simplify. lra. }
  assert (P7 : 0 <= x ^ 7 * (1 - x ^ 2) <= 1 / 4). { replace (x ^ 7) with (x ^ 5 * x ^ 2) by ring. rewrite Rmult_assoc. pose proof (quarter (x ^ 2) (pow01 x 2 X)). pose proof (pow01 x 5 X). nra. }
  assert (P9 : 0 <= x ^ 9 * (1 - x ^ 3) <= 1 / 4). { replace (x ^ 9) with (x ^ 6 * x ^ 3) by ring. rewrite Rmult_assoc. pose proof (quarter (x ^ 3) (pow01 x 3 X)). pose proof (pow01 x 6 X). nra. }
  assert (Pr : forall a b, 0 <= x ^ a * (1 - x ^ b) <= 1). { intros a b. pose proof (pow01 x a X). pose proof (pow01 x b X). nra. }
  pose proof (Pr 11%nat 7%nat) as Q1. pose proof (Pr 13%nat 5%nat) as Q2. pose proof (Pr 15%nat 12%nat) as Q3. pose proof (Pr 17%nat 7%nat) as Q4. clear Pr.
  set (S := - (x ^ 5 * (1 - x)) / 10 + x ^ 7 * (1 - x ^ 2) / 42 - x ^ 9 * (1 - x ^ 3) / 216 + x ^ 11 * (1 - x ^ 7) / 1320 - x ^ 13 * (1 - x ^ 5) / 9360 + x ^ 15 * (1 - x ^ 12) / 75600 - x ^ 17 * (1 - x ^ 7) / 685440) in *.
  assert (SB : - (81 / 10000) <= S <= 81 / 10000) by (unfold S; lra). clearbody S. clear P5 P7 P9 Q1 Q2 Q3 Q4. assert (Rabs (mpc_erf default x - taylor 8 x) <= 992 / 100000). { rewrite D. apply Rabs_le. nra. }
  replace (mpc_erf default x - F x) with ((mpc_erf default x - taylor 8 x) + (taylor 8 x - F x)) by ring. eapply Rle_trans; [apply Rabs_triang|]. lra.
Qed.
(** C104 refuted for negative numbers: at -1 the method is above the error function by more than 23/100. *)
Lemma k_C104_negative_refuted F : error_function F -> F (-1) + 23 / 100 < mpc_erf default (-1).
Proof.
  intros HF. assert (A1 : Rabs (-1) <= 1) by (apply Rabs_le; lra). pose proof (taylor_close F 8 (-1) HF A1) as T. destruct root_pi as [_ R]. destruct big_facts as (_ & _ & _ & _ & F9). rewrite F9 in T. rewrite taylor_default in T. rewrite erf_default. set (r := 2 / sqrt PI) in *. apply Rabs_def2' in T.
  assert (Rabs (-1) = 1) as E by (unfold Rabs; destruct (Rcase_abs (-1)); lra). rewrite E in T. cbn [pow] in *. lra.
Qed.

(** ** erf on shares *)
Section Weak.
  Context {pr : provider}.
  Lemma erf_loop_weak D chk ns x : forall o, weaker (erf_loop (pr := pr) D chk ns x o) (erf_loop D no_check ns x o).
  Proof. induction ns as [|m ns IH]; intros o; cbn [erf_loop]; [apply weaker_refl|]. apply weaker_bind; [apply powv_weak|]. intros t. apply weaker_bind; [apply mulc_weak|]. intros y. apply IH. Qed.
  Lemma erfv_weak D chk k x : weaker (erfv (pr := pr) D chk k x) (erfv D no_check k x).
  Proof. apply weaker_bind; [apply erf_loop_weak|]. intros o. apply mulc_weak. Qed.
End Weak.
Lemma growth_small e k : 0 <= e -> INR k * e <= 99 / 100000 -> (1 + e) ^ k <= 1 + 1001 / 1000 * (INR k * e).
Proof.
  intros He Hk. assert (B : (1 + e) ^ k * (1 - INR k * e) <= 1).
  { clear Hk. induction k as [|k IH]; [cbn; lra|]. cbn [pow]. rewrite S_INR. pose proof (pow_le (1 + e) k ltac:(lra)) as P. pose proof (pos_INR k) as I. assert ((1 + e) * (1 - (INR k + 1) * e) <= 1 - INR k * e) by nra. replace ((1 + e) * (1 + e) ^ k * (1 - (INR k + 1) * e)) with ((1 + e) ^ k * ((1 + e) * (1 - (INR k + 1) * e))) by ring. nra. }
  assert (Y : 0 <= INR k * e) by (apply Rmult_le_pos; [apply pos_INR|exact He]). set (y := INR k * e) in *. set (p := (1 + e) ^ k) in *. clearbody y p. apply (Rmult_le_reg_r (1 - y)); [lra|]. nra.
Qed.
Lemma rabs_pos_num b : 0 < b -> Rabs (IZR 1 * / b) = / b /\ Rabs (IZR (-1) * / b) = / b.
Proof. intros H. pose proof (Rinv_0_lt_compat b H). split; [rewrite Rmult_1_l; apply Rabs_right; lra|]. replace (IZR (-1) * / b) with (- / b) by lra. rewrite Rabs_Ropp. apply Rabs_right. lra. Qed.
Lemma default_noise E : (E = 1 \/ E = 2)%Z -> noise 65536 E (seq 1 8) <= (9431 / 1000 * IZR E + 8014 / 1000) / 65536.
Proof.
  intros HE. assert (E12 : 1 <= IZR E <= 2) by (destruct HE as [-> | ->]; lra). set (e := eta 65536 E). assert (e0 : 0 < e <= 2 / 65536) by (unfold e, eta; lra).
  assert (N : forall k c a, (k <= 26)%nat -> Rabs c = a -> 0 <= a -> term_noise 65536 E k c <= e + (1 + 1 / 1000) / 65536 + a * (1001 / 1000 * (INR k * e))).
  { intros k c a Hk Hc Ha. unfold term_noise. fold e. rewrite Hc. assert (Ik : INR k <= 26) by (apply (le_INR _ 26) in Hk; replace (INR 26) with 26 in Hk by (cbn; lra); exact Hk). pose proof (pos_INR k). assert (INR k * e <= 26 * (2 / 65536)) by (apply Rmult_le_compat; lra).
    pose proof (growth_small e k ltac:(lra) ltac:(lra)) as G. assert ((1 + e) ^ k / 65536 <= (1 + 1 / 1000) / 65536) by lra. assert (a * ((1 + e) ^ k - 1) <= a * (1001 / 1000 * (INR k * e))) by (apply Rmult_le_compat_l; lra). lra. }
  unfold noise. cbn [seq fold_right].
  assert (M : forall m q b, degree m = S q -> (q <= 26)%nat -> Z.pos (factorial m * Pos.of_succ_nat (2 * m)) = b -> term_noise 65536 E (degree m - 1) (Q2R (multiplier m)) <= e + (1 + 1 / 1000) / 65536 + / IZR b * (1001 / 1000 * (INR q * e))).
  { intros m q b Hd Hq <-. rewrite Hd. replace (S q - 1)%nat with q by lia. assert (P : 0 < IZR (Z.pos (factorial m * Pos.of_succ_nat (2 * m)))) by (apply (IZR_lt 0); lia). apply N; [exact Hq| |left; now apply Rinv_0_lt_compat]. unfold multiplier, Q2R. cbn [Qnum Qden]. destruct (rabs_pos_num _ P) as [A B]. destruct (Nat.even m); assumption. }
  pose proof (M 1%nat 2%nat 3%Z eq_refl ltac:(lia) eq_refl) as M1. pose proof (M 2%nat 5%nat 10%Z eq_refl ltac:(lia) eq_refl) as M2. pose proof (M 3%nat 8%nat 42%Z eq_refl ltac:(lia) eq_refl) as M3. pose proof (M 4%nat 11%nat 216%Z eq_refl ltac:(lia) eq_refl) as M4.
  pose proof (M 5%nat 17%nat 1320%Z eq_refl ltac:(lia) eq_refl) as M5. pose proof (M 6%nat 17%nat 9360%Z eq_refl ltac:(lia) eq_refl) as M6. pose proof (M 7%nat 26%nat 75600%Z eq_refl ltac:(lia) eq_refl) as M7. pose proof (M 8%nat 23%nat 685440%Z eq_refl ltac:(lia) eq_refl) as M8. clear M N.
  replace (INR 2) with 2 in * by (cbn; lra). replace (INR 5) with 5 in * by (cbn; lra). replace (INR 8) with 8 in * by (cbn; lra). replace (INR 11) with 11 in * by (cbn; lra). replace (INR 17) with 17 in * by (cbn; lra). replace (INR 26) with 26 in * by (cbn; lra). replace (INR 23) with 23 in * by (cbn; lra).
  assert (Ee : IZR E = 65536 * e) by (unfold e, eta; lra). rewrite Ee. clearbody e. lra.
Qed.
Definition erf_noise (E : Z) : R := (12 * IZR E + 11) / 65536.
Section Claims.
  Variables (n : nat) (pr : provider).
  Hypothesis Hn : (0 < n)%nat.
  Hypothesis HV : valid n pr.
  Lemma erf_yo T E x : (E = 1 \/ E = 2)%Z -> (T = true -> n = 1%nat) -> sharing n x -> n_sc x = 65536%Z -> Rabs (rval x) <= 1 -> yo T (erfv (pr := pr) 65536 (within E) 8 x) (fun z => n_sc z = 65536%Z /\ Rabs (rval z - mpc_erf default (rval x)) <= erf_noise E).
  Proof using Hn HV.
    intros HE HT Hx Sx Bx. assert (E12 : 1 <= IZR E <= 2) by (destruct HE as [-> | ->]; lra). assert (HE' : (1 <= E)%Z) by lia. destruct (holds_rval n 65536 x Hx Sx) as [Hv Rv]. set (v := open_a (n_sh x)) in *. set (X := rval x) in *.
    assert (R63 : IZR H63 = 2 ^ 63) by (unfold H63; rewrite pow_IZR; reflexivity). pose proof (eta_pos 65536 E HE' ltac:(lia)) as Ep. assert (Eb : eta 65536 E <= 2 / 65536) by (unfold eta; lra).
    assert (Fit : IZR 65536 * IZR 65536 * (2 * (1 + eta 65536 E) ^ (2 * 14)) < IZR H63). { change (2 * 14)%nat with 28%nat. assert (I28 : INR 28 = 28) by (cbn; lra). pose proof (growth_small (eta 65536 E) 28 ltac:(lra)) as G. rewrite I28 in G. specialize (G ltac:(lra)). rewrite R63. nra. }
    pose proof (default_noise E HE) as Dn. set (N := noise 65536 E (seq 1 8)) in *. assert (L8 : INR (length (seq 1 8)) = 8) by (rewrite seq_length; cbn; lra).
    unfold erfv. eapply yo_bind; [apply (loop_near n Hn pr HV 65536 E T HE' ltac:(lia) HT X Bx 14 Fit 65536 v x Hv Rv (seq 1 8) x v X 0 Hv)|].
    - rewrite Rv, Rminus_diag_eq by reflexivity. rewrite Rabs_R0. lra.
    - repeat apply Forall_cons; try apply Forall_nil; apply Nat.leb_le; reflexivity.
    - rewrite L8. fold N. lra.
    - intros o (q & Hq & Bq). fold N in Bq. rewrite Rplus_0_l in Bq. set (S := erf_sum X (seq 1 8) X) in *.
      assert (Em : mpc_erf default X = S * (2 / sqrt PI)). { unfold mpc_erf, S, erf_sum. apply Rmult_eq_compat_r. cbn [default erf_iterations seq fold_left]. now rewrite !multiplier_real. }
      destruct root_pi as [Cq R]. set (r := 2 / sqrt PI) in *.
      assert (SB : Rabs S <= 148 / 100). { assert (P : forall k, Rabs (X ^ k) <= 1) by (intros k; pose proof (power_bound X 1 Bx k) as P; rewrite pow1 in P; exact P). assert (Es : S = X - X ^ 3 / 3 + X ^ 6 / 10 - X ^ 9 / 42 + X ^ 12 / 216 - X ^ 18 / 1320 + X ^ 18 / 9360 - X ^ 27 / 75600 + X ^ 24 / 685440) by (apply (Rmult_eq_reg_r r); [rewrite <- Em; apply erf_default|lra]).
        pose proof (Rabs_def2' _ _ Bx). pose proof (Rabs_def2' _ _ (P 3%nat)). pose proof (Rabs_def2' _ _ (P 6%nat)). pose proof (Rabs_def2' _ _ (P 9%nat)). pose proof (Rabs_def2' _ _ (P 12%nat)). pose proof (Rabs_def2' _ _ (P 18%nat)). pose proof (Rabs_def2' _ _ (P 27%nat)). pose proof (Rabs_def2' _ _ (P 24%nat)). rewrite Es. apply Rabs_le. lra. }
      pose proof (float_any 65536 ltac:(lia) two_over_root_pi) as Fq. cbn [mulc]. rewrite (proj2 (proj1 Hq)). set (c := encodeQ 65536 two_over_root_pi) in *. assert (Cr : Rabs (real 65536 c - r) <= / 65536 + / 3000000) by (replace (real 65536 c - r) with ((real 65536 c - Q2R two_over_root_pi) + (Q2R two_over_root_pi - r)) by ring; eapply Rle_trans; [apply Rabs_triang|]; lra).
      assert (Bo : Rabs (real 65536 q) <= 149 / 100) by (replace (real 65536 q) with ((real 65536 q - S) + S) by ring; eapply Rle_trans; [apply Rabs_triang|]; lra). assert (Bc : Rabs (real 65536 c) <= 2) by (replace (real 65536 c) with ((real 65536 c - r) + r) by ring; eapply Rle_trans; [apply Rabs_triang|]; rewrite (Rabs_right r) by lra; lra).
      eapply yo_weaken; [apply (mulp_real n Hn pr HV 65536 E T HE' ltac:(lia) HT q c o Hq); eapply (real_product n Hn 65536 T ltac:(lia) HT); [exact Bo|exact Bc|rewrite R63; lra]|]. intros z (y & Hy & By). destruct (rval_holds n Hn 65536 y z ltac:(lia) Hy) as [Sz Rz]. split; [exact Sz|]. rewrite Rz, Em.
      replace (real 65536 y - S * r) with ((real 65536 y - real 65536 q * real 65536 c) + (real 65536 q * (real 65536 c - r) + r * (real 65536 q - S))) by ring. eapply Rle_trans; [apply Rabs_triang|]. eapply Rle_trans; [apply Rplus_le_compat_l, Rabs_triang|]. rewrite !Rabs_mult, (Rabs_right r) by lra.
      assert (Rabs (real 65536 q) * Rabs (real 65536 c - r) <= 149 / 100 * (/ 65536 + / 3000000)) by (apply Rmult_le_compat; try apply Rabs_pos; assumption). assert (r * Rabs (real 65536 q - S) <= 1128380 / 1000000 * N) by (apply Rmult_le_compat; try apply Rabs_pos; lra). unfold erf_noise. unfold eta in *. lra.
  Qed.
  (** C104: erf of a number from -1 to 1 in the default configuration is what the method gives up to 12 E + 11 units, and from 0 to 1 within 1/100 of the error function besides. *)
  Lemma k_C104_erf E x st z : (E = 1 \/ E = 2)%Z -> sharing n x -> n_sc x = 65536%Z -> let X := rval x in Rabs X <= 1 -> fst (erfv (pr := pr) 65536 (within E) 8 x st) = Some z ->
    fst (erfv (pr := pr) 65536 no_check 8 x st) = Some z /\ n_sc z = 65536%Z /\ Rabs (rval z - mpc_erf default X) <= erf_noise E /\ forall F, error_function F -> 0 <= X -> Rabs (rval z - F X) <= 1 / 100 + erf_noise E.
  Proof using Hn HV.
    intros HE Hx Sx X Bx Hz. split; [eapply weaker_fst; [apply erfv_weak|exact Hz]|]. destruct (yo_some _ _ _ _ _ (erf_yo false E x HE ltac:(discriminate) Hx Sx Bx) Hz) as [Sz Bz]. split; [exact Sz|]. split; [exact Bz|]. intros F HF X0. apply Rabs_def2' in Bx. pose proof (k_C104_method F X HF ltac:(fold X in Bx; lra)) as M.
    replace (rval z - F X) with ((rval z - mpc_erf default X) + (mpc_erf default X - F X)) by ring. eapply Rle_trans; [apply Rabs_triang|]. fold X in Bz. lra.
  Qed.
  (** C104: with one party no assumption on the truncations is needed. *)
  Lemma k_C104_one_party x st : n = 1%nat -> sharing n x -> n_sc x = 65536%Z -> let X := rval x in Rabs X <= 1 ->
    exists z, fst (erfv (pr := pr) 65536 no_check 8 x st) = Some z /\ Rabs (rval z - mpc_erf default X) <= 23 / 65536 /\ forall F, error_function F -> 0 <= X -> Rabs (rval z - F X) <= 11 / 1000.
  Proof using Hn HV.
    intros H1 Hx Sx X Bx. destruct (yo_true _ _ st (erf_yo true 1 x (or_introl eq_refl) (fun _ => H1) Hx Sx Bx)) as (z & Ez & Sz & Bz). exists z. split; [eapply weaker_fst; [apply erfv_weak|exact Ez]|]. unfold erf_noise in Bz. fold X in Bz. split; [lra|]. intros F HF X0. fold X in Bx. apply Rabs_def2' in Bx. pose proof (k_C104_method F X HF ltac:(lra)) as M.
    replace (rval z - F X) with ((rval z - mpc_erf default X) + (mpc_erf default X - F X)) by ring. eapply Rle_trans; [apply Rabs_triang|]. lra.
  Qed.
End Claims.

(** C104 refuted outside: with one party erf(-1) is given as a number that exceeds the error function by 23/100, erf(2) as -175 and erf(3) as -277837. *)
Lemma k_C104_far_refuted : exists pr st, valid 1 pr /\
  (exists x z, sharing 1 x /\ n_sc x = 65536%Z /\ rval x = -1 /\ fst (erfv (pr := pr) 65536 no_check 8 x st) = Some z /\ forall F, error_function F -> F (-1) + 23 / 100 < rval z) /\
  (exists x z, sharing 1 x /\ n_sc x = 65536%Z /\ rval x = 2 /\ fst (erfv (pr := pr) 65536 no_check 8 x st) = Some z /\ rval z < -175) /\
  (exists x z, sharing 1 x /\ n_sc x = 65536%Z /\ rval x = 3 /\ fst (erfv (pr := pr) 65536 no_check 8 x st) = Some z /\ rval z < -277000).
Proof.
  exists alone, tt. split; [exact alone_valid|]. split; [|split].
  - destruct (number_ok (-1) ltac:(lia)) as (A & B & C). destruct (run_gives (-1) (erfv (pr := alone) 65536 no_check 8 (number (-1))) (-39850) ltac:(vm_compute; reflexivity) ltac:(lia)) as (z & Z1 & Z2). exists (number (-1)), z. rewrite Z2. repeat (split; [assumption|]). intros F HF.
    assert (A1 : Rabs (-1) <= 1) by (apply Rabs_le; lra). pose proof (taylor_close F 8 (-1) HF A1) as T. destruct root_pi as [_ R]. destruct big_facts as (_ & _ & _ & _ & F9). rewrite F9 in T. rewrite taylor_default in T. set (r := 2 / sqrt PI) in *. apply Rabs_def2' in T. assert (Rabs (-1) = 1) as E1 by (unfold Rabs; destruct (Rcase_abs (-1)); lra). rewrite E1 in T. cbn [pow] in *. lra.
  - destruct (number_ok 2 ltac:(lia)) as (A & B & C). destruct (run_gives 2 (erfv (pr := alone) 65536 no_check 8 (number 2)) (-11500342) ltac:(vm_compute; reflexivity) ltac:(lia)) as (z & Z1 & Z2). exists (number 2), z. rewrite Z2. repeat (split; [assumption|]). lra.
  - destruct (number_ok 3 ltac:(lia)) as (A & B & C). destruct (run_gives 3 (erfv (pr := alone) 65536 no_check 8 (number 3)) (-18208491816) ltac:(vm_compute; reflexivity) ltac:(lia)) as (z & Z1 & Z2). exists (number 3), z. rewrite Z2. repeat (split; [assumption|]). lra.
Qed.
(** the error function exists *)
Lemma error_function_exists : exists F, error_function F.
Proof.
  set (f := fun x => 2 / sqrt PI * exp (- (x * x))). assert (D : forall x, derivable_pt_lim f x (2 / sqrt PI * (exp (- (x * x)) * - (1 * x + x * 1)))). { intros x. unfold f. apply d_scal, (d_comp (fun x => - (x * x)) exp); [apply d_opp, d_mult; apply d_id|apply derivable_pt_lim_exp]. }
  assert (C : forall x, -1 <= x <= 1 -> continuity_pt f x) by (intros x _; apply derivable_continuous_pt; exists (2 / sqrt PI * (exp (- (x * x)) * - (1 * x + x * 1))); apply D).
  assert (H : -1 <= 1) by lra. set (G := primitive H (FTC_P1 H C)). exists (fun x => G x - G 0). split; [lra|]. intros x Hx. eapply d_val; [|apply d_minus; [exact (RiemannInt_P28 H C Hx)|apply d_const]]. unfold f. ring.
Qed.

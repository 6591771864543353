(** Proofs of C117: pos_pow on shares. *)
Require Import ZArith QArith Qabs Qreals List Bool Lia Reals Lra Psatz.
From Verif Require Import Rtensor_proofs Realgrad_claims Approx Approx_claims Approxfn_claims Enclose Approxlog_claims Approxsoft_claims.
From Verif Require Import Ring64 Encoder Arith Arith_proofs Beaver Trunc Provider Binary Binary_proofs Convert_proofs Compare Compare_proofs Compare_claims Maximum Maximum_proofs Maximum_claims Regular Regular_proofs Regular_num_proofs Regular_claims Shareapprox Shareapprox_proofs Shareapprox_claims Sharesoft Sharesoft_claims Shareroot_claims Sharepoly_claims Sharelog Sharelog_claims Sharerecip Sharerecip_claims Sharepow Sharepow_claims Sharepospow.
Import ListNotations.
Open Scope R_scope.

(** *** Specification *)
(** the exponent *)
Definition exponent_is (n : nat) (c : coeff) (p : R) : Prop := match c with KInt k => p = IZR k | KFloat q => p = Q2R q | KEnc y => sharing n y /\ n_sc y = 65536%Z /\ p = rval y end.
(** it is no whole number known to all *)
Definition fractional (c : coeff) : Prop := match c with KInt _ => False | KFloat q => forall k, ~ (q == inject_Z k)%Q | KEnc _ => True end.
(** the error of p log X: that of the logarithm (C103), the encoding of p and a rounding *)
Definition exponent_error (E : Z) (p X : R) : R := Rabs p * log_error E X + (Rabs (ln X) + 1 / 5) / 65536 + IZR E / 65536.
(** it moves the argument of exp, whose own error is quadratic in it, and there are the roundings of exp *)
Definition power_error (E : Z) (p X : R) : R := 5 / 4 * Rpower X p * (exponent_error E p X + (Rabs (p * ln X) + 1 / 5) * (Rabs (p * ln X) + 1 / 5) / 256 + 79 / 10000 * IZR E) + 14 / 100000 * IZR E.
Definition power_range (E : Z) (p X : R) : Prop := log_range E X /\ exponent_error E p X <= 1 / 5 /\ Rabs (p * ln X) <= 20.

(** *** Proofs *)
Lemma whole_spec q : whole q = true <-> exists k, (q == inject_Z k)%Q.
Proof.
  unfold whole. rewrite Z.eqb_eq. split.
  - intros H. exists (Qnum q / Zpos (Qden q))%Z. unfold Qeq, inject_Z. cbn [Qnum Qden]. rewrite Z.mul_1_r. rewrite (Z.div_mod (Qnum q) (Zpos (Qden q)) ltac:(lia)) at 1. rewrite H. lia.
  - intros [k H]. unfold Qeq, inject_Z in H. cbn [Qnum Qden] in H. rewrite Z.mul_1_r in H. rewrite H. apply Z.mod_mul. lia.
Qed.
Lemma power_entry E p X m z : 0 < X -> 0 <= IZR E -> Rabs (m - p * ln X) <= exponent_error E p X -> exponent_error E p X <= 1 / 5 -> Rabs (z - exp m) <= exp m * (m * m / 256 + 79 / 10000 * IZR E) + 14 / 100000 * IZR E -> Rabs (z - Rpower X p) <= power_error E p X.
Proof.
  intros X0 E0 Bm D1 Bz. set (d := exponent_error E p X) in *. destruct (exp_close _ d Bm D1) as [C1 C2]. set (a := p * ln X) in *. set (P := Rpower X p) in *.
  assert (S : exp m = P * exp (m - a)) by (unfold P, Rpower; fold a; rewrite <- exp_plus; f_equal; ring). assert (P0 : 0 < P) by apply exp_pos.
  assert (La : Rabs m <= Rabs a + 1 / 5). { replace m with (a + (m - a)) by ring. eapply Rle_trans; [apply Rabs_triang|]. lra. }
  assert (L2 : m * m <= (Rabs a + 1 / 5) * (Rabs a + 1 / 5)). { replace (m * m) with (Rabs m * Rabs m) by (rewrite <- Rabs_mult; apply Rabs_right; nra). pose proof (Rabs_pos m). apply Rmult_le_compat; lra. }
  assert (L0 : 0 <= m * m) by nra. set (q := m * m / 256 + 79 / 10000 * IZR E) in *. assert (Q0 : 0 <= q) by (unfold q; lra). set (q' := (Rabs a + 1 / 5) * (Rabs a + 1 / 5) / 256 + 79 / 10000 * IZR E). assert (Qq : q <= q') by (unfold q, q'; lra).
  assert (A1 : Rabs (exp m - P) <= P * (5 / 4 * d)). { replace (exp m - P) with (P * (exp (m - a) - 1)) by (rewrite S; ring). rewrite Rabs_mult, (Rabs_right P) by lra. apply Rmult_le_compat_l; lra. }
  assert (A2 : exp m * q <= P * (5 / 4) * q'). { rewrite S. pose proof (exp_pos (m - a)). apply Rmult_le_compat; [apply Rmult_le_pos; lra|exact Q0|apply Rmult_le_compat_l; lra|exact Qq]. }
  replace (z - P) with ((z - exp m) + (exp m - P)) by ring. eapply Rle_trans; [apply Rabs_triang|]. unfold power_error. fold d a P. replace (5 / 4 * P * (d + (Rabs a + 1 / 5) * (Rabs a + 1 / 5) / 256 + 79 / 10000 * IZR E)) with (P * (5 / 4 * d) + P * (5 / 4) * q') by (unfold q'; ring). lra.
Qed.

Section Weak.
  Context {pr : provider}.
  Variables (D : Z) (chk : check).
  Lemma exp_logv_weak c x p : weaker (exp_logv (pr := pr) chk c x p) (exp_logv no_check c x p).
  Proof. apply weaker_bind; [apply logv_weak|]. intros l. apply weaker_bind; [apply mulc_weak|]. intros m. apply expv_weak. Qed.
  Lemma pos_powv_weak c x p : weaker (pos_powv (pr := pr) D chk c x p) (pos_powv D no_check c x p).
  Proof. unfold pos_powv. destruct p as [k|q|y]; [apply powerv_weak|destruct (whole q); [apply powerv_weak|]|]; apply exp_logv_weak. Qed.
End Weak.

Section Claims.
  Variables (n : nat) (pr : provider).
  Hypothesis Hn : (0 < n)%nat.
  Hypothesis HV : valid n pr.
  Lemma exp_log_yo T me E c p x : (T = true -> n = 1%nat) -> exponent_is n c p -> fractional c -> sharing n x -> n_sc x = 65536%Z -> power_range E p (rval x) ->
    yo T (exp_logv (pr := pr) (within E) (usual me false) x c) (fun z => (sharing n z /\ n_sc z = 65536%Z) /\ Rabs (rval z - Rpower (rval x) p) <= power_error E p (rval x)).
  Proof using Hn HV.
    intros HT Hc Hf Hx Sx (HX & D1 & D2). destruct (range_E E _ HX) as [HE B]. destruct (holds_rval n 65536 x Hx Sx) as [Hv Rv]. rewrite <- Rv in *. set (v := open_a (n_sh x)) in *. set (X := real 65536 v) in *. assert (E12 : 1 <= IZR E <= 2) by (destruct HE as [-> | ->]; lra).
    unfold exp_logv. cbn [usual r_exp_iterations r_log_exp_iterations r_log_order r_log_iterations].
    eapply yo_bind; [apply (log_near n pr Hn HV T E v x HT Hv HX)|]. fold X. intros l (q & Hq & Bq). pose proof (k_C74_range X ltac:(lra)) as C.
    assert (Bl : Rabs (real 65536 q - ln X) <= log_error E X). { unfold log_error. replace (real 65536 q - ln X) with ((real 65536 q - mpc_log default false X) + (mpc_log default false X - ln X)) by ring. eapply Rle_trans; [apply Rabs_triang|]. lra. }
    destruct (log_error_small E X HX) as [D0 D5]. destruct (ln_7 X B) as [L7 _].
    assert (Lq : Rabs (real 65536 q) <= Rabs (ln X) + 1 / 5). { replace (real 65536 q) with (ln X + (real 65536 q - ln X)) by ring. eapply Rle_trans; [apply Rabs_triang|]. lra. }
    assert (P13 : Rabs p <= 13). { unfold exponent_error in D1. assert (1 / 65 <= log_error E X) by (unfold log_error, log_noise; pose proof (Rabs_pos (ln X)); nra). pose proof (Rabs_pos (ln X)). pose proof (Rabs_pos p). nra. }
    assert (M : yo T (mulc (pr := pr) (within E) l c) (fun z => exists w, holds n 65536 w z /\ Rabs (real 65536 w - p * ln X) <= exponent_error E p X)).
    { assert (G : forall k w, Rabs (real 65536 k - p) <= / 65536 -> Rabs (real 65536 w - real 65536 q * real 65536 k) <= IZR E / 65536 -> Rabs (real 65536 w - p * ln X) <= exponent_error E p X).
      { intros k w Bk Bw. unfold exponent_error. replace (real 65536 w - p * ln X) with ((real 65536 w - real 65536 q * real 65536 k) + (real 65536 q * (real 65536 k - p) + p * (real 65536 q - ln X))) by ring. eapply Rle_trans; [apply Rabs_triang|].
        assert (Rabs (real 65536 q * (real 65536 k - p) + p * (real 65536 q - ln X)) <= (Rabs (ln X) + 1 / 5) / 65536 + Rabs p * log_error E X); [|lra]. eapply Rle_trans; [apply Rabs_triang|]. rewrite !Rabs_mult. apply Rplus_le_compat; [unfold Rdiv; apply Rmult_le_compat; try apply Rabs_pos; assumption|apply Rmult_le_compat_l; [apply Rabs_pos|exact Bl]]. }
      assert (I : forall k, Rabs (real 65536 k - p) <= / 65536 -> in64 (q * k)).
      { intros k Bk. apply (real_product n Hn 65536 T ltac:(lia) HT q k 8 14); [lra| |change (IZR H63) with (IZR 9223372036854775808); lra]. replace (real 65536 k) with ((real 65536 k - p) + p) by ring. eapply Rle_trans; [apply Rabs_triang|]. lra. }
      destruct c as [k|r|y]; cbn [mulc exponent_is fractional] in *; [contradiction| |].
      - rewrite (proj2 (proj1 Hq)). pose proof (float_any 65536 ltac:(lia) r) as Fr. rewrite <- Hc in Fr. eapply yo_weaken; [apply (mulp_real n Hn pr HV 65536 E T ltac:(lia) ltac:(lia) HT q _ l Hq), I, Fr|]. intros z (w & Hw & Bw). exists w. split; [exact Hw|]. exact (G _ w Fr Bw).
      - destruct Hc as (Hy & Sy & ->). destruct (holds_rval n 65536 y Hy Sy) as [Hk Rk]. set (k := open_a (n_sh y)) in *. assert (Bk : Rabs (real 65536 k - rval y) <= / 65536) by (rewrite Rk, Rminus_diag_eq, Rabs_R0 by reflexivity; lra).
        eapply yo_weaken; [apply (mul_real n Hn pr HV 65536 E T ltac:(lia) ltac:(lia) HT q k l y Hq Hk), I, Bk|]. intros z (w & Hw & Bw). exists w. split; [exact Hw|]. exact (G _ w Bk Bw). }
    eapply yo_bind; [exact M|]. intros m (w & Hw & Bw). pose proof (Rabs_def2' _ _ Bw). pose proof (Rabs_def2' _ _ D2).
    eapply yo_weaken; [apply (exp_all n pr Hn HV T E w m HE HT Hw); lra|]. intros z (u & Hu & Bu). destruct (rval_holds n Hn 65536 u z ltac:(lia) Hu) as [Sz Rz]. split; [destruct Hu as [[(L & F & _) _] _]; split; [split; [exact L|split; [exact F|lia]]|exact Sz]|]. rewrite Rz. apply (power_entry E p X (real 65536 w)); try assumption; lra.
  Qed.
  Lemma pos_pow_runs me c x chk : fractional c -> pos_powv (pr := pr) 65536 chk (usual me false) x c = exp_logv chk (usual me false) x c.
  Proof using. intros F. destruct c as [k|q|y]; cbn [pos_powv fractional] in *; [contradiction| |reflexivity]. destruct (whole q) eqn:W; [|reflexivity]. apply whole_spec in W. destruct W as [k H]. now apply F in H. Qed.

  (** C117: [pos_pow] with an exponent that is a fraction or encrypted. *)
  Lemma k_C117_pos_pow me E c p x : exponent_is n c p -> fractional c -> sharing n x -> n_sc x = 65536%Z -> power_range E p (rval x) ->
    (forall st z, fst (pos_powv (pr := pr) 65536 (within E) (usual me false) x c st) = Some z ->
      fst (pos_powv (pr := pr) 65536 no_check (usual me false) x c st) = Some z /\ n_sc z = 65536%Z /\ Rabs (rval z - Rpower (rval x) p) <= power_error E p (rval x)) /\
    (forall st, n = 1%nat -> E = 1%Z -> exists z, fst (pos_powv (pr := pr) 65536 no_check (usual me false) x c st) = Some z /\ Rabs (rval z - Rpower (rval x) p) <= power_error E p (rval x)).
  Proof using Hn HV.
    intros Hc Hf Hx Sx HX. split.
    - intros st z Hz. split; [eapply weaker_fst; [apply pos_powv_weak|exact Hz]|]. rewrite pos_pow_runs in Hz by exact Hf. destruct (yo_some _ _ _ _ _ (exp_log_yo false me E c p x ltac:(discriminate) Hc Hf Hx Sx HX) Hz) as [[_ Sz] Bz]. exact (conj Sz Bz).
    - intros st H0 HE. destruct (yo_true _ _ st (exp_log_yo true me E c p x (fun _ => H0) Hc Hf Hx Sx HX)) as (z & Ez & _ & Bz). exists z. split; [|exact Bz]. rewrite <- pos_pow_runs in Ez by exact Hf. eapply weaker_fst; [apply (pos_powv_weak 65536 (within E))|exact Ez].
  Qed.
  (** C117: with a whole number known to all, as an int or a float, [pos_pow] is [pow] (C43, C116). *)
  Lemma k_C117_whole D chk c x p k q st : (p = KInt k \/ p = KFloat q /\ q == inject_Z k)%Q -> pos_powv (pr := pr) D chk c x p st = powerv (pr := pr) D chk c x k st.
  Proof using.
    intros [->|[-> H]]; [reflexivity|]. cbn [pos_powv]. replace (whole q) with true by (symmetry; apply whole_spec; exists k; exact H). unfold Qeq, inject_Z in H. cbn [Qnum Qden] in H. rewrite Z.mul_1_r in H. rewrite H, Z.div_mul by discriminate. reflexivity.
  Qed.
End Claims.

(** C117 refuted: with one party 2 to the power 5.0 is given as 64, while an encrypted 5 gives less than 31; and the square root of 256 is given as -5.9 million. *)
Lemma k_C117_refuted : exists pr st, valid 1 pr /\
  (exists x z, sharing 1 x /\ n_sc x = 65536%Z /\ rval x = 2 /\ fst (pos_powv (pr := pr) 65536 no_check (usual ByNewton false) x (KFloat 5) st) = Some z /\ rval z = 64) /\
  (exists x y z, sharing 1 x /\ n_sc x = 65536%Z /\ rval x = 2 /\ exponent_is 1 (KEnc y) 5 /\ fst (pos_powv (pr := pr) 65536 no_check (usual ByNewton false) x (KEnc y) st) = Some z /\ 30 < rval z < 31) /\
  (exists x z, sharing 1 x /\ n_sc x = 65536%Z /\ rval x = 256 /\ fst (pos_powv (pr := pr) 65536 no_check (usual ByNewton false) x (KFloat (1 # 2)) st) = Some z /\ rval z < - 5900000).
Proof.
  exists alone, tt. split; [exact alone_valid|]. destruct (number_ok 2 ltac:(lia)) as (A & B & C). destruct (number_ok 5 ltac:(lia)) as (A5 & B5 & C5). destruct (number_ok 256 ltac:(lia)) as (A6 & B6 & C6). split; [|split].
  - destruct (run_gives 2 (pos_powv (pr := alone) 65536 no_check (usual ByNewton false) (number 2) (KFloat 5)) 4194304 ltac:(vm_compute; reflexivity) ltac:(lia)) as (z & Z1 & Z2). exists (number 2), z. rewrite Z2. repeat (split; [assumption|]). lra.
  - destruct (run_gives 2 (pos_powv (pr := alone) 65536 no_check (usual ByNewton false) (number 2) (KEnc (number 5))) 2025918 ltac:(vm_compute; reflexivity) ltac:(lia)) as (z & Z1 & Z2). exists (number 2), (number 5), z. rewrite Z2. repeat (split; [assumption|]). split; [exact (conj A5 (conj B5 (eq_sym C5)))|]. split; [exact Z1|lra].
  - destruct (run_gives 256 (pos_powv (pr := alone) 65536 no_check (usual ByNewton false) (number 256) (KFloat (1 # 2))) (-390963732002) ltac:(vm_compute; reflexivity) ltac:(lia)) as (z & Z1 & Z2). exists (number 256), z. rewrite Z2. repeat (split; [assumption|]). lra.
Qed.

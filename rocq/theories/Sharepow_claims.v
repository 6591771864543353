(** Proofs of C116: negative integer powers on shares. *)
Require Import ZArith QArith Qabs Qreals List Bool Lia Reals Lra Psatz.
From Verif Require Import Rtensor_proofs Realgrad_claims Approx Approx_claims Approxfn_claims Enclose Approxlog_claims Approxsoft_claims.
From Verif Require Import Ring64 Encoder Arith Arith_proofs Beaver Trunc Provider Binary Binary_proofs Convert_proofs Compare Compare_proofs Compare_claims Maximum Maximum_proofs Maximum_claims Regular Regular_proofs Regular_num_proofs Regular_claims Shareapprox Shareapprox_proofs Shareapprox_claims Sharesoft Sharesoft_claims Shareroot_claims Sharepoly_claims Sharelog Sharelog_claims Sharerecip Sharerecip_claims Sharepow.
Import ListNotations.
Open Scope R_scope.

(** *** Specification *)
(** the relative error of a q-th power whose base has relative error [e] *)
Definition compound (e : R) (q : nat) : R := (1 + e) ^ q - 1.
(** the reciprocal of a number of size [X] stays below one, with room for the roundings of the power *)
Definition below_one (me : rmethod) (E : Z) (X : R) : Prop := 1 + recip_error me E X <= X * (1 - 2 * IZR E / 65536).

(** *** Proofs *)
Lemma compound_near t e q : 0 <= e -> Rabs (1 - t) <= e -> Rabs (1 - t ^ q) <= compound e q.
Proof.
  intros He B. unfold compound. assert (Bt : Rabs t <= 1 + e). { replace t with (1 + - (1 - t)) by ring. eapply Rle_trans; [apply Rabs_triang|]. rewrite Rabs_R1, Rabs_Ropp. lra. }
  induction q as [|q IH]; [cbn [pow]; rewrite Rminus_diag_eq by reflexivity; rewrite Rabs_R0; lra|]. cbn [pow]. replace (1 - t * t ^ q) with ((1 - t) + t * (1 - t ^ q)) by ring. eapply Rle_trans; [apply Rabs_triang|]. rewrite Rabs_mult.
  assert (P : 1 <= (1 + e) ^ q) by (apply pow_R1_Rle; lra). assert (Rabs t * Rabs (1 - t ^ q) <= (1 + e) * ((1 + e) ^ q - 1)) by (apply Rmult_le_compat; try apply Rabs_pos; assumption). lra.
Qed.
Lemma inverse_power x y e q : x <> 0 -> 0 <= e -> Rabs (1 - x * y) <= e -> Rabs (y ^ q - / x ^ q) <= compound e q / Rabs x ^ q.
Proof.
  intros Hx He B. pose proof (compound_near _ _ q He B) as N. rewrite Rpow_mult_distr in N. assert (P : x ^ q <> 0) by now apply pow_nonzero. assert (A : 0 < Rabs x ^ q) by (apply pow_lt, Rabs_pos_lt, Hx).
  replace (y ^ q - / x ^ q) with (- ((1 - x ^ q * y ^ q) * / x ^ q)) by (field; exact P). rewrite Rabs_Ropp, Rabs_mult, Rabs_inv, <- RPow_abs. unfold Rdiv. apply Rmult_le_compat_r; [left; now apply Rinv_0_lt_compat|exact N].
Qed.

Lemma ratio_Q2R a b : b <> 0%Z -> Q2R (inject_Z a / inject_Z b) = IZR a / IZR b.
Proof. intros H. assert (J : forall k, Q2R (inject_Z k) = IZR k) by (intros k; unfold Q2R, inject_Z; cbn [Qnum Qden]; field). rewrite Q2R_div, !J; [reflexivity|]. intros Z0. apply H. unfold Qeq in Z0. cbn in Z0. lia. Qed.
Lemma Rabs_Q2R a : Q2R (Qabs a) = Rabs (Q2R a).
Proof.
  destruct (Qlt_le_dec a 0) as [L|L].
  - rewrite (Qeq_eqR _ _ (Qabs_neg a (Qlt_le_weak _ _ L))), Q2R_opp. apply Qlt_Rlt in L. replace (Q2R 0) with 0 in L by (unfold Q2R; cbn; field). rewrite Rabs_left by lra. reflexivity.
  - rewrite (Qeq_eqR _ _ (Qabs_pos a L)). apply Qle_Rle in L. replace (Q2R 0) with 0 in L by (unfold Q2R; cbn; field). rewrite Rabs_right by lra. reflexivity.
Qed.

Section Weak.
  Context {pr : provider}.
  Variables (D : Z) (chk : check).
  Lemma powerv_weak c x p : weaker (powerv (pr := pr) D chk c x p) (powerv D no_check c x p).
  Proof. unfold powerv. destruct (p <? -1)%Z; [apply weaker_bind; [apply recipv_weak|intros y; apply powv_weak]|]. destruct (p =? -1)%Z; [apply recipv_weak|apply powv_weak]. Qed.
End Weak.

Section Claims.
  Variables (n : nat) (pr : provider).
  Hypothesis Hn : (0 < n)%nat.
  Hypothesis HV : valid n pr.
  Lemma range_E1 me E X : recip_range me E X -> (E = 1 \/ E = 2)%Z.
  Proof using. destruct me; cbn [recip_range]; [intros [H _]; exact H|intros [[-> _]|[-> _]]; auto|contradiction]. Qed.
  (** the reciprocal is a sharing too *)
  Lemma recip_holds T me E x : (T = true -> n = 1%nat) -> sharing n x -> n_sc x = 65536%Z -> recip_range me E (Rabs (rval x)) ->
    yo T (recipv (pr := pr) 65536 (within E) (usual me false) false x) (fun z => exists u, holds n 65536 u z /\ Rabs (1 - rval x * real 65536 u) <= recip_error me E (Rabs (rval x))).
  Proof using Hn HV.
    intros HT Hx Sx HX. destruct (range_pos _ _ _ HX) as [B Be]. destruct (holds_rval n 65536 x Hx Sx) as [[Hv Iv] Rv]. set (v := open_a (n_sh x)) in *. set (X := Rabs (rval x)) in *. pose proof (range_E1 _ _ _ HX) as HE.
    assert (W : real 65536 (Z.abs v) = X) by (unfold X; rewrite <- Rv; apply (real_abs 65536 ltac:(lia))). assert (IW : in64 (Z.abs v)) by (apply (bound64 n 65536 Hn ltac:(lia) _ X); [rewrite W, Rabs_right; lra|lra]).
    unfold recipv, recip_signedv. cbn [usual r_all_pos]. eapply yo_lift; [apply (n_sign_ok n Hn pr HV 65536 v 65536 x (ratio_D n Hn 65536 ltac:(lia)) Iv Hv)|]. intros sgn Hs.
    eapply yo_bind; [apply (mulv_l1 n Hn pr HV 65536 E T (sg v) v); [exact Hs|exact Hv]|]. rewrite sg_abs. intros p Hp.
    eapply yo_bind; [apply (recip_positive n pr Hn HV T me false E (Z.abs v) p HT (conj Hp IW)); rewrite W; exact HX|]. rewrite W. intros r (u & [Hu Iu] & Bu).
    eapply yo_weaken; [apply (mulv_l1 n Hn pr HV 65536 E T (sg v) u); [exact Hs|exact Hu]|]. intros z Hz.
    assert (Ru : real 65536 (sg v * u) = IZR (sg v) * real 65536 u) by (unfold real; rewrite mult_IZR; field). assert (Sg : sg v = 1%Z \/ sg v = (-1)%Z) by (unfold sg; destruct (v <? 0)%Z; auto).
    exists (sg v * u)%Z. split.
    - apply (holds_bound n Hn 65536 T ltac:(lia) HT _ _ 2000); [exact Hz| |change (IZR H63) with (IZR 9223372036854775808); lra]. rewrite Ru, Rabs_mult. pose proof (near_1000 X (real 65536 u) ltac:(lra) ltac:(lra)). destruct Sg as [-> | ->]; [rewrite Rabs_R1|rewrite Rabs_left by lra]; lra.
    - rewrite <- Rv. replace (real 65536 v * real 65536 (sg v * u)) with (X * real 65536 u); [exact Bu|]. rewrite <- W, <- sg_abs. unfold real. rewrite !mult_IZR. destruct Sg as [-> | ->]; field.
  Qed.
  (** a power of a number below one *)
  Lemma pow_real T E p u y : (E = 1 \/ E = 2)%Z -> (T = true -> n = 1%nat) -> (1 <= p)%Z -> holds n 65536 u y -> Rabs (real 65536 u) <= 1 - 2 * IZR E / 65536 ->
    let q := pow_exp (Z.to_nat (p + 1)) p in yo T (pow_num (pr := pr) 65536 (within E) y p) (fun z => (sharing n z /\ n_sc z = 65536%Z) /\ Rabs (rval z - real 65536 u ^ Z.to_nat q) <= IZR (q - 1) * IZR E / 65536).
  Proof using Hn HV.
    intros HE HT Hp [Hu Iu] Bu q. assert (HE' : (1 <= E)%Z) by lia. assert (HE4 : (4 * E <= 65536)%Z) by lia. assert (H31 : (65536 <= 2 ^ 31)%Z) by lia. assert (Hf : (1 <= p < Z.of_nat (Z.to_nat (p + 1)))%Z) by lia.
    destruct (pow_exp_spec _ p Hf) as [Q1 _]. fold q in Q1.
    assert (Ba : (Z.abs u <= 65536 - 2 * E)%Z). { apply le_IZR. rewrite abs_IZR, minus_IZR, mult_IZR. unfold real in Bu. unfold Rdiv in Bu at 1. rewrite Rabs_mult, (Rabs_right (/ 65536)) in Bu by lra. lra. }
    eapply yo_weaken; [apply (powv_approx n Hn pr HV 65536 65536 E T HE' HE4 H31 HT _ p 1 u y Hf); exact (approx_1 n Hn 65536 E T HE' HT _ y Hu Ba)|].
    fold q. intros z Hz. assert (Sz : n_sc z = 65536%Z) by (destruct Hz as (_ & a & Ha & _); exact (proj2 Ha)). split; [split; [destruct Hz as (_ & a & [(L & F & _) _] & _); split; [exact L|split; [exact F|lia]]|exact Sz]|].
    pose proof (approx_qval n 65536 E _ _ z Hn HE' HE4 H31 Hz) as A. rewrite Z.mul_1_r in A. apply Qle_Rle in A. rewrite Rabs_Q2R, Q2R_minus in A. unfold qval, ulps in A. rewrite Sz, !ratio_Q2R in A by (try apply Z.pow_nonzero; lia).
    unfold rval. rewrite Sz. unfold real. replace ((IZR u / 65536) ^ Z.to_nat q) with (IZR (u ^ q) / IZR (65536 ^ q)); [rewrite mult_IZR in A; exact A|].
    unfold Rdiv. rewrite Rpow_mult_distr, pow_inv, !pow_IZR, Z2Nat.id by lia. reflexivity.
  Qed.
  Lemma power_yo T me E p x : (T = true -> n = 1%nat) -> (1 < p)%Z -> sharing n x -> n_sc x = 65536%Z -> recip_range me E (Rabs (rval x)) -> below_one me E (Rabs (rval x)) ->
    let q := pow_exp (Z.to_nat (p + 1)) p in yo T (powerv (pr := pr) 65536 (within E) (usual me false) x (- p)) (fun z => n_sc z = 65536%Z /\ Rabs (rval z - / rval x ^ Z.to_nat q) <= compound (recip_error me E (Rabs (rval x))) (Z.to_nat q) / Rabs (rval x) ^ Z.to_nat q + IZR (q - 1) * IZR E / 65536).
  Proof using Hn HV.
    intros HT Hp Hx Sx HX H1 q. pose proof (range_E1 _ _ _ HX) as HE. destruct (range_pos _ _ _ HX) as [B Be]. unfold powerv. replace (- p <? -1)%Z with true by (symmetry; apply Z.ltb_lt; lia). rewrite Z.opp_involutive.
    eapply yo_bind; [apply (recip_holds T me E x HT Hx Sx HX)|]. intros y (u & Hu & Bu). set (e := recip_error me E (Rabs (rval x))) in *. unfold below_one in H1. fold e in H1. set (X := Rabs (rval x)) in *.
    assert (U : Rabs (real 65536 u) <= 1 - 2 * IZR E / 65536).
    { assert (C : X * Rabs (real 65536 u) <= 1 + e). { unfold X. rewrite <- Rabs_mult. replace (rval x * real 65536 u) with (1 + - (1 - rval x * real 65536 u)) by ring. eapply Rle_trans; [apply Rabs_triang|]. rewrite Rabs_R1, Rabs_Ropp. lra. }
      apply (Rmult_le_reg_l X); lra. }
    eapply yo_weaken; [apply (pow_real T E p u y HE HT ltac:(lia) Hu U)|]. fold q. intros z [[_ Sz] Bz]. split; [exact Sz|].
    assert (X0 : rval x <> 0). { intros Z0. unfold X in B. rewrite Z0, Rabs_R0 in B. lra. }
    pose proof (inverse_power (rval x) (real 65536 u) e (Z.to_nat q) X0 ltac:(lra) Bu) as I. fold X in I.
    replace (rval z - / rval x ^ Z.to_nat q) with ((real 65536 u ^ Z.to_nat q - / rval x ^ Z.to_nat q) + (rval z - real 65536 u ^ Z.to_nat q)) by ring. eapply Rle_trans; [apply Rabs_triang|]. lra.
  Qed.
  Lemma inverse_square_yo T me E x : (T = true -> n = 1%nat) -> sharing n x -> n_sc x = 65536%Z -> recip_range me E (Rabs (rval x)) ->
    yo T (powerv (pr := pr) 65536 (within E) (usual me false) x (-2)) (fun z => n_sc z = 65536%Z /\ Rabs (1 - rval x ^ 2 * rval z) <= compound (recip_error me E (Rabs (rval x))) 2 + rval x ^ 2 * (IZR E / 65536)).
  Proof using Hn HV.
    intros HT Hx Sx HX. pose proof (range_E1 _ _ _ HX) as HE. destruct (range_pos _ _ _ HX) as [B Be]. unfold powerv. change (-2 <? -1)%Z with true. cbv iota. change (- (-2))%Z with 2%Z.
    eapply yo_bind; [apply (recip_holds T me E x HT Hx Sx HX)|]. intros y (u & Hu & Bu). set (e := recip_error me E (Rabs (rval x))) in *.
    assert (U : Rabs (real 65536 u) <= 2000). { rewrite <- Rabs_Rabsolu. apply (near_1000 (Rabs (rval x)) (Rabs (real 65536 u))); [lra|]. rewrite <- Rabs_mult. apply Rabs_le. pose proof (Rabs_pos (rval x * real 65536 u)). assert (Rabs (rval x * real 65536 u) <= 1 + e); [|lra]. replace (rval x * real 65536 u) with (1 + - (1 - rval x * real 65536 u)) by ring. eapply Rle_trans; [apply Rabs_triang|]. rewrite Rabs_R1, Rabs_Ropp. lra. }
    unfold pow_num. change (Z.to_nat (2 + 1)) with 3%nat. cbn [powv]. change (2 =? 0)%Z with false. change (2 =? 1)%Z with false. change (2 =? 2)%Z with true. cbv iota.
    eapply yo_weaken; [apply (square_real n Hn pr HV 65536 E T ltac:(lia) ltac:(lia) HT u y Hu); eapply (real_product n Hn 65536 T ltac:(lia) HT); [exact U|exact U|change (IZR H63) with (IZR 9223372036854775808); lra]|].
    intros z (w & Hw & Bw). destruct (rval_holds n Hn 65536 w z ltac:(lia) Hw) as [Sz Rz]. split; [exact Sz|]. rewrite Rz.
    pose proof (compound_near _ e 2 ltac:(lra) Bu) as N. unfold eta in Bw. set (r := real 65536 u) in *. set (X := rval x) in *. set (t := real 65536 w) in *.
    replace (1 - X ^ 2 * t) with ((1 - (X * r) ^ 2) + - (X ^ 2 * (t - r * r))) by ring. eapply Rle_trans; [apply Rabs_triang|]. apply Rplus_le_compat; [exact N|]. rewrite Rabs_Ropp, Rabs_mult. assert (P : 0 <= X ^ 2) by (cbn [pow]; nra). rewrite (Rabs_right (X ^ 2)) by lra. apply Rmult_le_compat_l; assumption.
  Qed.

  (** C116: [pow(-p)] for p > 1 is the inverse of a q-th power, with q = p exactly when p is 2^k or 3*2^k, and q > p otherwise. *)
  Lemma k_C116_negative p : (1 < p)%Z -> exists q, (p <= q)%Z /\ (q = p <-> exists k, 0 <= k /\ (p = 2 ^ k \/ p = 3 * 2 ^ k))%Z /\
    forall me E x, sharing n x -> n_sc x = 65536%Z -> let X := Rabs (rval x) in let err := compound (recip_error me E X) (Z.to_nat q) / X ^ Z.to_nat q + IZR (q - 1) * IZR E / 65536 in recip_range me E X -> below_one me E X ->
      (forall st z, fst (powerv (pr := pr) 65536 (within E) (usual me false) x (- p) st) = Some z ->
        fst (powerv (pr := pr) 65536 no_check (usual me false) x (- p) st) = Some z /\ n_sc z = 65536%Z /\ Rabs (rval z - / rval x ^ Z.to_nat q) <= err) /\
      (forall st, n = 1%nat -> E = 1%Z -> exists z, fst (powerv (pr := pr) 65536 no_check (usual me false) x (- p) st) = Some z /\ Rabs (rval z - / rval x ^ Z.to_nat q) <= err).
  Proof using Hn HV.
    intros Hp. assert (Hf : (1 <= p < Z.of_nat (Z.to_nat (p + 1)))%Z) by lia. destruct (pow_exp_spec _ p Hf) as [Q1 Q2]. exists (pow_exp (Z.to_nat (p + 1)) p). split; [exact Q1|]. split; [exact Q2|]. intros me E x Hx Sx X err HX H1. split.
    - intros st z Hz. split; [eapply weaker_fst; [apply powerv_weak|exact Hz]|]. exact (yo_some _ _ _ _ _ (power_yo false me E p x ltac:(discriminate) Hp Hx Sx HX H1) Hz).
    - intros st H0 HE. destruct (yo_true _ _ st (power_yo true me E p x (fun _ => H0) Hp Hx Sx HX H1)) as (z & Ez & _ & Bz). exists z. split; [|exact Bz]. eapply weaker_fst; [apply (powerv_weak 65536 (within E))|exact Ez].
  Qed.
  (** C116: [pow(-2)] over the whole range of the reciprocal. *)
  Lemma k_C116_inverse_square me E x : sharing n x -> n_sc x = 65536%Z -> let X := Rabs (rval x) in let err := compound (recip_error me E X) 2 + X ^ 2 * (IZR E / 65536) in recip_range me E X ->
    (forall st z, fst (powerv (pr := pr) 65536 (within E) (usual me false) x (-2) st) = Some z ->
      fst (powerv (pr := pr) 65536 no_check (usual me false) x (-2) st) = Some z /\ n_sc z = 65536%Z /\ Rabs (1 - rval x ^ 2 * rval z) <= err) /\
    (forall st, n = 1%nat -> E = 1%Z -> exists z, fst (powerv (pr := pr) 65536 no_check (usual me false) x (-2) st) = Some z /\ Rabs (1 - rval x ^ 2 * rval z) <= err).
  Proof using Hn HV.
    intros Hx Sx X err HX. assert (S2 : X ^ 2 = rval x ^ 2) by (unfold X; apply pow2_abs). unfold err. rewrite S2. split.
    - intros st z Hz. split; [eapply weaker_fst; [apply powerv_weak|exact Hz]|]. exact (yo_some _ _ _ _ _ (inverse_square_yo false me E x ltac:(discriminate) Hx Sx HX) Hz).
    - intros st H0 HE. destruct (yo_true _ _ st (inverse_square_yo true me E x (fun _ => H0) Hx Sx HX)) as (z & Ez & _ & Bz). exists z. split; [|exact Bz]. eapply weaker_fst; [apply (powerv_weak 65536 (within E))|exact Ez].
  Qed.
  (** C116: [pow(-1)] is as accurate as the reciprocal (C107). *)
  Lemma k_C116_inverse me E x st z : sharing n x -> n_sc x = 65536%Z -> let X := Rabs (rval x) in recip_range me E X -> fst (powerv (pr := pr) 65536 (within E) (usual me false) x (-1) st) = Some z ->
    n_sc z = 65536%Z /\ Rabs (1 - rval x * rval z) <= recip_error me E X.
  Proof using Hn HV. intros Hx Sx X HX Hz. exact (proj2 (k_C107_reciprocal n pr Hn HV me E x st z Hx Sx HX Hz)). Qed.
  (** C116: exponents from 0 need no reciprocal, so the method and the range do not matter. *)
  Lemma k_C116_other D : (0 < D < H63)%Z -> (forall c x st, exists z, fst (powerv (pr := pr) D no_check c x 0 st) = Some z /\ qval z == 1)%Q /\
    forall p, (0 < p)%Z -> exists q, (p <= q)%Z /\ (q = p <-> exists k, 0 <= k /\ (p = 2 ^ k \/ p = 3 * 2 ^ k))%Z /\
      forall c x st, sharing n x -> n_sc x = 1%Z -> exists z, fst (powerv (pr := pr) D no_check c x p st) = Some z /\ open_a (n_sh z) = wrap (open_a (n_sh x) ^ q) /\ n_sc z = 1%Z.
  Proof using Hn HV.
    intros HD. assert (A : forall c x p, (0 <= p)%Z -> powerv (pr := pr) D no_check c x p = pow_num D no_check x p). { intros c x p Hp. unfold powerv. replace (p <? -1)%Z with false by (symmetry; apply Z.ltb_ge; lia). replace (p =? -1)%Z with false by (symmetry; apply Z.eqb_neq; lia). reflexivity. }
    split; [intros c x st; rewrite A by lia; apply (k_C43_pow_zero n pr D Hn HV HD)|]. intros p Hp. destruct (k_C43_pow n pr D Hn HV HD p Hp) as (q & Q1 & Q2 & Q3 & _). exists q. split; [exact Q1|]. split; [exact Q2|]. intros c x st Hx Sx. rewrite A by lia. apply Q3; assumption.
  Qed.
End Claims.

(** C116 refuted: with one party the inverse of 2^5 comes out as 1024/65536, that of 2^6, not as 2048/65536. *)
Lemma k_C116_refuted : exists pr st x z, valid 1 pr /\ sharing 1 x /\ n_sc x = 65536%Z /\ rval x = 2 /\ fst (powerv (pr := pr) 65536 no_check (usual ByNewton false) x (-5) st) = Some z /\ Rabs (rval z - / 2 ^ 5) >= 1 / 65.
Proof.
  destruct (number_ok 2 ltac:(lia)) as (A & B & C). destruct (run_gives 2 (powerv (pr := alone) 65536 no_check (usual ByNewton false) (number 2) (-5)) 1024 ltac:(vm_compute; reflexivity) ltac:(lia)) as (z & Z1 & Z2).
  exists alone, tt, (number 2), z. split; [exact alone_valid|]. split; [exact A|]. split; [exact B|]. split; [exact C|]. split; [exact Z1|]. rewrite Z2. rewrite Rabs_left by lra. lra.
Qed.

(** Proofs of C118: norms with other exponents on shares. *)
Require Import ZArith QArith Qabs Qreals List Bool Lia Reals Lra Psatz.
Require Lqa.
From Verif Require Import Rtensor_proofs Realgrad_claims Approx Approx_claims Approxfn_claims Enclose Approxlog_claims Approxsoft_claims.
From Verif Require Import Ring64 Encoder Arith Arith_proofs Beaver Trunc Provider Binary Binary_proofs Convert_proofs Compare Compare_proofs Compare_claims Maximum Maximum_proofs Maximum_claims Regular Regular_proofs Regular_num_proofs Regular_claims Shareapprox Shareapprox_proofs Shareapprox_claims Sharesoft Sharesoft_claims Shareroot_claims Sharepoly_claims Sharelog Sharelog_claims Sharerecip Sharerecip_claims Sharecheb_claims Sharenorm_claims Shareloss_claims Sharepow Sharepow_claims Sharepospow Sharepospow_claims Sharepnorm.
Import ListNotations.
Open Scope R_scope.

(** *** Specification *)
(** z is the (1/p)-th power of a number near S *)
Definition root_near (E : Z) (p S e : R) (z : num) : Prop := exists s, Rabs (s - S) <= e /\ Rabs (rval z - Rpower s (/ p)) <= power_error E (/ p) s.
(** the sum of f over the absolute values *)
Definition sum_over (f : R -> R) (xs : list num) : R := sumr (map (fun x => f (Rabs (rval x))) xs).

(** *** Proofs *)
Lemma inverse_fractional r : (1 < r)%Q -> fractional (KFloat (/ r)).
Proof.
  intros H k K. assert (A : (0 < / r)%Q) by (apply Qinv_lt_0_compat; Lqa.lra). assert (B : (r * / r == 1)%Q) by (apply Qmult_inv_r; Lqa.lra). rewrite K in A, B. assert (C : (0 < k)%Z) by (unfold Qlt, inject_Z in A; cbn in A; lia). assert (D : (1 <= inject_Z k)%Q) by (unfold Qle, inject_Z; cbn; lia). Lqa.nra.
Qed.
Lemma sums_near {A} (f h : A -> R) xs zs : Forall2 (fun x z => Rabs (rval z - f x) <= h x) xs zs -> Rabs (sumr (map rval zs) - sumr (map f xs)) <= sumr (map h xs).
Proof.
  induction 1 as [|x z xs zs H _ IH]; [cbn; rewrite Rminus_diag_eq, Rabs_R0 by reflexivity; lra|]. cbn [map]. rewrite !sumr_cons. replace (rval z + sumr (map rval zs) - (f x + sumr (map f xs))) with ((rval z - f x) + (sumr (map rval zs) - sumr (map f xs))) by ring. eapply Rle_trans; [apply Rabs_triang|]. lra.
Qed.
Section Weak.
  Context {pr : provider}.
  Variables (D : Z) (chk : check).
  Lemma normpv_weak c p xs : weaker (normpv (pr := pr) D chk c p xs) (normpv D no_check c p xs).
  Proof.
    unfold normpv. destruct (public_number p) as [r|]; [|apply weaker_refl]. destruct (negb (Qle_bool 1 r)); [apply weaker_refl|]. apply weaker_bind; [apply weaker_refl|]. intros a. apply weaker_bind; [apply weaker_map; intros x; apply pos_powv_weak|]. intros q. apply pos_powv_weak.
  Qed.
End Weak.

Section Claims.
  Variables (n : nat) (pr : provider).
  Hypothesis Hn : (0 < n)%nat.
  Hypothesis HV : valid n pr.
  Lemma norm_yo T me E c r f h xs : (T = true -> n = 1%nat) -> public_number c = Some r -> (1 < r)%Q -> vector n 65536 xs -> (forall x, In x xs -> Rabs (rval x) <= 127) ->
    (forall x z, In x xs -> num1 n z -> rval z = Rabs (rval x) -> yo T (pos_powv (pr := pr) 65536 (within E) (usual me false) z c) (fun w => num1 n w /\ Rabs (rval w - f (Rabs (rval x))) <= h (Rabs (rval x)))) ->
    (forall s, Rabs (s - sum_over f xs) <= sum_over h xs -> power_range E (/ Q2R r) s) ->
    yo T (normpv (pr := pr) 65536 (within E) (usual me false) c xs) (fun z => n_sc z = 65536%Z /\ root_near E (Q2R r) (sum_over f xs) (sum_over h xs) z).
  Proof using Hn HV.
    intros HT Hc Hr [Ne V] Hb Hp HS. unfold normpv. rewrite Hc. replace (Qle_bool 1 r) with true by (symmetry; apply Qle_bool_iff; Lqa.lra). cbn [negb].
    assert (Fx : Forall2 (fun x y => x = y /\ In x xs /\ num1 n x) xs xs). { clear - V. assert (G : forall l, incl l xs -> Forall2 (fun x y => x = y /\ In x xs /\ num1 n x) l l). { induction l as [|x l IH]; intros I; constructor; [|apply IH; intros y Hy; apply I; now right]. assert (Ix : In x xs) by (apply I; now left). split; [reflexivity|]. split; [exact Ix|]. rewrite Forall_forall in V. now apply V. } now apply G. }
    eapply yo_bind; [apply (yo_map T _ _ (fun x z => In x xs /\ num1 n z /\ rval z = Rabs (rval x)) xs xs Fx)|].
    { intros x y (<- & Ix & Nx). destruct (opened n Hn x Nx) as [[Hx Iv] Ox]. set (v := open_a (n_sh x)) in *.
      eapply yo_weaken; [apply yo_lifted, (n_abs_ok n Hn pr HV 65536 v 65536 x ltac:(lia) (ratio_D n Hn 65536 ltac:(lia)) Iv Hx)|]. intros z Hz. split; [exact Ix|]. split; [exact (typed n Hn _ _ Hz)|].
      assert (A : real 65536 (Z.abs v) = Rabs (rval x)) by (rewrite (real_abs 65536 ltac:(lia)), Ox; reflexivity). rewrite <- A. apply (valued n Hn _ _ 127 Hz); [rewrite A, Rabs_Rabsolu; now apply Hb|lra]. }
    intros a Fa. eapply yo_bind; [apply (yo_map T _ _ (fun x w => num1 n w /\ Rabs (rval w - f (Rabs (rval x))) <= h (Rabs (rval x))) xs a Fa)|].
    { intros x z (Ix & Nz & Rz). now apply Hp. }
    intros q Fq. assert (Nq : Forall (num1 n) q) by (clear - Fq; induction Fq as [|x z xs zs [H _] _ IH]; constructor; assumption). assert (Bq : Rabs (sumr (map rval q) - sum_over f xs) <= sum_over h xs). { apply (sums_near (fun x => f (Rabs (rval x))) (fun x => h (Rabs (rval x)))). eapply related; [|exact Fq]. intros x z [_ H]. exact H. }
    assert (Qne : q <> []) by (destruct Fq; [congruence|discriminate]). pose proof (HS _ Bq) as HP. destruct HP as (HX & HP). assert (B127 : Rabs (sumr (map rval q)) <= 127) by (destruct (range_E E _ HX) as [_ B]; rewrite Rabs_right; lra).
    pose proof (sum_rval n Hn q 127 Qne Nq B127 ltac:(lra)) as Rs. destruct (sum_num1 n Hn q Qne Nq) as [Hs Ss]. rewrite <- Rs in *. set (s := sum_num q) in *.
    rewrite (pos_pow_runs pr me _ s (within E) (inverse_fractional r Hr)). assert (Qi : / Q2R r = Q2R (/ r)) by (rewrite Q2R_inv by Lqa.lra; reflexivity).
    eapply yo_weaken; [apply (exp_log_yo n pr Hn HV T me E (KFloat (/ r)) (/ Q2R r) s HT Qi (inverse_fractional r Hr) Hs Ss (conj HX HP))|]. intros z [[_ Sz] Bz]. split; [exact Sz|]. exists (rval s). split; assumption.
  Qed.
  Lemma fractional_yo T me E r xs : (T = true -> n = 1%nat) -> (1 < r)%Q -> fractional (KFloat r) -> vector n 65536 xs -> Forall (fun x => power_range E (Q2R r) (Rabs (rval x))) xs ->
    (forall s, Rabs (s - sum_over (fun X => Rpower X (Q2R r)) xs) <= sum_over (power_error E (Q2R r)) xs -> power_range E (/ Q2R r) s) ->
    yo T (normpv (pr := pr) 65536 (within E) (usual me false) (KFloat r) xs) (fun z => n_sc z = 65536%Z /\ root_near E (Q2R r) (sum_over (fun X => Rpower X (Q2R r)) xs) (sum_over (power_error E (Q2R r)) xs) z).
  Proof using Hn HV.
    intros HT Hr Hf V F HS. rewrite Forall_forall in F. apply (norm_yo T me E (KFloat r) r); try assumption; [reflexivity| |].
    - intros x Ix. destruct (F x Ix) as [HX _]. destruct (range_E E _ HX) as [_ B]. lra.
    - intros x z Ix [Hz Sz] Rz. rewrite pos_pow_runs by exact Hf. pose proof (F x Ix) as HX. rewrite <- Rz in *. exact (exp_log_yo n pr Hn HV T me E (KFloat r) (Q2R r) z HT eq_refl Hf Hz Sz HX).
  Qed.
  Lemma whole_yo T me E k xs : (T = true -> n = 1%nat) -> (E = 1 \/ E = 2)%Z -> (1 < k)%Z -> vector n 65536 xs -> Forall (fun x => Rabs (rval x) <= 1 - 2 * IZR E / 65536) xs ->
    let q := pow_exp (Z.to_nat (k + 1)) k in let h := fun _ : R => IZR (q - 1) * IZR E / 65536 in
    (forall s, Rabs (s - sum_over (fun X => X ^ Z.to_nat q) xs) <= sum_over h xs -> power_range E (/ IZR k) s) ->
    yo T (normpv (pr := pr) 65536 (within E) (usual me false) (KInt k) xs) (fun z => n_sc z = 65536%Z /\ root_near E (IZR k) (sum_over (fun X => X ^ Z.to_nat q) xs) (sum_over h xs) z).
  Proof using Hn HV.
    intros HT HE Hk V F q h HS. rewrite Forall_forall in F. assert (E12 : 1 <= IZR E <= 2) by (destruct HE as [-> | ->]; lra). assert (J : Q2R (inject_Z k) = IZR k) by (unfold Q2R, inject_Z; cbn [Qnum Qden]; field). rewrite <- J in *.
    apply (norm_yo T me E (KInt k) (inject_Z k)); try assumption; [reflexivity|unfold Qlt, inject_Z; cbn [Qnum Qden]; lia| |].
    - intros x Ix. pose proof (F x Ix). lra.
    - intros x z Ix [Hz Sz] Rz. pose proof (F x Ix) as B. pose proof (Rabs_pos (rval x)) as P. rewrite <- Rz in *. destruct (holds_rval n 65536 z Hz Sz) as [Hv Rv]. cbn [pos_powv]. unfold powerv. replace (k <? -1)%Z with false by (symmetry; apply Z.ltb_ge; lia). replace (k =? -1)%Z with false by (symmetry; apply Z.eqb_neq; lia).
      rewrite <- Rv in *. apply (pow_real n pr Hn HV T E k _ z HE HT ltac:(lia) Hv). rewrite Rabs_right by lra. exact B.
  Qed.

  (** C118: a norm with a fractional exponent is the root of a number near the sum of the powers. *)
  Lemma k_C118_norm me E r xs : (1 < r)%Q -> fractional (KFloat r) -> vector n 65536 xs -> Forall (fun x => power_range E (Q2R r) (Rabs (rval x))) xs ->
    let S := sum_over (fun X => Rpower X (Q2R r)) xs in let e := sum_over (power_error E (Q2R r)) xs in (forall s, Rabs (s - S) <= e -> power_range E (/ Q2R r) s) ->
    (forall st z, fst (normpv (pr := pr) 65536 (within E) (usual me false) (KFloat r) xs st) = Some z ->
      fst (normpv (pr := pr) 65536 no_check (usual me false) (KFloat r) xs st) = Some z /\ n_sc z = 65536%Z /\ root_near E (Q2R r) S e z) /\
    (forall st, n = 1%nat -> E = 1%Z -> exists z, fst (normpv (pr := pr) 65536 no_check (usual me false) (KFloat r) xs st) = Some z /\ root_near E (Q2R r) S e z).
  Proof using Hn HV.
    intros Hr Hf V F S e HS. split.
    - intros st z Hz. split; [eapply weaker_fst; [apply normpv_weak|exact Hz]|]. exact (yo_some _ _ _ _ _ (fractional_yo false me E r xs ltac:(discriminate) Hr Hf V F HS) Hz).
    - intros st H0 HE. destruct (yo_true _ _ st (fractional_yo true me E r xs (fun _ => H0) Hr Hf V F HS)) as (z & Ez & _ & Bz). exists z. split; [|exact Bz]. eapply weaker_fst; [apply (normpv_weak 65536 (within E))|exact Ez].
  Qed.
  (** C118: with an int k over 1 the sum is that of q-th powers, q as in C43, and the root the k-th. *)
  Lemma k_C118_norm_int k : (1 < k)%Z -> exists q, (k <= q)%Z /\ (q = k <-> exists j, 0 <= j /\ (k = 2 ^ j \/ k = 3 * 2 ^ j))%Z /\
    forall me E xs, (E = 1 \/ E = 2)%Z -> vector n 65536 xs -> Forall (fun x => Rabs (rval x) <= 1 - 2 * IZR E / 65536) xs ->
    let S := sum_over (fun X => X ^ Z.to_nat q) xs in let e := sum_over (fun _ => IZR (q - 1) * IZR E / 65536) xs in (forall s, Rabs (s - S) <= e -> power_range E (/ IZR k) s) ->
    (forall st z, fst (normpv (pr := pr) 65536 (within E) (usual me false) (KInt k) xs st) = Some z ->
      fst (normpv (pr := pr) 65536 no_check (usual me false) (KInt k) xs st) = Some z /\ n_sc z = 65536%Z /\ root_near E (IZR k) S e z) /\
    (forall st, n = 1%nat -> E = 1%Z -> exists z, fst (normpv (pr := pr) 65536 no_check (usual me false) (KInt k) xs st) = Some z /\ root_near E (IZR k) S e z).
  Proof using Hn HV.
    intros Hk. assert (Hf : (1 <= k < Z.of_nat (Z.to_nat (k + 1)))%Z) by lia. destruct (pow_exp_spec _ k Hf) as [Q1 Q2]. exists (pow_exp (Z.to_nat (k + 1)) k). split; [exact Q1|]. split; [exact Q2|]. intros me E xs HE V F S e HS. split.
    - intros st z Hz. split; [eapply weaker_fst; [apply normpv_weak|exact Hz]|]. exact (yo_some _ _ _ _ _ (whole_yo false me E k xs ltac:(discriminate) HE Hk V F HS) Hz).
    - intros st H0 HE1. destruct (yo_true _ _ st (whole_yo true me E k xs (fun _ => H0) HE Hk V F HS)) as (z & Ez & _ & Bz). exists z. split; [|exact Bz]. eapply weaker_fst; [apply (normpv_weak 65536 (within E))|exact Ez].
  Qed.
  (** C118: exponents below 1 are refused. *)
  Lemma k_C118_refused D chk c p r xs st : public_number p = Some r -> (r < 1)%Q -> fst (normpv (pr := pr) D chk c p xs st) = None.
  Proof using. intros Hp Hr. unfold normpv. rewrite Hp. destruct (Qle_bool 1 r) eqn:L; [apply Qle_bool_iff in L; clear - Hr L; Lqa.lra|reflexivity]. Qed.
End Claims.

(** C118 refuted: with one party the 5-norm of 2 is given as 2.27, and so more than 1/4 too large; the 3-norm of 8 as 127 million, since the log of 8^3 is out of range; and the 3-norm of 0 as more than 1/50. *)
Lemma k_C118_refuted : exists pr st, valid 1 pr /\
  (exists x z, sharing 1 x /\ n_sc x = 65536%Z /\ rval x = 2 /\ fst (normpv (pr := pr) 65536 no_check (usual ByNewton false) (KInt 5) [x] st) = Some z /\ 2 + 1 / 4 < rval z) /\
  (exists x z, sharing 1 x /\ n_sc x = 65536%Z /\ rval x = 8 /\ fst (normpv (pr := pr) 65536 no_check (usual ByNewton false) (KInt 3) [x] st) = Some z /\ 127000000 < rval z) /\
  (exists x z, sharing 1 x /\ n_sc x = 65536%Z /\ rval x = 0 /\ fst (normpv (pr := pr) 65536 no_check (usual ByNewton false) (KInt 3) [x] st) = Some z /\ 1 / 50 < rval z).
Proof.
  exists alone, tt. split; [exact alone_valid|]. split; [|split].
  - destruct (number_ok 2 ltac:(lia)) as (A & B & C). destruct (run_gives 2 (normpv (pr := alone) 65536 no_check (usual ByNewton false) (KInt 5) [number 2]) 148848 ltac:(vm_compute; reflexivity) ltac:(lia)) as (z & Z1 & Z2). exists (number 2), z. rewrite Z2. repeat (split; [assumption|]). lra.
  - destruct (number_ok 8 ltac:(lia)) as (A & B & C). destruct (run_gives 8 (normpv (pr := alone) 65536 no_check (usual ByNewton false) (KInt 3) [number 8]) 8329705367472 ltac:(vm_compute; reflexivity) ltac:(lia)) as (z & Z1 & Z2). exists (number 8), z. rewrite Z2. repeat (split; [assumption|]). lra.
  - destruct (number_ok 0 ltac:(lia)) as (A & B & C). destruct (run_gives 0 (normpv (pr := alone) 65536 no_check (usual ByNewton false) (KInt 3) [number 0]) 2472 ltac:(vm_compute; reflexivity) ltac:(lia)) as (z & Z1 & Z2). exists (number 0), z. rewrite Z2. repeat (split; [assumption|]). lra.
Qed.

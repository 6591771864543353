(** Proofs of C106: tanh and sigmoid by Chebyshev polynomials on shares. *)
Require Import ZArith QArith Qreals List Bool Lia Reals Lra Psatz Arith.
From Verif Require Import Rtensor Rtensor_proofs Realgrad Realgrad_claims Approx Approx_claims Approxfn_claims Approxcheb_claims Interp_claims.
From Verif Require Import Ring64 Encoder Arith Arith_proofs Beaver Trunc Provider Binary Binary_proofs Convert_proofs Compare Compare_proofs Compare_claims Maximum Maximum_proofs Maximum_claims Regular Regular_proofs Regular_claims Program Shareapprox Shareapprox_proofs Shareapprox_claims Sharepoly_claims Sharecheb.
Import ListNotations.
Open Scope R_scope.

(** ** The recurrence a(k+1) = y a(k) - a(k-1) *)
Fixpoint swing (y : R) (m : nat) : R := match m with O => 0 | S k => match k with O => 1 | S j => y * swing y k - swing y j end end.
Lemma swing_SS y m : swing y (S (S m)) = y * swing y (S m) - swing y m. Proof. reflexivity. Qed.
Lemma swing_energy y m : swing y (S m) * swing y (S m) - y * (swing y (S m) * swing y m) + swing y m * swing y m = 1.
Proof. induction m as [|m IH]; [cbn; ring|]. rewrite swing_SS. rewrite <- IH. ring. Qed.
Lemma swing_bound y m : -2 <= y <= 2 -> Rabs (swing y m) <= INR m.
Proof.
  intros Y. induction m as [|m IH]; [cbn; rewrite Rabs_R0; lra|]. pose proof (swing_energy y m) as En. set (b := swing y (S m)) in *. set (a := swing y m) in *.
  assert (C : Rabs (b - y / 2 * a) <= 1). { assert (Sq : (b - y / 2 * a) * (b - y / 2 * a) = 1 - (1 - y / 2 * (y / 2)) * (a * a)) by (rewrite <- En at 1; field). assert (0 <= (1 - y / 2 * (y / 2)) * (a * a)) by (apply Rmult_le_pos; nra). set (d := b - y / 2 * a) in *. apply Rabs_le. clearbody d. split; nra. }
  replace b with ((b - y / 2 * a) + y / 2 * a) by ring. eapply Rle_trans; [apply Rabs_triang|]. rewrite Rabs_mult. assert (Rabs (y / 2) <= 1) by (apply Rabs_le; lra). pose proof (Rabs_pos a). pose proof (Rabs_pos (y / 2)). rewrite S_INR. nra.
Qed.
(** how errors of at most [c] in each of [k] rounds propagate *)
Definition drift (y c : R) (k : nat) (a b : R) : Prop := forall m, Rabs (swing y (S m) * a - swing y m * b) <= c * (INR k * INR m + INR k * (INR k + 1) / 2).
Lemma drift_start y c : drift y c 0 0 0.
Proof. intros m. cbn [INR]. rewrite !Rmult_0_r, Rminus_0_r, Rabs_R0. lra. Qed.
Lemma drift_step y c k a b r : -2 <= y <= 2 -> Rabs r <= c -> drift y c k a b -> drift y c (S k) (y * a - b + r) a.
Proof.
  intros Y R H m. specialize (H (S m)). pose proof (swing_bound y (S m) Y) as W. rewrite swing_SS in H. replace (swing y (S m) * (y * a - b + r) - swing y m * a) with (((y * swing y (S m) - swing y m) * a - swing y (S m) * b) + swing y (S m) * r) by ring.
  eapply Rle_trans; [apply Rabs_triang|]. rewrite Rabs_mult. pose proof (Rabs_pos r). pose proof (Rabs_pos (swing y (S m))). assert (Rabs (swing y (S m)) * Rabs r <= INR (S m) * c) by (apply Rmult_le_compat; assumption). rewrite !S_INR in *. nra.
Qed.
Lemma drift_now y c k a b : drift y c k a b -> Rabs a <= c * (INR k * (INR k + 1) / 2).
Proof. intros H. specialize (H 0%nat). cbn [swing INR] in H. rewrite Rmult_1_l, Rmult_0_l, Rminus_0_r, Rmult_0_r, Rplus_0_l in H. exact H. Qed.

(** ** The coefficients decay *)
Lemma rsumn_abs n f g : (forall i, (i < n)%nat -> Rabs (f i) <= g i) -> Rabs (rsumn n f) <= rsumn n g.
Proof. induction n as [|n IH]; intros H; [unfold rsumn, rsum; cbn; rewrite Rabs_R0; lra|]. rewrite !rsumn_S. eapply Rle_trans; [apply Rabs_triang|]. apply Rplus_le_compat; [apply IH; intros i Hi; apply H; lia|apply H; lia]. Qed.
Lemma node_sum n d : (0 < n)%nat -> (0 < d < 2 * n)%nat -> rsumn n (fun k => cos (INR d * theta n k)) = 0.
Proof.
  intros N D. rewrite <- (sum_zero n d N ltac:(lia) ltac:(lia)). apply rsumn_ext. intros k _. f_equal. unfold theta. assert (0 < INR n) by (apply lt_0_INR; lia). rewrite plus_INR, !mult_INR. cbn [INR]. field. lra.
Qed.
Lemma orthogonal n i p : (i < p)%nat -> (2 * p < n)%nat -> rsumn n (fun k => cos (INR (2 * i + 1) * theta n k) * cos (INR (2 * p + 1) * theta n k)) = 0.
Proof.
  intros I P. rewrite (rsumn_ext n _ (fun k => 1 / 2 * (cos (INR (2 * (p - i)) * theta n k) + cos (INR (2 * (p + i + 1)) * theta n k)))).
  - rewrite rsumn_scale, rsumn_plus, !node_sum by lia. ring.
  - intros k _. replace (INR (2 * (p - i))) with (INR (2 * p + 1) - INR (2 * i + 1)) by (rewrite <- minus_INR by lia; f_equal; lia). replace (INR (2 * (p + i + 1))) with (INR (2 * p + 1) + INR (2 * i + 1)) by (rewrite <- plus_INR; f_equal; lia). rewrite Rmult_minus_distr_r, Rmult_plus_distr_r, cos_minus, cos_plus. field.
Qed.
Lemma coefficient_decay n p : (1 <= p)%nat -> (2 * p < n)%nat -> Rabs (chebyshev_coefficient tanh n (2 * p + 1)) <= 4 / 4 ^ p.
Proof.
  intros P N. assert (Np : 0 < INR n) by (apply lt_0_INR; lia). unfold chebyshev_coefficient.
  assert (Z : rsumn n (fun k => interpolant p (node n k) * cos (INR (2 * p + 1) * (INR k + 1 / 2) * PI / INR n)) = 0).
  { rewrite (rsumn_ext n _ (fun k => rsumn p (fun i => chebyshev_coefficient tanh (2 * p) (2 * i + 1) * (cos (INR (2 * i + 1) * theta n k) * cos (INR (2 * p + 1) * theta n k))))).
    - rewrite rsumn_swap. apply rsumn_zero. intros i Hi. rewrite rsumn_scale, orthogonal by assumption. ring.
    - intros k _. unfold interpolant. rewrite Rmult_comm, <- rsumn_scale. apply rsumn_ext. intros i _. replace (node n k) with (cos (theta n k)) by reflexivity. rewrite (proj1 (first_kind_cos (theta n k) (2 * i + 1))). replace (INR (2 * p + 1) * (INR k + 1 / 2) * PI / INR n) with (INR (2 * p + 1) * theta n k) by (unfold theta; field; lra). ring. }
  assert (F : rsumn n (fun k => tanh (node n k) * cos (INR (2 * p + 1) * (INR k + 1 / 2) * PI / INR n)) = rsumn n (fun k => (tanh (node n k) - interpolant p (node n k)) * cos (INR (2 * p + 1) * (INR k + 1 / 2) * PI / INR n))).
  { rewrite (rsumn_ext n (fun k => (tanh (node n k) - interpolant p (node n k)) * _) (fun k => tanh (node n k) * cos (INR (2 * p + 1) * (INR k + 1 / 2) * PI / INR n) - interpolant p (node n k) * cos (INR (2 * p + 1) * (INR k + 1 / 2) * PI / INR n))) by (intros k _; ring). rewrite rsumn_minus, Z. ring. }
  rewrite F. pose proof (pow_lt 4 p ltac:(lra)) as P4. assert (B : Rabs (rsumn n (fun k => (tanh (node n k) - interpolant p (node n k)) * cos (INR (2 * p + 1) * (INR k + 1 / 2) * PI / INR n))) <= INR n * (2 / 4 ^ p)).
  { apply rsumn_bound. intros k _. rewrite Rabs_mult. assert (Cb : Rabs (cos (INR (2 * p + 1) * (INR k + 1 / 2) * PI / INR n)) <= 1) by (apply Rabs_le; apply COS_bound). pose proof (error p (node n k) ltac:(lia)) as Er. rewrite Rabs_minus_sym in Er. assert (Fk : Rabs (first_kind (2 * p) (node n k)) <= 1) by (apply first_kind_small; unfold node; apply COS_bound).
    rewrite pow_mult in Er. replace (2 ^ 2) with 4 in Er by ring. assert (2 * Rabs (first_kind (2 * p) (node n k)) / 4 ^ p <= 2 / 4 ^ p) by (apply Rmult_le_compat_r; [left; now apply Rinv_0_lt_compat|lra]). assert (E2 : Rabs (tanh (node n k) - interpolant p (node n k)) <= 2 / 4 ^ p) by lra.
    replace (2 / 4 ^ p) with (2 / 4 ^ p * 1) by ring. apply Rmult_le_compat; try apply Rabs_pos; assumption. }
  rewrite Rabs_mult, (Rabs_right (2 / INR n)) by (apply Rle_ge; left; apply Rdiv_lt_0_compat; lra). replace (4 / 4 ^ p) with (2 / INR n * (INR n * (2 / 4 ^ p))) by (field; lra). apply Rmult_le_compat_l; [left; apply Rdiv_lt_0_compat; lra|exact B].
Qed.
Lemma weights_sum N : rsumn N (fun j => INR j * (INR j + 1) / 4 ^ j) <= 32 / 27.
Proof.
  assert (H : rsumn N (fun j => INR j * (INR j + 1) / 4 ^ j) = 32 / 27 - (4 / 3 * (INR N * INR N) + 20 / 9 * INR N + 32 / 27) / 4 ^ N).
  { induction N as [|N IH]; [unfold rsumn, rsum; cbn; lra|]. rewrite rsumn_S, IH, S_INR. cbn [pow]. pose proof (pow_lt 4 N ltac:(lra)). field. lra. }
  rewrite H. pose proof (pos_INR N). assert (0 <= (4 / 3 * (INR N * INR N) + 20 / 9 * INR N + 32 / 27) / 4 ^ N); [|lra]. apply Rmult_le_pos; [nra|left; apply Rinv_0_lt_compat, pow_lt; lra].
Qed.

(** ** The polynomials *)
Section Polynomials.
  Variable n : nat.
  Hypothesis Hn : (0 < n)%nat.
  Variable pr : provider.
  Hypothesis HV : valid n pr.
  Variables (s E : Z) (T : bool).
  Hypothesis HE : (1 <= E)%Z.
  Hypothesis Hs : (1 < s)%Z.
  Hypothesis HT : T = true -> n = 1%nat.
  Variable h : R.
  Hypothesis Hh : Rabs h <= 1.
  Variable N : nat.
  Hypothesis HN : (3 <= N)%nat.
  Local Notation real := (real s).
  Local Notation eta := (eta s E).
  Local Notation holds := (holds n s).
  Hypothesis Hf : IZR s * IZR s * 4 < IZR H63.
  Hypothesis Hr : 7 * eta * (INR N * INR N) <= 1.
  Local Notation y := (4 * (h * h) - 2).
  Local Notation P k := (first_kind (2 * k + 1) h).
  Definition good (k : nat) (z : num) : Prop := exists q, holds q z /\ Rabs (real q - P k) <= 7 * eta * (INR k * (INR k + 1) / 2).
  Lemma y_range : -2 <= y <= 2.
  Proof using Hh. apply Rabs_def2' in Hh. nra. Qed.
  Lemma kind_small k : Rabs (P k) <= 1. Proof using Hh. apply first_kind_small. apply Rabs_def2' in Hh. lra. Qed.
  Lemma eta_small : 0 < eta <= 1 / 63.
  Proof using HE Hs HN Hr. pose proof (eta_pos s E HE Hs) as Ep. split; [exact Ep|]. assert (3 <= INR N) by (apply (le_INR 3) in HN; cbn [INR] in HN; lra). assert (9 <= INR N * INR N) by nra. nra. Qed.
  Lemma s_room M : M < IZR s * 4 -> IZR s * M < IZR H63.
  Proof using Hf Hs. intros H. pose proof (s_pos s Hs). nra. Qed.
  Lemma drift_small k a b : (k < N)%nat -> drift y (7 * eta) k a b -> Rabs a <= 1 / 2.
  Proof using HE Hs HN Hr.
    intros K H. apply drift_now in H. destruct eta_small as [Ep _]. apply (le_INR (S k)) in K. rewrite S_INR in K. pose proof (pos_INR k). assert (INR k * (INR k + 1) <= INR N * INR N) by nra. assert (7 * eta * (INR k * (INR k + 1)) <= 7 * eta * (INR N * INR N)) by (apply Rmult_le_compat_l; lra). lra.
  Qed.
  Lemma kind_step k : P (S (S k)) = y * P (S k) - P k.
  Proof. clear. replace (2 * S (S k) + 1)%nat with (4 + (2 * k + 1))%nat by lia. replace (2 * S k + 1)%nat with (2 + (2 * k + 1))%nat by lia. apply first_kind_4. Qed.
  Lemma more_good yv w : holds w yv -> Rabs (real w - y) <= 4 * eta -> forall m k p1 p2 rest q1 q2, (S k + m < N)%nat -> holds q1 p1 -> holds q2 p2 -> drift y (7 * eta) (S k) (real q1 - P (S k)) (real q2 - P k) ->
    Forall2 good (seq 0 (S (S k))) (rev (p1 :: p2 :: rest)) -> yo T (cheb_morev (pr := pr) (within E) yv m (p1 :: p2 :: rest)) (fun ps => Forall2 good (seq 0 (S (S k) + m)) (rev ps)).
  Proof using Hn HV HE Hs HT Hh HN Hf Hr.
    intros Hw Bw. destruct eta_small as [Ep Es]. pose proof (s_pos s Hs) as Sp. pose proof y_range as Yr. induction m as [|m IH]; intros k p1 p2 rest q1 q2 L H1 H2 Dr F; cbn [cheb_morev].
    - apply yo_ok. rewrite Nat.add_0_r. exact F.
    - assert (B1 : Rabs (real q1) <= 3 / 2). { pose proof (drift_small (S k) _ _ ltac:(lia) Dr) as D1. pose proof (kind_small (S k)). replace (real q1) with ((real q1 - P (S k)) + P (S k)) by ring. eapply Rle_trans; [apply Rabs_triang|]. lra. }
      assert (By : Rabs (real w) <= 21 / 10). { replace (real w) with ((real w - y) + y) by ring. eapply Rle_trans; [apply Rabs_triang|]. assert (Rabs y <= 2) by (apply Rabs_le; exact Yr). lra. }
      eapply yo_bind; [apply (mul_real n Hn pr HV s E T HE Hs HT w q1 yv p1 Hw H1); eapply (real_product n Hn s T Hs HT); [exact By|exact B1|nra]|].
      intros z (r & Hz & Bz). set (e := (real w - y) * real q1 + (real r - real w * real q1)). assert (Be : Rabs e <= 7 * eta).
      { unfold e. eapply Rle_trans; [apply Rabs_triang|]. rewrite Rabs_mult. assert (Rabs (real w - y) * Rabs (real q1) <= 4 * eta * (3 / 2)) by (apply Rmult_le_compat; try apply Rabs_pos; assumption). lra. }
      assert (Rm : real (r - q2) = real r - real q2) by (unfold Shareapprox_proofs.real; rewrite minus_IZR; field; lra).
      assert (D' : drift y (7 * eta) (S (S k)) (real (r - q2) - P (S (S k))) (real q1 - P (S k))). { pose proof (drift_step y (7 * eta) (S k) _ _ e Yr Be Dr) as D'. replace (real (r - q2) - P (S (S k))) with (y * (real q1 - P (S k)) - (real q2 - P k) + e); [exact D'|]. rewrite Rm, kind_step. unfold e. ring. }
      assert (Hq : holds (r - q2) (sub_num z (AEnc p2))). { apply (holds_bound n Hn s T Hs HT _ _ (3 / 2)); [apply (sub_enc_ok n); [exact (proj1 Hz)|exact (proj1 H2)]| |]. - pose proof (drift_small (S (S k)) _ _ ltac:(lia) D') as D2. pose proof (kind_small (S (S k))). replace (real (r - q2)) with ((real (r - q2) - P (S (S k))) + P (S (S k))) by ring. eapply Rle_trans; [apply Rabs_triang|]. lra. - apply s_room. assert (1 < IZR s) by (apply IZR_lt; exact Hs). lra. }
      replace (S (S k) + S m)%nat with (S (S (S k)) + m)%nat by lia. apply (IH (S k) (sub_num z (AEnc p2)) p1 (p2 :: rest) (r - q2)%Z q1); [lia|exact Hq|exact H1|exact D'|].
      rewrite seq_S. cbn [rev]. apply Forall2_app; [exact F|]. constructor; [|constructor]. exists (r - q2)%Z. split; [exact Hq|]. exact (drift_now _ _ _ _ _ D').
  Qed.
  Lemma polys_good v x : holds v x -> real v = h -> yo T (cheb_polysv (pr := pr) (within E) (2 * N) x) (fun ps => Forall2 good (seq 0 N) ps).
  Proof using Hn HV HE Hs HT Hh HN Hf Hr.
    intros Hv Rv. destruct eta_small as [Ep Es]. pose proof (s_pos s Hs) as Sp. assert (S1 : 1 < IZR s) by (apply IZR_lt; exact Hs). pose proof y_range as Yr. unfold cheb_polysv. replace (Nat.even (2 * N)) with true by (symmetry; apply Nat.even_spec; exists N; reflexivity). replace (Nat.ltb (2 * N) 6) with false by (symmetry; apply Nat.ltb_ge; lia). cbn [negb orb].
    assert (Bv : Rabs (real v) <= 1) by (rewrite Rv; exact Hh).
    eapply yo_bind; [apply (square_real n Hn pr HV s E T HE Hs HT v x Hv); eapply (real_product n Hn s T Hs HT); [exact Bv|exact Bv|nra]|]. intros q (r & Hq & Bq). rewrite Rv in Bq. cbv zeta.
    set (yv := sub_num (muli_num 4 q) (AInt 2)). set (w := (r * 4 - 2 * s)%Z). assert (Nw : nshare n w s yv) by (apply (sub_int_ok n Hn), (muli_num_ok n), (proj1 Hq)).
    assert (Rw : real w = 4 * real r - 2) by (unfold w, Shareapprox_proofs.real; rewrite minus_IZR, !mult_IZR; field; lra). assert (Bw : Rabs (real w - y) <= 4 * eta) by (rewrite Rw; apply Rabs_def2' in Bq; apply Rabs_le; lra).
    assert (By : Rabs (real w) <= 21 / 10). { replace (real w) with ((real w - y) + y) by ring. eapply Rle_trans; [apply Rabs_triang|]. assert (Rabs y <= 2) by (apply Rabs_le; exact Yr). lra. }
    assert (Hw : holds w yv) by (apply (holds_bound n Hn s T Hs HT _ _ (21 / 10) Nw By), s_room; lra).
    set (zv := sub_num yv (AInt 1)). assert (Nz : nshare n (w - 1 * s) s zv) by (apply (sub_int_ok n Hn), Nw). assert (Rz : real (w - 1 * s) = real w - 1) by (unfold Shareapprox_proofs.real; rewrite minus_IZR, !mult_IZR; field; lra).
    assert (Bz : Rabs (real (w - 1 * s)) <= 31 / 10) by (rewrite Rz; apply Rabs_def2' in By; apply Rabs_le; lra). assert (Hz : holds (w - 1 * s) zv) by (apply (holds_bound n Hn s T Hs HT _ _ (31 / 10) Nz Bz), s_room; lra).
    eapply yo_bind; [apply (mul_real n Hn pr HV s E T HE Hs HT _ v zv x Hz Hv); eapply (real_product n Hn s T Hs HT); [exact Bz|exact Bv|nra]|]. intros p (t & Hp & Bp).
    assert (Bt : Rabs (real t - P 1) <= 7 * eta). { cbn [Nat.mul Nat.add first_kind]. rewrite Rv, Rz in Bp. replace (real t - (2 * h * (2 * h * h - 1) - h)) with ((real t - (real w - 1) * h) + (real w - y) * h) by ring. eapply Rle_trans; [apply Rabs_triang|]. rewrite Rabs_mult. assert (Rabs (real w - y) * Rabs h <= 4 * eta * 1) by (apply Rmult_le_compat; try apply Rabs_pos; assumption). lra. }
    assert (D1 : drift y (7 * eta) 1 (real t - P 1) (real v - P 0)). { pose proof (drift_step y (7 * eta) 0 0 0 (real t - P 1) Yr Bt (drift_start _ _)) as D1. replace (y * 0 - 0 + (real t - P 1)) with (real t - P 1) in D1 by ring. replace (real v - P 0) with 0; [exact D1|]. cbn [Nat.mul Nat.add first_kind]. lra. }
    eapply yo_bind; [apply (more_good yv w Hw Bw (2 * N / 2 - 2) 0 p x [] t v)|].
    - replace (2 * N / 2)%nat with N by (rewrite Nat.mul_comm, Nat.div_mul; lia). lia.
    - exact Hp.
    - exact Hv.
    - exact D1.
    - cbn [rev app seq]. constructor; [|constructor; [|constructor]].
      + exists v. split; [exact Hv|]. cbn [Nat.mul Nat.add first_kind INR]. rewrite Rv, Rminus_diag_eq by reflexivity. rewrite Rabs_R0. lra.
      + exists t. split; [exact Hp|]. exact (drift_now _ _ _ _ _ D1).
    - intros ps F. apply yo_ok. replace (2 * N / 2)%nat with N in F by (rewrite Nat.mul_comm, Nat.div_mul; lia). replace (2 + (N - 2))%nat with N in F by lia. exact F.
  Qed.
End Polynomials.

(** ** The product with the coefficients *)
Lemma odds_length {A} (l : list A) N : length l = (2 * N)%nat -> length (odds l) = N.
Proof. revert l. induction N as [|N IH]; intros l H; [destruct l; [reflexivity|discriminate]|]. destruct l as [|a [|b l]]; cbn [length] in H; try lia. cbn [odds length]. f_equal. apply IH. lia. Qed.
Lemma odds_nth {A} (d : A) l N : length l = (2 * N)%nat -> forall j, (j < N)%nat -> nth j (odds l) d = nth (2 * j + 1) l d.
Proof.
  revert l. induction N as [|N IH]; intros l H j J; [lia|]. destruct l as [|a [|b l]]; cbn [length] in H; try lia. cbn [odds]. destruct j as [|j]; [reflexivity|]. cbn [nth]. replace (2 * S j + 1)%nat with (S (S (2 * j + 1))) by lia. cbn [nth]. apply IH; lia.
Qed.
Lemma enc_zero s : encodeQ s 0%Q = 0%Z. Proof. unfold encodeQ. cbn [Qnum Qden]. now rewrite Z.mul_0_r. Qed.
Definition zdot (vs ks : list Z) : Z := zsum (map (fun p => (fst p * snd p)%Z) (combine vs ks)).
Section Product.
  Variable n : nat.
  Hypothesis Hn : (0 < n)%nat.
  Variable pr : provider.
  Hypothesis HV : valid n pr.
  Variables (s E : Z) (T : bool).
  Hypothesis HE : (1 <= E)%Z.
  Hypothesis Hs : (1 < s)%Z.
  Hypothesis HT : T = true -> n = 1%nat.
  Local Notation real := (real s).
  Local Notation eta := (eta s E).
  Local Notation holds := (holds n s).
  Lemma zdot_real vs : forall ks, length ks = length vs -> IZR (zdot vs ks) / (IZR s * IZR s) = rsumn (length vs) (fun j => real (nth j vs 0%Z) * real (nth j ks 0%Z)).
  Proof using Hs.
    clear - Hs. pose proof (s_pos s Hs) as Sp. induction vs as [|v vs IH]; intros [|k ks] L; try discriminate; [unfold zdot, rsumn, rsum; cbn; field; lra|]. cbn [length] in L |- *. rewrite rsumn_first. cbn [nth]. rewrite <- (IH ks) by lia. unfold zdot. cbn [combine map fst snd]. unfold zsum. cbn [fold_right]. rewrite plus_IZR, mult_IZR. unfold Shareapprox_proofs.real. field. lra.
  Qed.
  Lemma dotp_real vs zs cs : Forall2 holds vs zs -> length cs = length zs -> zs <> [] -> in64 (zdot vs (map (encodeQ s) cs)) ->
    yo T (dotpv (pr := pr) (within E) (combine zs cs)) (fun o => exists q, holds q o /\ Rabs (real q - rsumn (length vs) (fun j => real (nth j vs 0%Z) * real (encodeQ s (nth j cs 0%Q)))) <= eta).
  Proof using Hn HV HE Hs HT.
    intros F L Ne I. assert (Lv : length vs = length zs) by (eapply Forall2_length; exact F). destruct zs as [|z zs]; [contradiction|]. destruct cs as [|c cs]; [discriminate|]. destruct vs as [|v vs]; [discriminate|]. inversion F as [|? ? ? ? Hz F']; subst. unfold dotpv. cbn [combine]. rewrite (proj2 (proj1 Hz)). unfold mul_pub_rescale. replace (1 <? s)%Z with true by (symmetry; apply Z.ltb_lt; lia). cbv zeta.
    set (ks := map (encodeQ s) (c :: cs)) in *. set (l := (z, c) :: combine zs cs).
    assert (G : Forall2 (fun v x => nshare n v s x) (map (fun p => (fst p * snd p)%Z) (combine (v :: vs) ks)) (map (fun xq => mkNum (mul_int (encodeQ s (snd xq)) (n_sh (fst xq))) s) l)).
    { unfold l, ks. change ((z, c) :: combine zs cs) with (combine (z :: zs) (c :: cs)). clear - F L. revert L. generalize (c :: cs). induction F as [|a b va vb Ha F IH]; intros [|k ks] L; try discriminate; cbn [combine map]; constructor; [|apply IH; cbn in L; lia]. cbn [fst snd]. split; [|reflexivity]. exact (proj1 (muli_num_ok n (encodeQ s k) a s b (proj1 Ha))). }
    assert (Ne' : map (fun p => (fst p * snd p)%Z) (combine (v :: vs) ks) <> []) by (unfold ks; discriminate). pose proof (sum_num_ok n s _ _ Ne' G) as Sm.
    eapply yo_weaken; [apply (divv_acc n Hn pr HV E T HE HT (zdot (v :: vs) ks)); [lia|exact I|exact (proj1 Sm)]|]. cbn [n_sc]. intros o (q & A & I' & B). exists q. split; [split; assumption|].
    apply (rounded s E Hs) in B; [|lia]. rewrite (rsumn_ext _ _ (fun j => real (nth j (v :: vs) 0%Z) * real (nth j ks 0%Z))).
    - rewrite <- zdot_real by (unfold ks; rewrite map_length; cbn [length] in *; lia). exact B.
    - intros j _. unfold ks. now rewrite <- (map_nth (encodeQ s)), enc_zero.
  Qed.
End Product.

Lemma yo_lifted {pr A} T (m : run pr A) (Q : A -> Prop) : yields m Q -> yo T (lift m) Q.
Proof. intros H st0. specialize (H st0). unfold lift, bind. destruct (m st0). exact H. Qed.

(** ** tanh and sigmoid *)
Lemma tanh_lipschitz a b : Rabs (tanh a - tanh b) <= Rabs (a - b).
Proof.
  assert (H : forall a b, a < b -> 0 <= tanh b - tanh a <= b - a).
  { clear. intros a b L. destruct (MVT_cor2 tanh (fun x => 1 - tanh x * tanh x) a b L (fun c _ => tanh_lim c)) as [c [Ec _]]. rewrite Ec. pose proof (tanh_bound c). assert (0 <= 1 - tanh c * tanh c <= 1) by nra. nra. }
  destruct (Rtotal_order a b) as [L|[->|L]].
  - specialize (H a b L). rewrite (Rabs_left1 (tanh a - tanh b)), (Rabs_left (a - b)) by lra. lra.
  - rewrite !Rminus_diag_eq by reflexivity. rewrite Rabs_R0. lra.
  - specialize (H b a L). rewrite (Rabs_right (tanh a - tanh b)), (Rabs_right (a - b)) by lra. lra.
Qed.
(** the floats [coeffs] are the Chebyshev coefficients of tanh up to [g] *)
Definition coefficients (terms : nat) (g : R) (coeffs : list Q) : Prop :=
  length coeffs = terms /\ forall j, (j < terms)%nat -> Rabs (Q2R (nth j coeffs 0%Q) - chebyshev_coefficient tanh terms j) <= g.
(** the distance from tanh with N polynomials *)
Definition cheb_error (s E : Z) (N : nat) (g : R) : R := 18 * (IZR E / IZR s) + 3 / 2 * INR N * (1 / IZR s + g) + 2 / 4 ^ N.
Section Tanh.
  Variable n : nat.
  Hypothesis Hn : (0 < n)%nat.
  Variable pr : provider.
  Hypothesis HV : valid n pr.
  Variables (s E : Z) (T : bool).
  Hypothesis HE : (1 <= E)%Z.
  Hypothesis Hs : (1 < s)%Z.
  Hypothesis HT : T = true -> n = 1%nat.
  Variables (N : nat) (g : R) (coeffs : list Q).
  Hypothesis HN : (3 <= N)%nat.
  Hypothesis Hf : IZR s * IZR s * 4 < IZR H63.
  Hypothesis Hr : 7 * (IZR E / IZR s) * (INR N * INR N) <= 1.
  Hypothesis Hc : coefficients (2 * N) g coeffs.
  Hypothesis Hg : 2 * INR N * g <= 1.
  Local Notation real := (real s).
  Local Notation eta := (eta s E).
  Local Notation holds := (holds n s).
  Lemma clamp_real v : real (Z.max (v - -1 * s) 0 - Z.max (v - 1 * s) 0 + -1 * s) = Approx.hardtanh (real v).
  Proof using Hs.
    clear - Hs. pose proof (s_pos s Hs) as Sp. assert (C : (Z.max (v - -1 * s) 0 - Z.max (v - 1 * s) 0 + -1 * s = (if Z_lt_dec v (- s) then - s else if Z_lt_dec s v then s else v))%Z) by (destruct (Z_lt_dec v (- s)), (Z_lt_dec s v); lia). rewrite C. clear C.
    assert (X : IZR v = IZR s * real v) by (unfold Shareapprox_proofs.real; field; lra). unfold Approx.hardtanh. destruct (Z_lt_dec v (- s)) as [L|L]; [|destruct (Z_lt_dec s v) as [L'|L']].
    - apply IZR_lt in L. rewrite opp_IZR in L. assert (real v < -1) by nra. rewrite Rmin_right, Rmax_left by lra. unfold Shareapprox_proofs.real. rewrite opp_IZR. field. lra.
    - apply IZR_lt in L'. assert (1 < real v) by nra. rewrite Rmin_left, Rmax_right by lra. unfold Shareapprox_proofs.real. field. lra.
    - apply Znot_lt_ge, Z.ge_le, IZR_le in L. apply Znot_lt_ge, Z.ge_le, IZR_le in L'. rewrite opp_IZR in L. assert (-1 <= real v <= 1) by (split; nra). rewrite Rmin_right, Rmax_right by lra. reflexivity.
  Qed.
  Lemma tanh_real v x : holds v x -> Rabs (real v) <= 1 -> yo T (tanh_chebv (pr := pr) s (within E) coeffs (2 * N) x) (fun z => exists q, holds q z /\ Rabs (real q) <= 1 /\ Rabs (real q - tanh (real v)) <= cheb_error s E N g).
  Proof using Hn HV HE Hs HT HN Hf Hr Hc Hg.
    intros Hv Bv. destruct Hc as [Lc Cc]. set (h := real v) in *. pose proof (s_pos s Hs) as Sp. assert (S1 : 1 < IZR s) by (apply IZR_lt; exact Hs). pose proof (eta_small s E HE Hs N HN Hr) as [Ep Es]. assert (E1 : / IZR s <= eta). { unfold Shareapprox_proofs.eta, Rdiv. rewrite <- (Rmult_1_l (/ IZR s)) at 1. apply Rmult_le_compat_r; [left; now apply Rinv_0_lt_compat|]. apply (IZR_le 1). exact HE. }
    assert (N3 : 3 <= INR N) by (apply (le_INR 3) in HN; cbn [INR] in HN; lra). pose proof (Rinv_0_lt_compat _ Sp) as Ip. assert (G0 : 0 <= g) by (pose proof (Cc 0%nat ltac:(lia)); pose proof (Rabs_pos (Q2R (nth 0 coeffs 0%Q) - chebyshev_coefficient tanh (2 * N) 0)); lra).
    unfold tanh_chebv. eapply yo_bind; [apply (polys_good n Hn pr HV s E T HE Hs HT h Bv N HN Hf Hr v x Hv eq_refl)|]. intros zs F.
    assert (Lz : length zs = N) by (apply Forall2_length in F; rewrite seq_length in F; lia). pose proof (odds_length coeffs N Lc) as Lo.
    assert (Vs : exists vs, Forall2 holds vs zs /\ forall j, (j < N)%nat -> Rabs (real (nth j vs 0%Z) - first_kind (2 * j + 1) h) <= 7 * eta * (INR j * (INR j + 1) / 2)).
    { clear - F. assert (G : forall a m zs, Forall2 (good n s E h) (seq a m) zs -> exists vs, Forall2 holds vs zs /\ forall j, (j < m)%nat -> Rabs (real (nth j vs 0%Z) - first_kind (2 * (a + j) + 1) h) <= 7 * eta * (INR (a + j) * (INR (a + j) + 1) / 2)).
      { intros a m. revert a. induction m as [|m IH]; intros a l H; inversion H as [|? z ? l' Hz H']; subst; [exists []; split; [constructor|intros; lia]|]. destruct (IH (S a) l' H') as [vs [A B]]. destruct Hz as [q [Hq Bq]]. exists (q :: vs). split; [now constructor|]. intros [|j] J; cbn [nth]; [rewrite Nat.add_0_r; exact Bq|]. replace (a + S j)%nat with (S a + j)%nat by lia. apply B. lia. }
      destruct (G 0%nat N zs F) as [vs [A B]]. exists vs. split; [exact A|]. intros j J. exact (B j J). }
    destruct Vs as [vs [Fv Bs]]. assert (Lv : length vs = N) by (apply Forall2_length in Fv; lia). set (cs := odds coeffs) in *.
    set (C := fun j => chebyshev_coefficient tanh (2 * N) (2 * j + 1)). set (K := fun j => real (encodeQ s (nth j cs 0%Q))).
    assert (Kc : forall j, (j < N)%nat -> Rabs (K j - C j) <= / IZR s + g). { intros j J. unfold K, cs. rewrite (odds_nth 0%Q coeffs N Lc j J). pose proof (float_any s Hs (nth (2 * j + 1) coeffs 0%Q)) as A. pose proof (Cc (2 * j + 1)%nat ltac:(lia)) as B. fold (C j) in B. replace (real (encodeQ s (nth (2 * j + 1) coeffs 0%Q)) - C j) with ((real (encodeQ s (nth (2 * j + 1) coeffs 0%Q)) - Q2R (nth (2 * j + 1) coeffs 0%Q)) + (Q2R (nth (2 * j + 1) coeffs 0%Q) - C j)) by ring. eapply Rle_trans; [apply Rabs_triang|]. lra. }
    set (S := rsumn N (fun j => real (nth j vs 0%Z) * K j)).
    assert (BS : Rabs (S - interpolant N h) <= 3 / 2 * INR N * (/ IZR s + g) + 17 * eta).
    { unfold S, interpolant. rewrite <- rsumn_minus. fold C.
      apply Rle_trans with (rsumn N (fun j => 3 / 2 * (/ IZR s + g) + 14 * eta * (INR j * (INR j + 1) / 4 ^ j))).
      - apply rsumn_abs. intros j J. fold (C j). specialize (Kc j J). specialize (Bs j J). set (p := real (nth j vs 0%Z)) in *. set (Pj := first_kind (2 * j + 1) h) in *. pose proof (pos_INR j) as Pj0.
        assert (Pb : Rabs Pj <= 1) by (apply first_kind_small; apply Rabs_def2' in Bv; lra).
        assert (Pp : Rabs p <= 3 / 2). { apply (le_INR (Datatypes.S j)) in J. rewrite S_INR in J. assert (INR j * (INR j + 1) <= INR N * INR N) by nra. assert (7 * eta * (INR j * (INR j + 1)) <= 7 * eta * (INR N * INR N)) by (apply Rmult_le_compat_l; lra). fold (Shareapprox_proofs.eta s E) in Hr. replace p with ((p - Pj) + Pj) by ring. eapply Rle_trans; [apply Rabs_triang|]. lra. }
        replace (p * K j - Pj * C j) with (p * (K j - C j) + (p - Pj) * C j) by ring. eapply Rle_trans; [apply Rabs_triang|]. rewrite !Rabs_mult.
        apply Rplus_le_compat; [apply Rmult_le_compat; try apply Rabs_pos; assumption|]. destruct (Nat.eq_dec j 0) as [->|J0].
        + cbn [INR] in Bs |- *. replace (7 * eta * (0 * (0 + 1) / 2)) with 0 in Bs by field. pose proof (Rabs_pos (p - Pj)). replace (Rabs (p - Pj)) with 0 by lra. cbn [pow]. lra.
        + pose proof (coefficient_decay (2 * N) j ltac:(lia) ltac:(lia)) as Dc. fold (C j) in Dc. pose proof (pow_lt 4 j ltac:(lra)) as P4. apply Rle_trans with (7 * eta * (INR j * (INR j + 1) / 2) * (4 / 4 ^ j)); [apply Rmult_le_compat; try apply Rabs_pos; assumption|]. right. field. lra.
      - rewrite rsumn_plus, rsumn_const, rsumn_scale. pose proof (weights_sum N) as W. assert (14 * eta * rsumn N (fun i => INR i * (INR i + 1) / 4 ^ i) <= 14 * eta * (32 / 27)) by (apply Rmult_le_compat_l; lra). nra. }
    assert (BI : Rabs (interpolant N h - tanh h) <= 2 / 4 ^ N). { pose proof (error N h ltac:(lia)) as Er. rewrite pow_mult in Er. replace (2 ^ 2) with 4 in Er by ring. eapply Rle_trans; [exact Er|]. apply Rmult_le_compat_r; [left; apply Rinv_0_lt_compat, pow_lt; lra|]. assert (Rabs (first_kind (2 * N) h) <= 1) by (apply first_kind_small; apply Rabs_def2' in Bv; lra). lra. }
    pose proof (tanh_bound h) as Tb. assert (P64 : 2 / 4 ^ N <= 1 / 32). { assert (64 <= 4 ^ N) by (change 64 with (IZR 64); replace (IZR 64) with (4 ^ 3) by (cbn; lra); apply Rle_pow; [lra|exact HN]). assert (/ 4 ^ N <= / 64) by (apply Rinv_le_contravar; lra). lra. }
    assert (Nu : INR N * / IZR s <= 1 / 21). { fold (Shareapprox_proofs.eta s E) in Hr. assert (INR N * eta <= 1 / 21) by nra. nra. }
    assert (Bo : Rabs S <= 22 / 10). { replace S with ((S - interpolant N h) + (interpolant N h - tanh h) + tanh h) by ring. eapply Rle_trans; [apply Rabs_triang|]. eapply Rle_trans; [apply Rplus_le_compat_r, Rabs_triang|]. assert (Rabs (tanh h) <= 1) by (apply Rabs_le; lra). replace (3 / 2 * INR N * (/ IZR s + g)) with (3 / 2 * (INR N * / IZR s) + 3 / 4 * (2 * INR N * g)) in BS by (field; lra). lra. }
    assert (I : in64 (zdot vs (map (encodeQ s) cs))). { pose proof (zdot_real s Hs vs (map (encodeQ s) cs) ltac:(rewrite map_length; lia)) as Z. assert (Z' : IZR (zdot vs (map (encodeQ s) cs)) = IZR s * IZR s * S). { rewrite <- (Rmult_1_r (IZR (zdot vs _))). replace 1 with (/ (IZR s * IZR s) * (IZR s * IZR s)) by (field; lra). rewrite <- Rmult_assoc. fold (IZR (zdot vs (map (encodeQ s) cs)) / (IZR s * IZR s)). rewrite Z, Lv, Rmult_comm. f_equal. unfold S. apply rsumn_ext. intros j _. unfold K. now rewrite <- (map_nth (encodeQ s)), enc_zero. }
      apply Rabs_def2' in Bo. assert (- IZR H63 <= IZR (zdot vs (map (encodeQ s) cs)) < IZR H63) as [A B] by (rewrite Z'; nra). rewrite <- opp_IZR in A. apply le_IZR in A. apply lt_IZR in B. unfold in64. lia. }
    eapply yo_bind; [apply (dotp_real n Hn pr HV s E T HE Hs HT vs zs cs Fv ltac:(rewrite Lz; exact Lo) ltac:(destruct zs; [cbn in Lz; lia|discriminate]) I)|]. intros o (q & Hq & Bq). rewrite Lv in Bq. fold K S in Bq. change (rsumn N (fun j => real (nth j vs 0%Z) * real (encodeQ s (nth j cs 0%Q)))) with S in Bq.
    assert (Bqa : Rabs (real q) <= 23 / 10) by (replace (real q) with ((real q - S) + S) by ring; eapply Rle_trans; [apply Rabs_triang|]; lra).
    assert (Ht : Rabs (real q - tanh h) <= cheb_error s E N g). { replace (real q - tanh h) with ((real q - S) + (S - interpolant N h) + (interpolant N h - tanh h)) by ring. eapply Rle_trans; [apply Rabs_triang|]. eapply Rle_trans; [apply Rplus_le_compat_r, Rabs_triang|]. unfold cheb_error. fold (Shareapprox_proofs.eta s E). replace (1 / IZR s) with (/ IZR s) by (field; lra). lra. }
    assert (Zq : (- (3 * s) < q < 3 * s)%Z). { apply Rabs_def2' in Bqa. unfold Shareapprox_proofs.real in Bqa. assert (Q : IZR q = IZR s * (IZR q / IZR s)) by (field; lra). split; apply lt_IZR; rewrite ?opp_IZR, mult_IZR; nra. }
    assert (Zs : (4 * s < H63)%Z). { apply lt_IZR. rewrite mult_IZR. nra. }
    apply yo_lifted. eapply yields_weaken; [apply (hardtanh_ok n Hn pr HV s q s o (AInt (-1)) (AInt 1)); [lia|apply (ratio_D n Hn); lia|exact (proj1 Hq)|exact Logic.I|exact Logic.I|unfold in64; cbn [aval]; lia|unfold in64; cbn [aval]; lia]|].
    cbn [aval]. intros z Hz. eexists. split; [split; [exact Hz|unfold in64; lia]|]. rewrite clamp_real. split.
    - unfold Approx.hardtanh. apply Rabs_le. split; [apply Rmax_l|apply Rmax_lub; [lra|apply Rmin_l]].
    - eapply Rle_trans; [apply clamp_closer; lra|exact Ht].
  Qed.
  Lemma sigmoid_real v x : holds v x -> Rabs (real v) <= 2 - 2 * (IZR E / IZR s) -> yo T (sigmoid_chebv (pr := pr) s (within E) coeffs (2 * N) x) (fun z => exists q, holds q z /\ Rabs (real q - / (1 + exp (- real v))) <= cheb_error s E N g / 2 + 3 / 2 * (IZR E / IZR s) + 1 / IZR s).
  Proof using Hn HV HE Hs HT HN Hf Hr Hc Hg.
    intros Hv Bv. pose proof (s_pos s Hs) as Sp. assert (S1 : 1 < IZR s) by (apply IZR_lt; exact Hs). pose proof (eta_small s E HE Hs N HN Hr) as [Ep Es]. pose proof (Rinv_0_lt_compat _ Sp) as Ip. fold (Shareapprox_proofs.eta s E) in Bv |- *. unfold sigmoid_chebv.
    eapply yo_bind; [apply (div_real n Hn pr HV s E T HE Hs HT v x 2 ltac:(lia) Hv)|]. intros a (ha & Ha & Ba). assert (Bh : Rabs (real ha) <= 1). { apply Rabs_def2' in Bv. apply Rabs_def2' in Ba. apply Rabs_le. lra. }
    eapply yo_bind; [apply (tanh_real ha a Ha Bh)|]. intros t (q & Hq & Bq1 & Bq). eapply yo_bind; [apply (div_real n Hn pr HV s E T HE Hs HT q t 2 ltac:(lia) Hq)|]. intros r (p & Hp & Bp). apply yo_ok.
    set (c := encodeQ s (1 # 2)). pose proof (float_any s Hs (1 # 2)) as Fc. fold c in Fc. replace (Q2R (1 # 2)) with (1 / 2) in Fc by (unfold Q2R; cbn [Qnum Qden]; lra). assert (Is : / IZR s <= 1 / 2) by (replace (1 / 2) with (/ 2) by lra; apply Rinv_le_contravar; [lra|apply (IZR_le 2); lia]).
    assert (Rr : real (p + c) = real p + real c) by (unfold Shareapprox_proofs.real; rewrite plus_IZR; field; lra). exists (p + c)%Z. split.
    - apply (holds_bound n Hn s T Hs HT _ _ 2); [exact (add_public n Hn p s r (AFloat (1 # 2)) Logic.I (proj1 Hp))| |nra]. rewrite Rr. apply Rabs_def2' in Bq1, Bp, Fc. apply Rabs_le. lra.
    - rewrite Rr, logistic_tanh. set (e := cheb_error s E N g) in *.
      assert (Lt : Rabs (tanh (real ha) - tanh (real v / 2)) <= eta). { eapply Rle_trans; [|exact Ba]. apply tanh_lipschitz. }
      replace (real p + real c - (tanh (real v / 2) / 2 + 1 / 2)) with ((real p - real q / 2) + (real q - tanh (real ha)) / 2 + (tanh (real ha) - tanh (real v / 2)) / 2 + (real c - 1 / 2)) by field.
      apply Rabs_def2' in Bp, Bq, Lt, Fc. replace (1 / IZR s) with (/ IZR s) by (field; lra). apply Rabs_le. lra.
  Qed.
End Tanh.

Section Weak.
  Context {pr : provider}.
  Lemma cheb_morev_weak chk y m : forall ps, weaker (cheb_morev (pr := pr) chk y m ps) (cheb_morev no_check y m ps).
  Proof. induction m as [|m IH]; intros [|p1 [|p2 ps]]; try apply weaker_refl. cbn [cheb_morev]. apply weaker_bind; [apply mulv_weak|]. intros a. apply IH. Qed.
  Lemma cheb_polysv_weak chk t x : weaker (cheb_polysv (pr := pr) chk t x) (cheb_polysv no_check t x).
  Proof. unfold cheb_polysv. destruct (_ || _); [apply weaker_refl|]. apply weaker_bind; [apply squarev_weak|]. intros q. cbv zeta. apply weaker_bind; [apply mulv_weak|]. intros p. apply weaker_bind; [apply cheb_morev_weak|]. intros ps. apply weaker_refl. Qed.
  Lemma dotpv_weak chk l : weaker (dotpv (pr := pr) chk l) (dotpv no_check l).
  Proof. unfold dotpv. destruct l as [|[x c] l]; [apply weaker_refl|]. cbv zeta. destruct (mul_pub_rescale _) as [[d|] s']; [apply divv_weak|apply weaker_refl]. Qed.
  Lemma tanh_chebv_weak D chk cs t x : weaker (tanh_chebv (pr := pr) D chk cs t x) (tanh_chebv D no_check cs t x).
  Proof. unfold tanh_chebv. apply weaker_bind; [apply cheb_polysv_weak|]. intros ps. apply weaker_bind; [apply dotpv_weak|]. intros o. apply weaker_refl. Qed.
  Lemma sigmoid_chebv_weak D chk cs t x : weaker (sigmoid_chebv (pr := pr) D chk cs t x) (sigmoid_chebv D no_check cs t x).
  Proof. unfold sigmoid_chebv. apply weaker_bind; [apply divv_weak|]. intros h. apply weaker_bind; [apply tanh_chebv_weak|]. intros o. apply weaker_bind; [apply divv_weak|]. intros r. apply weaker_refl. Qed.
End Weak.
Section Claims.
  Variables (n : nat) (pr : provider).
  Hypothesis Hn : (0 < n)%nat.
  Hypothesis HV : valid n pr.
  (** the conditions: room for the products, few enough polynomials for the precision, accurate coefficients *)
  Definition cheb_fits (s E : Z) (N : nat) (g : R) : Prop := IZR s * IZR s * 4 < 2 ^ 63 /\ 7 * (IZR E / IZR s) * (INR N * INR N) <= 1 /\ 2 * INR N * g <= 1.
  Lemma fits63 s E N g : cheb_fits s E N g -> IZR s * IZR s * 4 < IZR H63. Proof. intros (A & _). replace (IZR H63) with (2 ^ 63) by (unfold H63; rewrite pow_IZR; reflexivity). exact A. Qed.
  Lemma tanh_yo T s E N g cs x : (1 <= E)%Z -> (1 < s)%Z -> (T = true -> n = 1%nat) -> (3 <= N)%nat -> cheb_fits s E N g -> coefficients (2 * N) g cs -> sharing n x -> n_sc x = s -> Rabs (rval x) <= 1 ->
    yo T (tanh_chebv (pr := pr) s (within E) cs (2 * N) x) (fun z => n_sc z = s /\ Rabs (rval z) <= 1 /\ Rabs (rval z - tanh (rval x)) <= cheb_error s E N g).
  Proof using Hn HV.
    intros HE Hs HT HN Ft Hc Hx Sx Bx. pose proof (fits63 _ _ _ _ Ft) as F6. destruct Ft as (_ & F2 & F3). destruct (holds_rval n s x Hx Sx) as [Hv Rv]. rewrite <- Rv in *. eapply yo_weaken; [apply (tanh_real n Hn pr HV s E T HE Hs HT N g cs HN F6 F2 Hc F3 _ x Hv Bx)|]. intros z (q & Hq & B1 & Bq). destruct (rval_holds n Hn s q z Hs Hq) as [Sz Rz]. rewrite Rz. auto.
  Qed.
  Lemma sigmoid_yo T s E N g cs x : (1 <= E)%Z -> (1 < s)%Z -> (T = true -> n = 1%nat) -> (3 <= N)%nat -> cheb_fits s E N g -> coefficients (2 * N) g cs -> sharing n x -> n_sc x = s -> Rabs (rval x) <= 2 - 2 * (IZR E / IZR s) ->
    yo T (sigmoid_chebv (pr := pr) s (within E) cs (2 * N) x) (fun z => n_sc z = s /\ Rabs (rval z - / (1 + exp (- rval x))) <= cheb_error s E N g / 2 + 3 / 2 * (IZR E / IZR s) + 1 / IZR s).
  Proof using Hn HV.
    intros HE Hs HT HN Ft Hc Hx Sx Bx. pose proof (fits63 _ _ _ _ Ft) as F6. destruct Ft as (_ & F2 & F3). destruct (holds_rval n s x Hx Sx) as [Hv Rv]. rewrite <- Rv in *. eapply yo_weaken; [apply (sigmoid_real n Hn pr HV s E T HE Hs HT N g cs HN F6 F2 Hc F3 _ x Hv Bx)|]. intros z (q & Hq & Bq). destruct (rval_holds n Hn s q z Hs Hq) as [Sz Rz]. rewrite Rz. auto.
  Qed.
  (** C106: tanh by 2N Chebyshev terms of a number from -1 to 1 lies in [-1, 1], within 18 roundings, 3/2 N times the error of the coefficients and 2 / 4^N of tanh. *)
  Lemma k_C106_tanh s E N g cs x st z : (1 <= E)%Z -> (1 < s)%Z -> (3 <= N)%nat -> cheb_fits s E N g -> coefficients (2 * N) g cs -> sharing n x -> n_sc x = s -> Rabs (rval x) <= 1 ->
    fst (tanh_chebv (pr := pr) s (within E) cs (2 * N) x st) = Some z ->
    fst (tanh_chebv (pr := pr) s no_check cs (2 * N) x st) = Some z /\ n_sc z = s /\ Rabs (rval z) <= 1 /\ Rabs (rval z - tanh (rval x)) <= cheb_error s E N g.
  Proof using Hn HV.
    intros HE Hs HN Ft Hc Hx Sx Bx Hz. split; [eapply weaker_fst; [apply tanh_chebv_weak|exact Hz]|]. exact (yo_some _ _ _ _ _ (tanh_yo false s E N g cs x HE Hs ltac:(discriminate) HN Ft Hc Hx Sx Bx) Hz).
  Qed.
  (** C106: and sigmoid of a number inside [-2, 2] is within half of that and a few roundings of 1 / (1 + exp(-x)). *)
  Lemma k_C106_sigmoid s E N g cs x st z : (1 <= E)%Z -> (1 < s)%Z -> (3 <= N)%nat -> cheb_fits s E N g -> coefficients (2 * N) g cs -> sharing n x -> n_sc x = s -> Rabs (rval x) <= 2 - 2 * (IZR E / IZR s) ->
    fst (sigmoid_chebv (pr := pr) s (within E) cs (2 * N) x st) = Some z ->
    fst (sigmoid_chebv (pr := pr) s no_check cs (2 * N) x st) = Some z /\ n_sc z = s /\ Rabs (rval z - / (1 + exp (- rval x))) <= cheb_error s E N g / 2 + 3 / 2 * (IZR E / IZR s) + 1 / IZR s.
  Proof using Hn HV.
    intros HE Hs HN Ft Hc Hx Sx Bx Hz. split; [eapply weaker_fst; [apply sigmoid_chebv_weak|exact Hz]|]. exact (yo_some _ _ _ _ _ (sigmoid_yo false s E N g cs x HE Hs ltac:(discriminate) HN Ft Hc Hx Sx Bx) Hz).
  Qed.
  (** C106: with one party both always return, without any assumption on the truncations. *)
  Lemma k_C106_one_party s N g cs x st : n = 1%nat -> (1 < s)%Z -> (3 <= N)%nat -> cheb_fits s 1 N g -> coefficients (2 * N) g cs -> sharing n x -> n_sc x = s ->
    (Rabs (rval x) <= 1 -> exists z, fst (tanh_chebv (pr := pr) s no_check cs (2 * N) x st) = Some z /\ n_sc z = s /\ Rabs (rval z - tanh (rval x)) <= cheb_error s 1 N g) /\
    (Rabs (rval x) <= 2 - 2 / IZR s -> exists z, fst (sigmoid_chebv (pr := pr) s no_check cs (2 * N) x st) = Some z /\ n_sc z = s /\ Rabs (rval z - / (1 + exp (- rval x))) <= cheb_error s 1 N g / 2 + 5 / 2 / IZR s).
  Proof using Hn HV.
    intros H1 Hs HN Ft Hc Hx Sx. pose proof (s_pos s Hs) as Sp. split; intros Bx.
    - destruct (yo_true _ _ st (tanh_yo true s 1 N g cs x ltac:(lia) Hs (fun _ => H1) HN Ft Hc Hx Sx Bx)) as (z & Ez & Sz & _ & Bz). exists z. split; [eapply weaker_fst; [apply tanh_chebv_weak|exact Ez]|auto].
    - destruct (yo_true _ _ st (sigmoid_yo true s 1 N g cs x ltac:(lia) Hs (fun _ => H1) HN Ft Hc Hx Sx ltac:(replace (2 * (1 / IZR s)) with (2 / IZR s) by (field; lra); exact Bx))) as (z & Ez & Sz & Bz). exists z. split; [eapply weaker_fst; [apply sigmoid_chebv_weak|exact Ez]|]. split; [exact Sz|]. replace (5 / 2 / IZR s) with (3 / 2 * (1 / IZR s) + 1 / IZR s) by (field; lra). lra.
  Qed.
  (** C106: an odd number of terms or less than six makes both raise, for every input. *)
  Lemma k_C106_terms D chk cs terms x st : Nat.odd terms = true \/ (terms < 6)%nat -> fst (tanh_chebv (pr := pr) D chk cs terms x st) = None /\ fst (sigmoid_chebv (pr := pr) D chk cs terms x st) = None.
  Proof using.
    clear Hn HV n. intros H. assert (P : forall y, cheb_polysv (pr := pr) chk terms y = raise). { intros y. unfold cheb_polysv. destruct H as [H|H]; [now rewrite <- Nat.negb_odd, H|]. apply Nat.ltb_lt in H. now rewrite H, orb_true_r. }
    assert (Q : forall y st, fst (tanh_chebv (pr := pr) D chk cs terms y st) = None) by (intros y st0; unfold tanh_chebv; now rewrite P). split; [apply Q|]. unfold sigmoid_chebv, bindo, bind. destruct (divv chk x 2 st) as [[a|] st1]; [|reflexivity]. specialize (Q a st1). destruct (tanh_chebv D chk cs terms a st1) as [[b|] st2]; [discriminate|reflexivity].
  Qed.
End Claims.

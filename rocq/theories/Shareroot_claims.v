(** Proofs of C101: inv_sqrt and sqrt on shares. *)
Require Import ZArith QArith List Bool Lia Reals Lra.
From Verif Require Import Approx Approx_claims Approxfn_claims.
From Verif Require Import Ring64 Encoder Arith Arith_proofs Beaver Trunc Provider Binary Binary_proofs Compare Compare_proofs Compare_claims Maximum Regular Regular_proofs Regular_claims Shareapprox Shareapprox_proofs Shareapprox_claims Sharesoft Sharesoft_claims Shareroot.
Import ListNotations.
Open Scope R_scope.

(** *** Specification *)
(** how the error 1 - z sqrt(x) moves in one iteration: without rounding from u to u^2 (3 - u) / 2, with rounding up to [wobble] more *)
Definition wobble (s E : Z) (X : R) : R := 3 / 2 * (IZR E / IZR s) * (X + 1).
Definition shrink (N b : R) : R := b * b * (3 - b) / 2 + 2 * N.
(** the first estimate without rounding, and how far rounding takes it *)
Definition root_estimate (d : nat) (X : R) : R := 11 / 5 * limit_exp d (- (X / 2 + 1 / 5)) + 1 / 5 - X / 1024.
Definition root_slack (s E : Z) (d : nat) (X : R) : R := 11 / 5 * (limit_exp d (- (X / 2 + 1 / 5)) * exp_growth s E d + INR (d + 3) * (IZR E / IZR s) * (1 + exp_growth s E d)) + 5 * (IZR E / IZR s).

(** *** Real numbers *)
Lemma sqrt_mid X : 0 < X -> 0 < sqrt X /\ sqrt X * sqrt X = X /\ 2 * sqrt X <= X + 1 /\ 2 * / sqrt X <= 1 + / X.
Proof.
  intros HX. pose proof (sqrt_lt_R0 X HX) as P. pose proof (sqrt_sqrt X ltac:(lra)) as Q. split; [exact P|]. split; [exact Q|]. set (S := sqrt X) in *. assert (0 <= (S - 1) * (S - 1)) by apply Rle_0_sqr. split; [nra|].
  assert (I : / X = / S * / S) by (rewrite <- Q; field; lra). rewrite I. assert (0 <= (/ S - 1) * (/ S - 1)) by apply Rle_0_sqr. nra.
Qed.
Lemma cubic_mono b c : 0 <= b <= c -> c <= 2 -> b * b * (3 - b) <= c * c * (3 - c).
Proof. intros [B C] D. assert (0 <= (c - b) * (3 * (c + b) - (c * c + c * b + b * b))); [|nra]. apply Rmult_le_pos; [lra|]. nra. Qed.
Lemma cubic_step r : 1 - r * (3 - r * r) / 2 = (1 - r) * (1 - r) * (3 - (1 - r)) / 2. Proof. field. Qed.
Lemma step_error X S w t p m q h : 0 < X -> 0 < S -> S * S = X -> 2 * S <= X + 1 -> 0 < h -> Rabs (S * w) <= 3 / 2 -> Rabs (t - w * w) <= h -> Rabs (p - X * t) <= h -> Rabs (m - w * (3 - p)) <= h -> Rabs (q - m / 2) <= h ->
  Rabs (S * q - (S * w) * (3 - (S * w) * (S * w)) / 2) <= 3 / 2 * h * (X + 1).
Proof.
  intros HX HS SS S1 Hh Hr Ht Hp Hm Hq. set (r := S * w) in *.
  replace (S * q - r * (3 - r * r) / 2) with (S * (q - m / 2) + (S * ((m - w * (3 - p)) / 2) + r * (- ((p - X * t) + X * (t - w * w)) / 2))) by (unfold r; rewrite <- SS; field).
  assert (A1 : Rabs (S * (q - m / 2)) <= S * h) by (rewrite Rabs_mult, (Rabs_right S) by lra; apply Rmult_le_compat_l; lra).
  assert (A2 : Rabs (S * ((m - w * (3 - p)) / 2)) <= S * (h / 2)). { rewrite Rabs_mult, (Rabs_right S) by lra. apply Rmult_le_compat_l; [lra|]. unfold Rdiv. rewrite Rabs_mult, (Rabs_right (/ 2)) by lra. lra. }
  assert (A3 : Rabs (r * (- ((p - X * t) + X * (t - w * w)) / 2)) <= 3 / 2 * (h * (1 + X) / 2)).
  { rewrite Rabs_mult. apply Rmult_le_compat; auto using Rabs_pos. unfold Rdiv. rewrite Rabs_mult, Rabs_Ropp, (Rabs_right (/ 2)) by lra. apply Rmult_le_compat_r; [lra|]. eapply Rle_trans; [apply Rabs_triang|]. rewrite Rabs_mult, (Rabs_right X) by lra. assert (X * Rabs (t - w * w) <= X * h) by (apply Rmult_le_compat_l; lra). lra. }
  eapply Rle_trans; [apply Rabs_triang|]. eapply Rle_trans; [apply Rplus_le_compat_l, Rabs_triang|]. assert (S * h <= (X + 1) / 2 * h) by (apply Rmult_le_compat_r; lra). lra.
Qed.
Lemma squares_lipschitz k : forall a b, 0 <= a <= 1 -> 0 <= b <= 1 -> Rabs (squares k a - squares k b) <= 2 ^ k * Rabs (a - b) /\ 0 <= squares k a <= 1.
Proof.
  induction k as [|k IH]; intros a b Ha Hb; [cbn [squares Nat.iter nat_rect pow]; split; [lra|exact Ha]|]. destruct (IH a b Ha Hb) as [H U]. destruct (IH b a Hb Ha) as [_ V]. rewrite !squares_S. split; [|nra].
  replace (squares k a * squares k a - squares k b * squares k b) with ((squares k a - squares k b) * (squares k a + squares k b)) by ring. rewrite Rabs_mult, (Rabs_right (_ + _)) by lra. cbn [pow].
  pose proof (Rabs_pos (squares k a - squares k b)). assert (Rabs (squares k a - squares k b) * (squares k a + squares k b) <= Rabs (squares k a - squares k b) * 2) by (apply Rmult_le_compat_l; lra). lra.
Qed.
Lemma limit_lipschitz d a b : - 2 ^ d <= a <= 0 -> - 2 ^ d <= b <= 0 -> Rabs (exp_approx d a - exp_approx d b) <= Rabs (a - b) /\ 0 <= exp_approx d a <= 1.
Proof.
  intros Ha Hb. assert (P : 0 < 2 ^ d) by (apply pow_lt; lra). assert (K : forall a, - 2 ^ d <= a <= 0 -> 0 <= 1 + a / 2 ^ d <= 1). { intros c Hc. assert (c / 2 ^ d * 2 ^ d = c) by (field; lra). split; apply (Rmult_le_reg_r (2 ^ d)); lra. }
  destruct (squares_lipschitz d (1 + a / 2 ^ d) (1 + b / 2 ^ d) (K a Ha) (K b Hb)) as [H U]. split; [|exact U]. change (exp_approx d a) with (squares d (1 + a / 2 ^ d)). change (exp_approx d b) with (squares d (1 + b / 2 ^ d)). eapply Rle_trans; [exact H|].
  replace (1 + a / 2 ^ d - (1 + b / 2 ^ d)) with ((a - b) * / 2 ^ d) by (field; lra). rewrite Rabs_mult, (Rabs_right (/ 2 ^ d)) by (left; now apply Rinv_0_lt_compat). right. field. lra.
Qed.

Section Root.
  Variable n : nat.
  Hypothesis Hn : (0 < n)%nat.
  Variable pr : provider.
  Hypothesis HV : valid n pr.
  Variables (s E : Z) (T : bool).
  Hypothesis HE : (1 <= E)%Z.
  Hypothesis Hs : (1 < s)%Z.
  Hypothesis HT : T = true -> n = 1%nat.
  Local Notation real := (real s).
  Local Notation eta := (eta s E).
  Local Notation factor := (factor s E).
  Local Notation holds := (holds n s).
  Lemma eta_wobble X : wobble s E X = 3 / 2 * eta * (X + 1). Proof. reflexivity. Qed.

  Definition fits_root (X : R) : Prop := 0 < X /\ wobble s E X <= 1 / 2 /\ IZR s * IZR s * (8 * (1 + / X)) < IZR H63.
  Lemma root_bound X w : 0 < X -> Rabs (sqrt X * w) <= 3 / 2 -> Rabs w <= 3 / 2 * / sqrt X.
  Proof. intros HX H. destruct (sqrt_mid X HX) as (P & _). rewrite Rabs_mult, (Rabs_right (sqrt X)) in H by lra. apply (Rmult_le_reg_l (sqrt X)); [exact P|]. replace (sqrt X * (3 / 2 * / sqrt X)) with (3 / 2) by (field; lra). exact H. Qed.
  Lemma fits_small X : fits_root X -> IZR s * (8 * (1 + / X)) < IZR H63.
  Proof. intros (HX & _ & F). assert (S2 : 2 <= IZR s) by (apply (IZR_le 2); lia). pose proof (Rinv_0_lt_compat X HX). eapply Rle_lt_trans; [|exact F]. rewrite Rmult_assoc. apply (Rmult_le_compat_l (IZR s)); [lra|]. nra. Qed.
  Lemma root_holds X w z : fits_root X -> nshare n w s z -> Rabs (sqrt X * real w) <= 3 / 2 -> holds w z.
  Proof.
    intros F H B. pose proof (fits_small X F) as G. destruct F as (HX & _ & _). destruct (sqrt_mid X HX) as (P & _ & _ & I). pose proof (s_pos s Hs) as Sp. eapply (holds_bound n Hn s T Hs HT); [exact H|apply (root_bound X _ HX B)|]. eapply Rle_lt_trans; [|exact G]. apply Rmult_le_compat_l; [lra|]. pose proof (Rinv_0_lt_compat X HX). lra.
  Qed.
  Lemma root_step_real v x w y a b : holds v x -> fits_root (real v) -> holds w y -> 0 <= a <= 1 / 2 -> 0 <= b <= 1 -> - a <= 1 - sqrt (real v) * real w <= b ->
    yo T (root_stepv (pr := pr) (within E) x y) (fun z => exists q, holds q z /\ - wobble s E (real v) <= 1 - sqrt (real v) * real q <= Rmax (a * a * (3 + a) / 2) (b * b * (3 - b) / 2) + wobble s E (real v)).
  Proof.
    intros Hx F Hy Ha Hb Hu. pose proof (fits_small _ F) as Fs. pose proof F as (HX & HN & Ff). set (X := real v) in *. destruct (sqrt_mid X HX) as (SP & SS & S1 & SI). set (S := sqrt X) in *. pose proof (s_pos s Hs) as Sp. pose proof (eta_pos s E HE Hs) as Ep.
    assert (S2 : 2 <= IZR s) by (apply (IZR_le 2); lia). pose proof (Rinv_0_lt_compat X HX) as IX. pose proof (Rinv_0_lt_compat S SP) as IS. assert (II : / X = / S * / S) by (rewrite <- SS; field; lra). rewrite eta_wobble in *.
    assert (Br : Rabs (S * real w) <= 3 / 2) by (apply Rabs_le; lra). pose proof (root_bound X (real w) HX Br) as Bw. fold S in Bw. unfold root_stepv.
    assert (Ss : 0 < IZR s * IZR s) by nra. assert (EX : eta * X <= 1 / 3 /\ eta <= 1 / 3) by nra. destruct EX as [EX E3].
    assert (Grow : forall c, c <= 8 * (1 + / X) -> IZR s * IZR s * c < IZR H63) by (intros c Hc; eapply Rle_lt_trans; [|exact Ff]; apply Rmult_le_compat_l; lra).
    eapply yo_bind; [apply (square_real n Hn pr HV s E T HE Hs HT w y Hy); eapply (real_product n Hn s T Hs HT); [exact Bw|exact Bw|apply Grow; nra]|]. intros y2 (t & Ht & Bt).
    assert (Bt' : Rabs (real t) <= 9 / 4 * / X + eta). { replace (real t) with (real w * real w + (real t - real w * real w)) by ring. eapply Rle_trans; [apply Rabs_triang|]. apply Rplus_le_compat; [|exact Bt]. rewrite Rabs_mult, II. replace (9 / 4 * (/ S * / S)) with (3 / 2 * / S * (3 / 2 * / S)) by (field; lra). apply Rmult_le_compat; auto using Rabs_pos. }
    assert (XI : X * / X = 1) by (apply Rinv_r; lra).
    eapply yo_bind; [apply (mul_real n Hn pr HV s E T HE Hs HT v t x y2 Hx Ht); eapply (real_product n Hn s T Hs HT); [right; apply Rabs_right; fold X; lra|exact Bt'|apply Grow; fold X; nra]|]. intros zp (p & Hp & Bp). fold X in Bp.
    assert (Bp' : Rabs (real p) <= 3). { replace (real p) with (X * real t + (real p - X * real t)) by ring. eapply Rle_trans; [apply Rabs_triang|]. rewrite Rabs_mult, (Rabs_right X) by lra. assert (X * Rabs (real t) <= X * (9 / 4 * / X + eta)) by (apply Rmult_le_compat_l; lra). nra. }
    assert (R3 : real (- p + 3 * s) = 3 - real p) by (unfold Shareapprox_proofs.real; rewrite plus_IZR, opp_IZR, mult_IZR; field; lra). apply Rabs_def2' in Bp'.
    assert (H3 : holds (- p + 3 * s) (add_num (neg_num zp) (AInt 3))).
    { eapply (holds_bound n Hn s T Hs HT); [apply (add_int_ok n Hn), (neg_num_ok n), Hp|rewrite R3; apply Rabs_le; instantiate (1 := 6); lra|]. eapply Rle_lt_trans; [|exact Fs]. apply Rmult_le_compat_l; lra. }
    eapply yo_bind; [apply (mul_real n Hn pr HV s E T HE Hs HT w _ y _ Hy H3); eapply (real_product n Hn s T Hs HT); [exact Bw|rewrite R3; apply Rabs_le; instantiate (1 := 6); lra|apply Grow; lra]|]. intros zm (m & Hm & Bm). rewrite R3 in Bm.
    eapply yo_weaken; [apply (div_real n Hn pr HV s E T HE Hs HT m zm 2 ltac:(lia) Hm)|]. intros z (q & Hq & Bq). exists q. split; [exact Hq|].
    pose proof (step_error X S (real w) (real t) (real p) (real m) (real q) eta HX SP SS S1 Ep Br Bt Bp Bm Bq) as Se. apply Rabs_def2' in Se. pose proof (cubic_step (S * real w)) as Cs. set (u := 1 - S * real w) in *.
    assert (U0 : 0 <= u * u * (3 - u) / 2) by nra.
    assert (U1 : u * u * (3 - u) / 2 <= Rmax (a * a * (3 + a) / 2) (b * b * (3 - b) / 2)).
    { destruct (Rle_dec 0 u) as [U|U]; [eapply Rle_trans; [|apply Rmax_r]; pose proof (cubic_mono u b ltac:(lra) ltac:(lra)); lra|]. eapply Rle_trans; [|apply Rmax_l]. assert (u * u <= a * a) by nra. assert (u * u * (3 - u) <= a * a * (3 + a)) by (apply Rmult_le_compat; nra). lra. }
    lra.
  Qed.
  Lemma shrink_iter X b k : fits_root X -> 0 <= b <= 1 -> shrink (wobble s E X) b <= b -> 0 <= Nat.iter k (shrink (wobble s E X)) b <= b /\ shrink (wobble s E X) (Nat.iter k (shrink (wobble s E X)) b) <= Nat.iter k (shrink (wobble s E X)) b.
  Proof.
    intros (HX & HN & _) Hb Hd. pose proof (eta_pos s E HE Hs) as Ep. assert (N0 : 0 <= wobble s E X) by (rewrite eta_wobble; nra). set (N := wobble s E X) in *.
    induction k as [|k [IH1 IH2]]; [split; [cbn; lra|exact Hd]|]. change (Nat.iter (S k) (shrink N) b) with (shrink N (Nat.iter k (shrink N) b)). set (c := Nat.iter k (shrink N) b) in *.
    assert (C0 : 0 <= shrink N c) by (unfold shrink; nra). split; [lra|]. unfold shrink at 1. pose proof (cubic_mono (shrink N c) c ltac:(lra) ltac:(lra)). change (shrink N c) with (c * c * (3 - c) / 2 + 2 * N) at 4. lra.
  Qed.
  Lemma roots_real v x : holds v x -> fits_root (real v) -> forall k w y a b, holds w y -> 0 <= a <= 1 / 2 -> 0 <= b <= 1 -> a * a * (3 + a) <= b * b * (3 - b) + 2 * wobble s E (real v) -> shrink (wobble s E (real v)) b <= b -> - a <= 1 - sqrt (real v) * real w <= b ->
    yo T (repeatv k (root_stepv (pr := pr) (within E) x) y) (fun z => exists q, holds q z /\ - (match k with O => a | _ => wobble s E (real v) end) <= 1 - sqrt (real v) * real q <= Nat.iter k (shrink (wobble s E (real v))) b).
  Proof.
    intros Hx F. set (N := wobble s E (real v)). pose proof (eta_pos s E HE Hs) as Ep. pose proof F as (HX & HN & _). assert (N0 : 0 <= N) by (unfold N; rewrite eta_wobble; nra). fold N in HN.
    induction k as [|k IH]; intros w y a b Hy Ha Hb Hab Hd Hu; [cbn [repeatv Nat.iter nat_rect]; apply yo_ok; exists w; split; assumption|]. cbn [repeatv].
    eapply yo_bind; [apply (root_step_real v x w y a b); assumption|]. fold N. intros y' (q & Hq & L & U).
    assert (M : Rmax (a * a * (3 + a) / 2) (b * b * (3 - b) / 2) + N <= shrink N b) by (unfold shrink; assert (Rmax (a * a * (3 + a) / 2) (b * b * (3 - b) / 2) <= b * b * (3 - b) / 2 + N) by (apply Rmax_lub; lra); lra).
    destruct (shrink_iter (real v) b 1 F Hb Hd) as [Q1 Q2]. fold N in Q1, Q2. cbn [Nat.iter nat_rect] in Q1, Q2.
    rewrite Nat_iter_S'. eapply yo_weaken; [apply (IH q y' N (shrink N b) Hq)|]; try lra; [|intros z (q' & Hq' & L' & U'); exists q'; split; [exact Hq'|split; [destruct k; lra|exact U']]]. assert (0 <= shrink N b * shrink N b * (3 - shrink N b)) by (apply Rmult_le_pos; nra). nra.
  Qed.
  Lemma root_initial_real d v x : holds v x -> fits_root (real v) -> real v / 2 + 1 / 5 + 2 * eta <= 2 ^ d -> eta <= 1 / 16 -> INR (S d) * eta <= 1 -> factor d <= 2 -> let a := exp_approx d (- (real v / 2 + 1 / 5)) in
    yo T (root_initialv (pr := pr) (within E) d x) (fun z => exists w, nshare n w s z /\ Rabs (real w - (11 / 5 * a + 1 / 5 - real v / 1024)) <= 11 / 5 * (a * (factor d - 1) + INR (d + 3) * eta * factor d) + 5 * eta).
  Proof.
    intros Hx F Hd E16 Hde F2 a. pose proof (fits_small _ F) as Fs. pose proof F as (HX & HN & Ff). set (X := real v) in *. pose proof (s_pos s Hs) as Sp. pose proof (eta_pos s E HE Hs) as Ep. pose proof (Rinv_0_lt_compat X HX) as IX. pose proof (Rinv_0_lt_compat _ Sp) as Is.
    assert (S2 : 2 <= IZR s) by (apply (IZR_le 2); lia). assert (Ie : / IZR s <= eta). { unfold Shareapprox_proofs.eta, Rdiv. rewrite <- (Rmult_1_l (/ IZR s)) at 1. apply Rmult_le_compat_r; [lra|]. apply (IZR_le 1); exact HE. }
    assert (S8 : IZR s * 8 < IZR H63) by (eapply Rle_lt_trans; [|exact Fs]; apply Rmult_le_compat_l; lra). assert (SX : IZR s * X <= IZR H63).
    { destruct Hx as [_ I]. unfold in64 in I. destruct I as [_ I]. apply IZR_lt in I. replace (IZR s * X) with (IZR v) by (unfold X, Shareapprox_proofs.real; field; lra). lra. }
    assert (Grow : forall c, c <= 8 -> IZR s * IZR s * c < IZR H63) by (intros c Hc; eapply Rle_lt_trans; [|exact Ff]; apply Rmult_le_compat_l; nra).
    assert (R63 : IZR H63 = 9223372036854775808) by reflexivity. rewrite R63 in *. unfold root_initialv.
    eapply yo_bind; [apply (div_real n Hn pr HV s E T HE Hs HT v x 2 ltac:(lia) Hx)|]. intros zh (h & Hh & Bh). fold X in Bh. apply Rabs_def2' in Bh.
    set (f := encodeQ s (1 # 5)). pose proof (float_real s Hs 1 5 ltac:(lia)) as Bf. fold f in Bf. apply Rabs_def2' in Bf.
    assert (Rh : real (- (h + f)) = - (real h + real f)) by (unfold Shareapprox_proofs.real; rewrite opp_IZR, plus_IZR; field; lra).
    assert (Hh' : nshare n (- (h + f)) s (neg_num (add_num zh (AFloat (1 # 5))))) by (apply (neg_num_ok n), (add_public n Hn _ _ _ (AFloat (1 # 5)) Logic.I), Hh).
    assert (H1 : holds (- (h + f)) (neg_num (add_num zh (AFloat (1 # 5))))).
    { eapply (holds_bound n Hn s T Hs HT); [exact Hh'|rewrite Rh; apply Rabs_le; instantiate (1 := X / 2 + 1); lra|]. rewrite R63. replace (IZR s * (X / 2 + 1)) with (IZR s * X / 2 + IZR s) by field. lra. }
    assert (B1 : - 2 ^ d <= real (- (h + f)) <= 0) by (rewrite Rh; lra).
    eapply yo_bind; [apply (exp_negative n Hn pr HV s E T HE Hs HT d _ _ H1 B1 Hde); apply Rle_lt_trans with (IZR s * IZR s * 2); [apply Rmult_le_compat_l; [nra|exact F2]|apply Grow; lra]|]. intros ze (e & He & Be).
    assert (Ba : - 2 ^ d <= - (X / 2 + 1 / 5) <= 0) by lra. destruct (limit_lipschitz d _ _ B1 Ba) as [La Ua]. destruct (limit_lipschitz d _ _ Ba B1) as [_ Ub]. fold a in La, Ub. change (exact_exp s d (- (h + f))) with (exp_approx d (real (- (h + f)))) in Be. set (a' := exp_approx d (real (- (h + f)))) in *.
    assert (La' : Rabs (a' - a) <= 2 * eta). { eapply Rle_trans; [exact La|]. rewrite Rh. apply Rabs_le. lra. } apply Rabs_def2' in La'.
    destruct (damp_top s E HE Hs d a' Ua Hde) as [_ Dt]. pose proof (damp_pos s E HE Hs d a' Ua) as Dp. pose proof (factor_ge s E HE Hs d) as F1. apply Rabs_def2' in Be.
    assert (Bq : Rabs (real e) <= 2) by (apply Rabs_le; lra).
    set (g := a * (factor d - 1) + INR (d + 3) * eta * factor d).
    assert (Bg : Rabs (real e - a) <= g).
    { assert (Dm : damp s E d a' <= a' * (factor d - 1) + INR (S d) * eta * factor d). { unfold damp. pose proof (pos_INR (S d)). assert (0 <= INR (S d) * eta * factor d) by (apply Rmult_le_pos; [apply Rmult_le_pos|]; lra). nra. }
      assert (Id : INR (d + 3) = INR (S d) + 2) by (rewrite plus_INR, (S_INR d); cbn [INR]; lra). unfold g. rewrite Id. assert (a' * (factor d - 1) <= (a + 2 * eta) * (factor d - 1)) by (apply Rmult_le_compat_r; lra). apply Rabs_le. nra. }
    pose proof (proj2 (proj1 He)) as Se. rewrite Se. set (c := encodeQ s (11 # 5)). pose proof (float_real s Hs 11 5 ltac:(lia)) as Bc. fold c in Bc. apply Rabs_def2' in Bc.
    eapply yo_bind; [apply (mulp_real n Hn pr HV s E T HE Hs HT e c ze He); eapply (real_product n Hn s T Hs HT); [exact Bq|apply Rabs_le; instantiate (1 := 3); lra|rewrite R63; apply Grow; lra]|]. intros zm (m & Hm & Bm). apply Rabs_def2' in Bm.
    eapply yo_bind; [apply (div_real n Hn pr HV s E T HE Hs HT v x 1024 ltac:(lia) Hx)|]. intros zk (k & Hk & Bk). fold X in Bk. apply Rabs_def2' in Bk. apply yo_ok. exists (m + f - k)%Z.
    split; [apply (sub_enc_ok n); [apply (add_public n Hn _ _ _ (AFloat (1 # 5)) Logic.I), Hm|apply Hk]|].
    assert (Rw : real (m + f - k) = real m + real f - real k) by (unfold Shareapprox_proofs.real; rewrite minus_IZR, plus_IZR; field; lra). rewrite Rw. apply Rabs_def2' in Bg, Bq.
    assert (Bec : Rabs (real e * (real c - 11 / 5)) <= 2 * / IZR s) by (rewrite Rabs_mult; apply Rmult_le_compat; try apply Rabs_pos; apply Rabs_le; lra). apply Rabs_def2' in Bec. apply Rabs_le. lra.
  Qed.
  Lemma inv_sqrt_real d k v x a b : holds v x -> fits_root (real v) -> real v / 2 + 1 / 5 + 2 * eta <= 2 ^ d -> eta <= 1 / 16 -> INR (S d) * eta <= 1 -> factor d <= 2 ->
    0 <= a <= 1 / 2 -> 0 <= b <= 1 -> a * a * (3 + a) <= b * b * (3 - b) + 2 * wobble s E (real v) -> shrink (wobble s E (real v)) b <= b ->
    1 - b <= sqrt (real v) * (root_estimate d (real v) - root_slack s E d (real v)) -> sqrt (real v) * (root_estimate d (real v) + root_slack s E d (real v)) <= 1 + a -> (1 <= k)%nat ->
    yo T (inv_sqrtv (pr := pr) (within E) d k x) (fun z => exists q, holds q z /\ - wobble s E (real v) <= 1 - sqrt (real v) * real q <= Nat.iter k (shrink (wobble s E (real v))) b).
  Proof.
    intros Hx F Hd E16 Hde F2 Ha Hb Hab Hsh L U Hk. unfold inv_sqrtv. pose proof F as (HX & _). destruct (sqrt_mid _ HX) as (SP & _). eapply yo_bind; [apply (root_initial_real d v x Hx F Hd E16 Hde F2)|]. intros y (w & Hw & B).
    assert (Ru : - a <= 1 - sqrt (real v) * real w <= b).
    { unfold root_estimate, root_slack in L, U. rewrite !limit_is in L, U. rewrite growth_factor in L, U. change (IZR E / IZR s) with eta in L, U. replace (1 + (factor d - 1)) with (factor d) in L, U by ring. apply Rabs_def2' in B.
      set (es := 11 / 5 * exp_approx d (- (real v / 2 + 1 / 5)) + 1 / 5 - real v / 1024) in *. set (sl := 11 / 5 * (exp_approx d (- (real v / 2 + 1 / 5)) * (factor d - 1) + INR (d + 3) * eta * factor d) + 5 * eta) in *.
      assert (sqrt (real v) * (es - sl) <= sqrt (real v) * real w) by (apply Rmult_le_compat_l; lra). assert (sqrt (real v) * real w <= sqrt (real v) * (es + sl)) by (apply Rmult_le_compat_l; lra). lra. }
    assert (Hy : holds w y) by (apply (root_holds (real v) w y F Hw); apply Rabs_le; lra).
    eapply yo_weaken; [apply (roots_real v x Hx F k w y a b Hy); assumption|]. intros z (q & Hq & B'). exists q. split; [exact Hq|]. destruct k; [lia|exact B'].
  Qed.
  Lemma sqrt_real d k v x a b : holds v x -> fits_root (real v) -> real v / 2 + 1 / 5 + 2 * eta <= 2 ^ d -> eta <= 1 / 16 -> INR (S d) * eta <= 1 -> factor d <= 2 ->
    0 <= a <= 1 / 2 -> 0 <= b <= 1 -> a * a * (3 + a) <= b * b * (3 - b) + 2 * wobble s E (real v) -> shrink (wobble s E (real v)) b <= b ->
    1 - b <= sqrt (real v) * (root_estimate d (real v) - root_slack s E d (real v)) -> sqrt (real v) * (root_estimate d (real v) + root_slack s E d (real v)) <= 1 + a -> (1 <= k)%nat -> IZR s * IZR s * (3 / 2 * sqrt (real v)) < IZR H63 ->
    yo T (sqrtv (pr := pr) (within E) d k x) (fun z => exists q, holds q z /\ - (sqrt (real v) * wobble s E (real v) + eta) <= sqrt (real v) - real q <= sqrt (real v) * Nat.iter k (shrink (wobble s E (real v))) b + eta).
  Proof.
    intros Hx F Hd E16 Hde F2 Ha Hb Hab Hsh L U Hk Fq. unfold sqrtv. pose proof F as (HX & HN & _). destruct (sqrt_mid _ HX) as (SP & SS & _). eapply yo_bind; [apply (inv_sqrt_real d k v x a b); assumption|]. intros y (w & Hw & L1 & U1).
    destruct (shrink_iter (real v) b k F Hb Hsh) as [[_ Q1] _]. set (S := sqrt (real v)) in *. set (c := Nat.iter k (shrink (wobble s E (real v))) b) in *. assert (Br : Rabs (S * real w) <= 3 / 2) by (apply Rabs_le; lra).
    pose proof (root_bound _ _ HX Br) as Bw. fold S in Bw.
    eapply yo_weaken; [apply (mul_real n Hn pr HV s E T HE Hs HT w v y x Hw Hx); eapply (real_product n Hn s T Hs HT); [exact Bw|right; apply Rabs_right; lra|]|].
    - replace (3 / 2 * / S * real v) with (3 / 2 * S) by (rewrite <- SS; field; lra). exact Fq.
    - intros z (q & Hq & Bq). exists q. split; [exact Hq|]. apply Rabs_def2' in Bq. assert (Id : S - real w * real v = S * (1 - S * real w)) by (rewrite <- SS; ring). assert (S * (1 - S * real w) <= S * c) by (apply Rmult_le_compat_l; lra). assert (S * - wobble s E (real v) <= S * (1 - S * real w)) by (apply Rmult_le_compat_l; lra). lra.
  Qed.
End Root.

(** *** Weakening of the division checks *)
Section Weak.
  Context {pr : provider}.
  Variable chk : check.
  Lemma root_initialv_weak d x : weaker (root_initialv (pr := pr) chk d x) (root_initialv no_check d x).
  Proof.
    apply weaker_bind; [apply divv_weak|]. intros h. apply weaker_bind; [apply expv_weak|]. intros e. apply weaker_bind; [apply mulpv_weak|]. intros m. apply weaker_bind; [apply divv_weak|]. intros k. apply weaker_refl.
  Qed.
  Lemma root_stepv_weak x y : weaker (root_stepv (pr := pr) chk x y) (root_stepv no_check x y).
  Proof. apply weaker_bind; [apply squarev_weak|]. intros q. apply weaker_bind; [apply mulv_weak|]. intros p. apply weaker_bind; [apply mulv_weak|]. intros m. apply divv_weak. Qed.
  Lemma inv_sqrtv_weak d k x : weaker (inv_sqrtv (pr := pr) chk d k x) (inv_sqrtv no_check d k x).
  Proof. apply weaker_bind; [apply root_initialv_weak|]. intros y. apply weaker_repeat. intros a. apply root_stepv_weak. Qed.
  Lemma sqrtv_weak d k x : weaker (sqrtv (pr := pr) chk d k x) (sqrtv no_check d k x).
  Proof. apply weaker_bind; [apply inv_sqrtv_weak|]. intros y. apply mulv_weak. Qed.
End Weak.

(** *** The first estimate of the default configuration: numbers x in thousandths, powers in units of 10^-9 *)
Definition unit9 : Z := 1000000000.
Definition low8 (x : Z) : Z := Nat.iter 8 (fun c => c * c / unit9)%Z (unit9 * (511600 - x) / 512000)%Z.
Definition up8 (x : Z) : Z := Nat.iter 8 (fun c => c * c / unit9 + 1)%Z (unit9 * (511600 - x) / 512000 + 1)%Z.
Definition piece_fits (A1 A0 q0 q1 x0 x1 : Z) : bool :=
  let l := (216524 * A1 + 19909 * unit9 - x1 * 97656250)%Z in let u := (223476 * A0 + 20091 * unit9 - x0 * 97656250)%Z in
  ((0 <=? l) && (0 <=? u) && (55 * 10 ^ 18 <=? q0 * l) && (q1 * u <=? 139 * 10 ^ 18) && (0 <? x0) && (x0 <? x1) && (x1 <? 511600))%Z.
Local Notation piece_ok x0 x1 := (piece_fits (low8 x1) (up8 x0) (Z.sqrt (x0 * unit9)) (Z.sqrt (x1 * unit9) + 1) x0 x1).
Definition breakpoints : list Z := [100; 280; 602; 800; 950; 1081; 1208; 1344; 1506; 1720; 2045; 2642; 4124; 6209; 8116; 11516; 37904; 71928; 113159; 150000]%Z.
Lemma pieces_ok : forallb (fun p => (fun x0 x1 => piece_ok x0 x1) (fst p) (snd p)) (combine breakpoints (tl breakpoints)) = true.
Proof. vm_compute. reflexivity. Qed.

Lemma unit_pos : 0 < IZR unit9. Proof. apply (IZR_lt 0). reflexivity. Qed.
Lemma floor_le a b : (0 < b)%Z -> IZR (a / b) <= IZR a / IZR b /\ IZR a / IZR b <= IZR (a / b + 1).
Proof.
  intros H. apply IZR_lt in H as H'. pose proof (Z.mul_div_le a b H) as L. pose proof (Z.mul_succ_div_gt a b H) as U. apply IZR_le in L. apply IZR_lt in U. rewrite mult_IZR in *. unfold Z.succ in U. rewrite !plus_IZR in *.
  assert (Id : IZR a / IZR b * IZR b = IZR a) by (field; lra). split; apply (Rmult_le_reg_r (IZR b)); lra.
Qed.
Lemma low_square c a : (0 <= c)%Z -> IZR c <= IZR unit9 * a -> (0 <= c * c / unit9)%Z /\ IZR (c * c / unit9) <= IZR unit9 * (a * a).
Proof.
  intros C L. split; [apply Z.div_pos; [nia|reflexivity]|]. pose proof unit_pos as P. destruct (floor_le (c * c) unit9 ltac:(reflexivity)) as [F _]. eapply Rle_trans; [exact F|]. rewrite mult_IZR. apply (Rmult_le_reg_r (IZR unit9)); [exact P|]. replace (IZR c * IZR c / IZR unit9 * IZR unit9) with (IZR c * IZR c) by (field; lra).
  replace (IZR unit9 * (a * a) * IZR unit9) with (IZR unit9 * a * (IZR unit9 * a)) by ring. apply (IZR_le 0) in C. apply Rmult_le_compat; assumption.
Qed.
Lemma up_square c a : 0 <= a -> IZR unit9 * a <= IZR c -> IZR unit9 * (a * a) <= IZR (c * c / unit9 + 1).
Proof.
  intros A U. pose proof unit_pos as P. destruct (floor_le (c * c) unit9 ltac:(reflexivity)) as [_ F]. eapply Rle_trans; [|exact F]. rewrite mult_IZR. apply (Rmult_le_reg_r (IZR unit9)); [exact P|]. replace (IZR c * IZR c / IZR unit9 * IZR unit9) with (IZR c * IZR c) by (field; lra).
  replace (IZR unit9 * (a * a) * IZR unit9) with (IZR unit9 * a * (IZR unit9 * a)) by ring. assert (0 <= IZR unit9 * a) by (apply Rmult_le_pos; lra). apply Rmult_le_compat; assumption.
Qed.
Lemma low_squares k c a : (0 <= c)%Z -> IZR c <= IZR unit9 * a -> (0 <= Nat.iter k (fun c => c * c / unit9)%Z c)%Z /\ IZR (Nat.iter k (fun c => c * c / unit9)%Z c) <= IZR unit9 * squares k a.
Proof. intros C L. induction k as [|k [IH1 IH2]]; [split; assumption|]. cbn [Nat.iter nat_rect] in *. rewrite squares_S. now apply low_square. Qed.
Lemma up_squares k c a : 0 <= a -> IZR unit9 * a <= IZR c -> IZR unit9 * squares k a <= IZR (Nat.iter k (fun c => c * c / unit9 + 1)%Z c).
Proof. intros A U. induction k as [|k IH]; [exact U|]. rewrite squares_S. cbn [Nat.iter nat_rect] in *. apply up_square; [|exact IH]. destruct k; [exact A|rewrite squares_S; apply Rle_0_sqr]. Qed.
Lemma base_is X : 1 + - (X / 2 + 1 / 5) / 2 ^ 8 = (511600 - 1000 * X) / 512000. Proof. replace (2 ^ 8) with 256 by lra. field. Qed.
Lemma squares_mono k a b : 0 <= a <= b -> squares k a <= squares k b.
Proof. intros H. induction k as [|k IH]; [cbn; lra|]. rewrite !squares_S. assert (0 <= squares k a) by (destruct k; [cbn; lra|rewrite squares_S; apply Rle_0_sqr]). apply Rmult_le_compat; assumption. Qed.
Lemma low_is x X : (x <= 511600)%Z -> 1000 * X <= IZR x -> IZR (low8 x) <= IZR unit9 * exp_approx 8 (- (X / 2 + 1 / 5)).
Proof.
  intros L1 HX. change (exp_approx 8 (- (X / 2 + 1 / 5))) with (squares 8 (1 + - (X / 2 + 1 / 5) / 2 ^ 8)). rewrite base_is. apply (low_squares 8).
  - apply Z.div_pos; [unfold unit9; lia|lia].
  - destruct (floor_le (unit9 * (511600 - x)) 512000 ltac:(lia)) as [F _]. eapply Rle_trans; [exact F|]. rewrite mult_IZR, minus_IZR. pose proof unit_pos. assert (IZR unit9 * (511600 - IZR x) <= IZR unit9 * (511600 - 1000 * X)) by (apply Rmult_le_compat_l; lra). lra.
Qed.
Lemma up_is x X : 0 <= 511600 - 1000 * X -> IZR x <= 1000 * X -> IZR unit9 * exp_approx 8 (- (X / 2 + 1 / 5)) <= IZR (up8 x).
Proof.
  intros L1 HX. change (exp_approx 8 (- (X / 2 + 1 / 5))) with (squares 8 (1 + - (X / 2 + 1 / 5) / 2 ^ 8)). rewrite base_is. apply (up_squares 8); [lra|].
  destruct (floor_le (unit9 * (511600 - x)) 512000 ltac:(lia)) as [_ F]. eapply Rle_trans; [|exact F]. rewrite mult_IZR, minus_IZR. pose proof unit_pos. assert (IZR unit9 * (511600 - 1000 * X) <= IZR unit9 * (511600 - IZR x)) by (apply Rmult_le_compat_l; lra). lra.
Qed.
Lemma sqrt_low x X : (0 < x)%Z -> IZR x <= 1000 * X -> IZR (Z.sqrt (x * unit9)) <= 1000000 * sqrt X.
Proof.
  intros Hx H. apply IZR_lt in Hx as Hx'. destruct (sqrt_mid X ltac:(lra)) as (P & S & _). destruct (Z.sqrt_spec (x * unit9) ltac:(unfold unit9; lia)) as [L _]. apply IZR_le in L. rewrite !mult_IZR in L. change (IZR unit9) with 1000000000 in L. assert (Q : 0 <= IZR (Z.sqrt (x * unit9))) by (apply (IZR_le 0), Z.sqrt_nonneg).
  apply Rsqr_incr_0_var; [|lra]. unfold Rsqr. replace (1000000 * sqrt X * (1000000 * sqrt X)) with (1000000000000 * (sqrt X * sqrt X)) by ring. rewrite S. lra.
Qed.
Lemma sqrt_high x X : 0 < X -> 1000 * X <= IZR x -> 1000000 * sqrt X <= IZR (Z.sqrt (x * unit9) + 1).
Proof.
  intros HX H. destruct (sqrt_mid X HX) as (P & S & _). assert (Hx : (0 < x)%Z) by (apply lt_IZR; lra). destruct (Z.sqrt_spec (x * unit9) ltac:(unfold unit9; lia)) as [_ U]. unfold Z.succ in U. apply IZR_lt in U. rewrite !mult_IZR in U. change (IZR unit9) with 1000000000 in U. assert (Q : 0 <= IZR (Z.sqrt (x * unit9) + 1)) by (apply (IZR_le 0); pose proof (Z.sqrt_nonneg (x * unit9)); lia).
  apply Rsqr_incr_0_var; [|exact Q]. unfold Rsqr. replace (1000000 * sqrt X * (1000000 * sqrt X)) with (1000000000000 * (sqrt X * sqrt X)) by ring. rewrite S. lra.
Qed.
Lemma piece_core (l u A1 A0 x0 x1 q0 q1 X a : R) : l = 216524 * A1 + 19909000000000 - x1 * 97656250 -> u = 223476 * A0 + 20091000000000 - x0 * 97656250 -> 0 <= l -> 0 <= u -> 0 <= q0 -> 55000000000000000000 <= q0 * l -> q1 * u <= 139000000000000000000 ->
  0 < X -> x0 <= 1000 * X <= x1 -> A1 <= 1000000000 * a -> 1000000000 * a <= A0 -> q0 <= 1000000 * sqrt X -> 1000000 * sqrt X <= q1 ->
  55 / 100 <= sqrt X * (11 / 5 * a + 1 / 5 - X / 1024 - (11 / 5 * (a * (158 / 10000)) + 91 / 100000)) /\ sqrt X * (11 / 5 * a + 1 / 5 - X / 1024 + (11 / 5 * (a * (158 / 10000)) + 91 / 100000)) <= 139 / 100.
Proof.
  intros Rl Ru K1 K2 Q0 K3 K4 HX [B0 B1] La Ua Ls Us. destruct (sqrt_mid X HX) as (P & _). split.
  - set (y := 11 / 5 * a + 1 / 5 - X / 1024 - (11 / 5 * (a * (158 / 10000)) + 91 / 100000)). assert (Y : l <= 100000000000000 * y) by (unfold y; lra).
    assert (q0 * l <= 1000000 * sqrt X * (100000000000000 * y)) by (apply Rmult_le_compat; assumption). clearbody y. lra.
  - set (y := 11 / 5 * a + 1 / 5 - X / 1024 + (11 / 5 * (a * (158 / 10000)) + 91 / 100000)). assert (Y : 100000000000000 * y <= u) by (unfold y; lra). clearbody y.
    assert (1000000 * sqrt X * (100000000000000 * y) <= q1 * u); [|lra]. destruct (Rle_dec 0 y) as [Yp|Yn]; [apply Rmult_le_compat; lra|].
    apply Rle_trans with 0; [assert (0 <= sqrt X * - y) by (apply Rmult_le_pos; lra); lra|]. apply Rmult_le_pos; [lra|assumption].
Qed.
Lemma piece_Z (A1 A0 q0 q1 x0 x1 : Z) X a : piece_fits A1 A0 q0 q1 x0 x1 = true -> (0 <= q0)%Z -> IZR x0 <= 1000 * X <= IZR x1 ->
  IZR A1 <= IZR unit9 * a -> IZR unit9 * a <= IZR A0 -> IZR q0 <= 1000000 * sqrt X -> 1000000 * sqrt X <= IZR q1 ->
  55 / 100 <= sqrt X * (11 / 5 * a + 1 / 5 - X / 1024 - (11 / 5 * (a * (158 / 10000)) + 91 / 100000)) /\ sqrt X * (11 / 5 * a + 1 / 5 - X / 1024 + (11 / 5 * (a * (158 / 10000)) + 91 / 100000)) <= 139 / 100.
Proof.
  intros K Q0 B La Ua Ls Us. unfold piece_fits in K. set (l := (216524 * A1 + 19909 * unit9 - x1 * 97656250)%Z) in K. set (u := (223476 * A0 + 20091 * unit9 - x0 * 97656250)%Z) in K. cbv zeta in K. change (IZR unit9) with 1000000000 in La, Ua. rewrite !andb_true_iff in K. destruct K as ((((((K1 & K2) & K3) & K4) & K5) & K6) & K7). apply Z.leb_le in K1, K2, K3, K4. apply Z.ltb_lt in K5, K6, K7. apply IZR_lt in K5. apply IZR_le in K1, K2, K3, K4, Q0. rewrite (mult_IZR q0) in K3. rewrite (mult_IZR q1) in K4.
  replace (55 * 10 ^ 18)%Z with 55000000000000000000%Z in K3 by reflexivity. replace (139 * 10 ^ 18)%Z with 139000000000000000000%Z in K4 by reflexivity.
  refine (piece_core (IZR l) (IZR u) (IZR A1) (IZR A0) (IZR x0) (IZR x1) (IZR q0) (IZR q1) X a _ _ K1 K2 Q0 K3 K4 _ B La Ua Ls Us); [| |lra].
  - unfold l. rewrite minus_IZR, plus_IZR, !mult_IZR. change (IZR unit9) with 1000000000. lra.
  - unfold u. rewrite minus_IZR, plus_IZR, !mult_IZR. change (IZR unit9) with 1000000000. lra.
Qed.
Lemma piece_bounds A1 A0 q0 q1 x0 x1 : piece_fits A1 A0 q0 q1 x0 x1 = true -> (0 < x0 /\ x0 < x1 /\ x1 < 511600)%Z.
Proof. unfold piece_fits. cbv zeta. intros K. apply andb_prop in K as [K K3]. apply andb_prop in K as [K K2]. apply andb_prop in K as [_ K1]. apply Z.ltb_lt in K1, K2, K3. auto. Qed.
Lemma piece x0 x1 X : piece_ok x0 x1 = true -> IZR x0 <= 1000 * X <= IZR x1 -> let a := exp_approx 8 (- (X / 2 + 1 / 5)) in
  55 / 100 <= sqrt X * (11 / 5 * a + 1 / 5 - X / 1024 - (11 / 5 * (a * (158 / 10000)) + 91 / 100000)) /\ sqrt X * (11 / 5 * a + 1 / 5 - X / 1024 + (11 / 5 * (a * (158 / 10000)) + 91 / 100000)) <= 139 / 100.
Proof.
  intros K B a. destruct (piece_bounds _ _ _ _ x0 x1 K) as (K5 & K6 & K7). apply IZR_lt in K5 as X0. apply IZR_lt in K7 as X1. destruct B as [B0 B1].
  assert (L : IZR (low8 x1) <= IZR unit9 * a) by (apply low_is; [lia|exact B1]). assert (U : IZR unit9 * a <= IZR (up8 x0)) by (apply up_is; [lra|exact B0]).
  pose proof (sqrt_low x0 X K5 B0) as Sl. assert (Su : 1000000 * sqrt X <= IZR (Z.sqrt (x1 * unit9) + 1)) by (apply sqrt_high; [lra|exact B1]). clearbody a. pose proof (Z.sqrt_nonneg (x0 * unit9)) as Q.
  exact (piece_Z (low8 x1) (up8 x0) (Z.sqrt (x0 * unit9)) (Z.sqrt (x1 * unit9) + 1) x0 x1 X a K Q (conj B0 B1) L U Sl Su).
Qed.
Lemma in_pieces (f : Z -> Z -> bool) : forall l X, forallb (fun p => f (fst p) (snd p)) (combine l (tl l)) = true -> (2 <= length l)%nat -> IZR (hd 0%Z l) <= 1000 * X <= IZR (last l 0%Z) -> exists x0 x1, f x0 x1 = true /\ IZR x0 <= 1000 * X <= IZR x1.
Proof.
  induction l as [|a [|b l] IH]; intros X K L B; try (cbn in L; lia). cbn [tl combine forallb fst snd] in K. apply andb_prop in K as [K1 K2]. destruct (Rle_dec (1000 * X) (IZR b)) as [Y|Y]; [exists a, b; cbn [hd] in B; split; [exact K1|lra]|].
  destruct l as [|c l]; [cbn [last] in B; lra|]. apply (IH X K2); [cbn; lia|]. cbn [hd]. split; [lra|]. apply B.
Qed.
Lemma default_estimate X : 1 / 10 <= X <= 150 -> let a := exp_approx 8 (- (X / 2 + 1 / 5)) in
  55 / 100 <= sqrt X * (11 / 5 * a + 1 / 5 - X / 1024 - (11 / 5 * (a * (158 / 10000)) + 91 / 100000)) /\ sqrt X * (11 / 5 * a + 1 / 5 - X / 1024 + (11 / 5 * (a * (158 / 10000)) + 91 / 100000)) <= 139 / 100.
Proof.
  intros B. destruct (in_pieces (fun x0 x1 => piece_ok x0 x1) breakpoints X pieces_ok ltac:(cbn; lia)) as (x0 & x1 & K & I); [change (hd 0%Z breakpoints) with 100%Z; change (last breakpoints 0%Z) with 150000%Z; lra|]. exact (piece x0 x1 X K I).
Qed.
Lemma three_shrinks N : 0 <= N <= 7 / 1000 -> Nat.iter 3 (shrink N) (45 / 100) <= 13 / 1000 + 3 * N.
Proof.
  intros H. cbn [Nat.iter nat_rect]. assert (B1 : 0 <= shrink N (45 / 100) <= 2582 / 10000 + 2 * N) by (unfold shrink; lra).
  assert (B2 : 0 <= shrink N (shrink N (45 / 100)) <= 915 / 10000 + 7 / 2 * N). { set (b := shrink N (45 / 100)) in *. clearbody b. pose proof (cubic_mono b (2582 / 10000 + 2 * N) ltac:(lra) ltac:(lra)) as M. unfold shrink. split; [nra|]. assert ((2582 / 10000 + 2 * N) * (2582 / 10000 + 2 * N) * (3 - (2582 / 10000 + 2 * N)) / 2 <= 915 / 10000 + 3 / 2 * N) by nra. lra. }
  set (b := shrink N (shrink N (45 / 100))) in *. clearbody b. pose proof (cubic_mono b (915 / 10000 + 7 / 2 * N) ltac:(lra) ltac:(lra)) as M. unfold shrink. assert ((915 / 10000 + 7 / 2 * N) * (915 / 10000 + 7 / 2 * N) * (3 - (915 / 10000 + 7 / 2 * N)) / 2 <= 13 / 1000 + N) by nra. lra.
Qed.

(** *** Claims *)
Section Claims.
  Variables (n : nat) (pr : provider).
  Hypothesis Hn : (0 < n)%nat.
  Hypothesis HV : valid n pr.
  (** the conditions under which the analysis applies: the numbers fit, and the first estimate (with its rounding) is between (1 - b) / sqrt(x) and (1 + a) / sqrt(x) *)
  Definition root_converges (s E : Z) (d : nat) (X a b : R) : Prop :=
    0 < X /\ wobble s E X <= 1 / 2 /\ IZR s * IZR s * (8 * (1 + / X)) < 2 ^ 63 /\ IZR s * IZR s * (3 / 2 * sqrt X) < 2 ^ 63 /\ X / 2 + 1 / 5 + 2 * (IZR E / IZR s) <= 2 ^ d /\ IZR E / IZR s <= 1 / 16 /\ INR (S d) * (IZR E / IZR s) <= 1 /\ exp_growth s E d <= 1 /\
    0 <= a <= 1 / 2 /\ 0 <= b <= 1 /\ a * a * (3 + a) <= b * b * (3 - b) + 2 * wobble s E X /\ shrink (wobble s E X) b <= b /\
    1 - b <= sqrt X * (root_estimate d X - root_slack s E d X) /\ sqrt X * (root_estimate d X + root_slack s E d X) <= 1 + a.
  Lemma roots_yo T s E d k x a b : (1 <= E)%Z -> (1 < s)%Z -> (T = true -> n = 1%nat) -> sharing n x -> n_sc x = s -> root_converges s E d (rval x) a b -> (1 <= k)%nat -> let X := rval x in let c := Nat.iter k (shrink (wobble s E X)) b in
    yo T (inv_sqrtv (pr := pr) (within E) d k x) (fun z => n_sc z = s /\ - wobble s E X <= 1 - sqrt X * rval z <= c) /\
    yo T (sqrtv (pr := pr) (within E) d k x) (fun z => n_sc z = s /\ - (sqrt X * wobble s E X + IZR E / IZR s) <= sqrt X - rval z <= sqrt X * c + IZR E / IZR s).
  Proof.
    intros HE Hs HT Hx Sx (C1 & C2 & C3 & C4 & C5 & C6 & C7 & C8 & C9 & C10 & C11 & C12 & C13 & C14) Hk X c. destruct (holds_rval n s x Hx Sx) as [Hv Rv]. set (v := open_a (n_sh x)) in *. subst c X. rewrite <- Rv in *. assert (R63 : 2 ^ 63 = IZR H63) by (change (IZR H63) with (IZR 9223372036854775808); lra). rewrite R63 in *. rewrite growth_factor in C8.
    split; [eapply yo_weaken; [apply (inv_sqrt_real n Hn pr HV s E T HE Hs HT d k v x a b); try assumption; [split; [assumption|split; assumption]|lra]|]|eapply yo_weaken; [apply (sqrt_real n Hn pr HV s E T HE Hs HT d k v x a b); try assumption; [split; [assumption|split; assumption]|lra]|]];
      intros z (q & Hq & B); destruct (rval_holds n Hn s q z Hs Hq) as [Sz Rz]; rewrite Rz; (split; [exact Sz|exact B]).
  Qed.
  (** C101: inv_sqrt and sqrt on an encrypted number, [d] iterations of exp and [k] of Newton's method. *)
  Lemma k_C101_roots s E d k x a b st z w : (1 <= E)%Z -> (1 < s)%Z -> sharing n x -> n_sc x = s -> root_converges s E d (rval x) a b -> (1 <= k)%nat -> let X := rval x in let c := Nat.iter k (shrink (wobble s E X)) b in
    fst (inv_sqrtv (pr := pr) (within E) d k x st) = Some z -> fst (sqrtv (pr := pr) (within E) d k x st) = Some w ->
    fst (inv_sqrtv (pr := pr) no_check d k x st) = Some z /\ fst (sqrtv (pr := pr) no_check d k x st) = Some w /\ n_sc z = s /\ n_sc w = s /\
    - wobble s E X <= 1 - sqrt X * rval z <= c /\ - (sqrt X * wobble s E X + IZR E / IZR s) <= sqrt X - rval w <= sqrt X * c + IZR E / IZR s.
  Proof.
    intros HE Hs Hx Sx C Hk X c Hz Hw. destruct (roots_yo false s E d k x a b HE Hs ltac:(discriminate) Hx Sx C Hk) as [Y1 Y2]. destruct (yo_some _ _ _ _ _ Y1 Hz) as [S1 B1]. destruct (yo_some _ _ _ _ _ Y2 Hw) as [S2 B2].
    split; [eapply weaker_fst; [apply inv_sqrtv_weak|exact Hz]|]. split; [eapply weaker_fst; [apply sqrtv_weak|exact Hw]|]. auto.
  Qed.
  Lemma default_converges E X : (E = 1 \/ E = 2)%Z -> 1 / 10 <= X <= 150 -> root_converges 65536 E 8 X (39 / 100) (45 / 100) /\ Nat.iter 3 (shrink (wobble 65536 E X)) (45 / 100) <= 13 / 1000 + 3 * wobble 65536 E X /\ 0 <= wobble 65536 E X.
  Proof.
    intros HE B. destruct (default_growth E HE) as [G8 _]. assert (E12 : 1 <= IZR E <= 2) by (destruct HE as [-> | ->]; lra). assert (G0 : 0 <= exp_growth 65536 E 8) by (rewrite growth_factor; pose proof (factor_ge 65536 E ltac:(lia) ltac:(lia) 8); lra).
    assert (N : 0 <= wobble 65536 E X <= 7 / 1000) by (unfold wobble; nra). destruct (default_estimate X B) as [L U]. destruct (sqrt_mid X ltac:(lra)) as (SP & SS & S1 & SI). set (a := exp_approx 8 (- (X / 2 + 1 / 5))) in *.
    assert (A : 0 <= a <= 1). { destruct (limit_lipschitz 8 (- (X / 2 + 1 / 5)) 0 ltac:(lra) ltac:(lra)) as [_ V]. exact V. }
    assert (Sl : root_slack 65536 E 8 X <= 11 / 5 * (a * (158 / 10000)) + 91 / 100000).
    { unfold root_slack. rewrite limit_is. fold a. replace (INR (8 + 3)) with 11 by (cbn; lra). set (G := exp_growth 65536 E 8) in *. assert (a * G <= a * (158 / 10000)) by (apply Rmult_le_compat_l; lra). assert (E1 : IZR E / 65536 <= 2 / 65536) by lra. assert (11 * (IZR E / 65536) * (1 + G) <= 11 * (2 / 65536) * (1 + 158 / 10000)) by (apply Rmult_le_compat; lra). lra. }
    assert (I10 : / X <= 10) by (rewrite <- (Rinv_inv 10); apply Rinv_le_contravar; lra).
    split; [|split; [apply three_shrinks; exact N|apply N]]. unfold root_converges. replace (INR 9) with 9 by (cbn; lra). unfold root_estimate. rewrite limit_is. fold a.
    repeat match goal with |- _ /\ _ => split end; try lra; try (unfold shrink; lra).
    - eapply Rle_trans; [|apply Rmult_le_compat_l; [lra|]]; [|]. 2: instantiate (1 := 11 / 5 * a + 1 / 5 - X / 1024 - (11 / 5 * (a * (158 / 10000)) + 91 / 100000)); lra. lra.
    - eapply Rle_trans; [apply Rmult_le_compat_l; [lra|]|]; [instantiate (1 := 11 / 5 * a + 1 / 5 - X / 1024 + (11 / 5 * (a * (158 / 10000)) + 91 / 100000)); lra|lra].
  Qed.
  Lemma default_yo T E x : (E = 1 \/ E = 2)%Z -> (T = true -> n = 1%nat) -> sharing n x -> n_sc x = 65536%Z -> let X := rval x in let e := 13 / 1000 + 9 / 2 * (IZR E / 65536) * (X + 1) in 1 / 10 <= X <= 150 ->
    yo T (inv_sqrtv (pr := pr) (within E) 8 3 x) (fun z => Rabs (rval z - / sqrt X) <= e / sqrt X) /\ yo T (sqrtv (pr := pr) (within E) 8 3 x) (fun w => Rabs (rval w - sqrt X) <= e * sqrt X + IZR E / 65536).
  Proof.
    intros HE HT Hx Sx X e B. destruct (default_converges E X HE B) as (C & I & N0). destruct (roots_yo T 65536 E 8 3 x _ _ ltac:(lia) ltac:(lia) HT Hx Sx C ltac:(lia)) as [Y1 Y2]. fold X in Y1, Y2. set (c := Nat.iter 3 (shrink (wobble 65536 E X)) (45 / 100)) in *. destruct (sqrt_mid X ltac:(lra)) as (SP & SS & _).
    assert (Ee : 13 / 1000 + 3 * wobble 65536 E X = e) by (unfold e, wobble; lra). set (N := wobble 65536 E X) in *. split; [eapply yo_weaken; [exact Y1|]|eapply yo_weaken; [exact Y2|]]; intros z [_ [L U]].
    - replace (rval z - / sqrt X) with (- ((1 - sqrt X * rval z) * / sqrt X)) by (field; lra). rewrite Rabs_Ropp, Rabs_mult, (Rabs_right (/ sqrt X)) by (left; now apply Rinv_0_lt_compat). apply Rmult_le_compat_r; [left; now apply Rinv_0_lt_compat|]. apply Rabs_le. lra.
    - assert (sqrt X * N <= sqrt X * e) by (apply Rmult_le_compat_l; lra). assert (sqrt X * c <= sqrt X * e) by (apply Rmult_le_compat_l; lra). apply Rabs_le. lra.
  Qed.
  (** C101: the default configuration, from 1/10 to 150. *)
  Lemma k_C101_default E x st : (E = 1 \/ E = 2)%Z -> sharing n x -> n_sc x = 65536%Z -> let X := rval x in let e := 13 / 1000 + 9 / 2 * (IZR E / 65536) * (X + 1) in 1 / 10 <= X <= 150 ->
    (forall z, fst (inv_sqrtv (pr := pr) (within E) 8 3 x st) = Some z -> fst (inv_sqrtv (pr := pr) no_check 8 3 x st) = Some z /\ Rabs (rval z - / sqrt X) <= e / sqrt X) /\
    (forall w, fst (sqrtv (pr := pr) (within E) 8 3 x st) = Some w -> fst (sqrtv (pr := pr) no_check 8 3 x st) = Some w /\ Rabs (rval w - sqrt X) <= e * sqrt X + IZR E / 65536).
  Proof.
    intros HE Hx Sx X e B. destruct (default_yo false E x HE ltac:(discriminate) Hx Sx B) as [Y1 Y2]. split; intros z Hz.
    - split; [eapply weaker_fst; [apply inv_sqrtv_weak|exact Hz]|exact (yo_some _ _ _ _ _ Y1 Hz)].
    - split; [eapply weaker_fst; [apply sqrtv_weak|exact Hz]|exact (yo_some _ _ _ _ _ Y2 Hz)].
  Qed.
  (** C101: with one party no assumption on the truncations is needed. *)
  Lemma k_C101_one_party x st : n = 1%nat -> sharing n x -> n_sc x = 65536%Z -> let X := rval x in let e := 13 / 1000 + 9 / 2 * (1 / 65536) * (X + 1) in 1 / 10 <= X <= 150 ->
    (exists z, fst (inv_sqrtv (pr := pr) no_check 8 3 x st) = Some z /\ Rabs (rval z - / sqrt X) <= e / sqrt X) /\ (exists w, fst (sqrtv (pr := pr) no_check 8 3 x st) = Some w /\ Rabs (rval w - sqrt X) <= e * sqrt X + 1 / 65536).
  Proof.
    intros N1 Hx Sx X e B. destruct (default_yo true 1 x (or_introl eq_refl) (fun _ => N1) Hx Sx B) as [Y1 Y2]. destruct (yo_true _ _ st Y1) as (z & Ez & Bz). destruct (yo_true _ _ st Y2) as (w & Ew & Bw).
    split; [exists z; split; [eapply weaker_fst; [apply inv_sqrtv_weak|exact Ez]|exact Bz]|exists w; split; [eapply weaker_fst; [apply sqrtv_weak|exact Ew]|exact Bw]].
  Qed.
  (** C101: the rounding does not grow with the iterations: whatever their number, the error stays below the b of the start, and what one more iteration leaves of it is its cubic plus twice the rounding of one step. *)
  Lemma k_C101_iterations s E d X a b k : (1 <= E)%Z -> (1 < s)%Z -> root_converges s E d X a b -> let c := Nat.iter k (shrink (wobble s E X)) b in 0 <= c <= b /\ Nat.iter (S k) (shrink (wobble s E X)) b <= c.
  Proof.
    intros HE Hs (C1 & C2 & C3 & C4 & C5 & C6 & C7 & C8 & C9 & C10 & C11 & C12 & C13 & C14) c. assert (R63 : 2 ^ 63 = IZR H63) by (change (IZR H63) with (IZR 9223372036854775808); lra). rewrite R63 in *.
    exact (shrink_iter s E HE Hs X b k (conj C1 (conj C2 C3)) C10 C12).
  Qed.
End Claims.

(** C101 refuted outside: with one party sqrt(200) is given as 3.1, sqrt(256) as -16, sqrt(0.01) as 0.06, and inv_sqrt(256) as -0.06. *)
Definition hundredth : num := mkNum [655%Z] 65536.
Lemma k_C101_far_refuted : exists pr st, valid 1 pr /\
  (exists x z, sharing 1 x /\ n_sc x = 65536%Z /\ rval x = 200 /\ fst (sqrtv (pr := pr) no_check 8 3 x st) = Some z /\ rval z < 4) /\
  (exists x y z, sharing 1 x /\ n_sc x = 65536%Z /\ rval x = 256 /\ fst (inv_sqrtv (pr := pr) no_check 8 3 x st) = Some y /\ rval y < - (1 / 16) /\ fst (sqrtv (pr := pr) no_check 8 3 x st) = Some z /\ rval z < - 16) /\
  (exists x z, sharing 1 x /\ n_sc x = 65536%Z /\ 999 / 100000 <= rval x <= 1 / 100 /\ fst (sqrtv (pr := pr) no_check 8 3 x st) = Some z /\ rval z < 61 / 1000).
Proof.
  exists alone, tt. split; [exact alone_valid|]. split; [|split].
  - destruct (number_ok 200 ltac:(lia)) as (A & B & C). destruct (run_gives 200 (sqrtv (pr := alone) no_check 8 3 (number 200)) 204600 ltac:(vm_compute; reflexivity) ltac:(lia)) as (z & Z1 & Z2). exists (number 200), z. rewrite Z2. repeat (split; [assumption|]). lra.
  - destruct (number_ok 256 ltac:(lia)) as (A & B & C). destruct (run_gives 256 (inv_sqrtv (pr := alone) no_check 8 3 (number 256)) (-4098) ltac:(vm_compute; reflexivity) ltac:(lia)) as (y & Y1 & Y2). destruct (run_gives 256 (sqrtv (pr := alone) no_check 8 3 (number 256)) (-1049088) ltac:(vm_compute; reflexivity) ltac:(lia)) as (z & Z1 & Z2).
    exists (number 256), y, z. rewrite Y2, Z2. repeat (split; [assumption|]). split; [lra|]. split; [assumption|lra].
  - destruct (run_gives 1 (sqrtv (pr := alone) no_check 8 3 hundredth) 3963 ltac:(vm_compute; reflexivity) ltac:(lia)) as (z & Z1 & Z2). exists hundredth, z. rewrite Z2. assert (I : in64 655) by (unfold in64, H63; lia).
    split; [split; [reflexivity|split; [constructor; [exact I|constructor]|reflexivity]]|]. split; [reflexivity|]. split; [|split; [assumption|lra]]. unfold rval, hundredth. cbn [n_sh n_sc]. unfold open_a. cbn [fold_left]. unfold wadd. rewrite Z.add_0_l, wrap_id by exact I. lra.
Qed.

(** Proofs of C107: reciprocal on shares by both methods. *)
Require Import ZArith QArith Qreals List Bool Lia Reals Lra Psatz.
From Verif Require Import Rtensor_proofs Realgrad_claims Approx Approx_claims Approxfn_claims Enclose Approxlog_claims Approxsoft_claims.
From Verif Require Import Ring64 Encoder Arith Arith_proofs Beaver Trunc Provider Binary Binary_proofs Convert_proofs Compare Compare_proofs Compare_claims Maximum Maximum_proofs Maximum_claims Regular Regular_proofs Regular_claims Shareapprox Shareapprox_proofs Shareapprox_claims Sharesoft Sharesoft_claims Shareroot_claims Sharepoly_claims Sharelog Sharelog_claims Sharerecip.
Import ListNotations.
Open Scope R_scope.

(** *** Specification *)
(** the error of log on shares (C103) *)
Definition log_error (E : Z) (X : R) : R := 2 / 100 * Rabs (ln X) + 1 / 1000 + log_noise E X.
(** relative error of exp(-log X): the error of log moves the argument of exp, whose own error is quadratic in it, and there are the roundings of exp *)
Definition recip_log_error (E : Z) (X : R) : R := 5 / 4 * (log_error E X + (Rabs (ln X) + 1 / 5) * (Rabs (ln X) + 1 / 5) / 256 + 79 / 10000 * IZR E) + 14 / 100000 * IZR E * X.
(** relative error of Newton's method (C80) *)
Definition recip_newton_error (E : Z) (X : R) : R := X * (X + 1) * (IZR E / 65536) + 1 / 500.
(** the default configuration, up to the method and all_pos *)
Definition usual (me : rmethod) (pos : bool) : rconfig := mkRconfig me pos 8 10 2 8 8.
(** the range of each method and its error *)
Definition recip_range (me : rmethod) (E : Z) (X : R) : Prop := match me with ByNewton => (E = 1 \/ E = 2)%Z /\ 1 / 100 <= X <= 30 | ByLog => log_range E X | ByOther => False end.
Definition recip_error (me : rmethod) (E : Z) (X : R) : R := match me with ByNewton => recip_newton_error E X | _ => recip_log_error E X end.

(** *** The reals *)
Lemma ln_7 X : 1 / 1000 <= X <= 127 -> Rabs (ln X) <= 7 /\ (1 / 5 <= X -> Rabs (ln X) <= 5).
Proof.
  intros B. assert (U : ln X <= 5). { apply ln_le'; [lra|]. apply Rle_trans with 127; [lra|]. apply (e_above 14 (iz 5) (iz 127)); [vm_compute; reflexivity|apply (e_z 5)|apply (e_z 127)]. }
  assert (L : forall t, exp (- t) <= X -> - t <= ln X). { intros t H. rewrite <- (ln_exp (- t)). destruct H as [H|H]; [left; apply ln_increasing; [apply exp_pos|exact H]|rewrite H; lra]. }
  assert (I : forall t c, 0 < c -> c <= exp t -> exp (- t) <= / c). { intros t c Hc H. rewrite exp_Ropp. apply Rinv_le_contravar; assumption. }
  assert (E7 : 1000 <= exp 7) by (apply (e_above 14 (iz 7) (iz 1000)); [vm_compute; reflexivity|apply (e_z 7)|apply (e_z 1000)]). pose proof (I 7 1000 ltac:(lra) E7).
  assert (E5 : 127 <= exp 5) by (apply (e_above 14 (iz 5) (iz 127)); [vm_compute; reflexivity|apply (e_z 5)|apply (e_z 127)]). pose proof (I 5 127 ltac:(lra) E5).
  split; [|intros H5]; apply Rabs_le; [pose proof (L 7 ltac:(lra))|pose proof (L 5 ltac:(lra))]; lra.
Qed.
Lemma log_error_small E X : log_range E X -> 0 <= log_error E X <= 1 / 5.
Proof.
  intros H. unfold log_error, log_noise. pose proof (Rabs_pos (ln X)). destruct H as [[-> B]|[-> B]]; [destruct (ln_7 X B) as [L _]|destruct (ln_7 X ltac:(lra)) as [_ L]; specialize (L ltac:(lra))]; lra.
Qed.
Lemma exp_close t d : Rabs t <= d -> d <= 1 / 5 -> Rabs (exp t - 1) <= 5 / 4 * d /\ exp t <= 5 / 4.
Proof.
  intros B D. apply Rabs_def2' in B. pose proof (exp_ineq1_le t) as L. pose proof (exp_ineq1_le (- t)) as U. rewrite exp_Ropp in U. pose proof (exp_pos t) as P.
  assert (U' : exp t * (1 - t) <= 1). { apply Rle_trans with (exp t * / exp t); [apply Rmult_le_compat_l; lra|right; field; lra]. }
  assert (exp t <= 5 / 4) by nra. split; [|assumption]. apply Rabs_le. split; [lra|]. destruct (Rle_dec 0 t); nra.
Qed.
(** z close to exp(-l), l close to ln X: z is close to 1/X *)
Lemma recip_entry E X l z : log_range E X -> Rabs (l - ln X) <= log_error E X -> Rabs (z - exp (- l)) <= exp (- l) * (l * l / 256 + 79 / 10000 * IZR E) + 14 / 100000 * IZR E -> Rabs (1 - X * z) <= recip_log_error E X.
Proof.
  intros HX Bl Bz. destruct (log_error_small E X HX) as [D0 D1]. assert (HE : 1 <= IZR E <= 2) by (destruct HX as [[-> _]|[-> _]]; lra). assert (X0 : 0 < X) by (destruct HX as [[_ B]|[_ B]]; lra).
  assert (S : X * exp (- l) = exp (- (l - ln X))). { replace (- (l - ln X)) with (ln X + - l) by ring. rewrite exp_plus, exp_ln by exact X0. reflexivity. }
  destruct (exp_close (- (l - ln X)) (log_error E X) ltac:(now rewrite Rabs_Ropp) D1) as [C1 C2]. rewrite <- S in C1, C2. set (d := log_error E X) in *.
  assert (La : Rabs l <= Rabs (ln X) + 1 / 5). { replace l with (ln X + (l - ln X)) by ring. eapply Rle_trans; [apply Rabs_triang|]. lra. }
  assert (L2 : l * l <= (Rabs (ln X) + 1 / 5) * (Rabs (ln X) + 1 / 5)). { replace (l * l) with (Rabs l * Rabs l) by (rewrite <- Rabs_mult; apply Rabs_right; nra). pose proof (Rabs_pos l). apply Rmult_le_compat; lra. }
  assert (L0 : 0 <= l * l) by nra. set (q := l * l / 256 + 79 / 10000 * IZR E) in *. assert (Q0 : 0 <= q) by (unfold q; lra).
  assert (Bx : Rabs (X * (z - exp (- l))) <= 5 / 4 * q + 14 / 100000 * IZR E * X).
  { rewrite Rabs_mult, (Rabs_right X) by lra. apply Rle_trans with (X * (exp (- l) * q + 14 / 100000 * IZR E)); [apply Rmult_le_compat_l; lra|]. replace (X * (exp (- l) * q + 14 / 100000 * IZR E)) with ((X * exp (- l)) * q + 14 / 100000 * IZR E * X) by ring. apply Rplus_le_compat_r, Rmult_le_compat_r; lra. }
  replace (1 - X * z) with (- ((X * exp (- l) - 1) + X * (z - exp (- l)))) by ring. rewrite Rabs_Ropp. eapply Rle_trans; [apply Rabs_triang|]. unfold recip_log_error. fold d. unfold q in Bx. lra.
Qed.
Lemma recip_log_error_small E X : log_range E X -> 0 <= recip_log_error E X <= 1.
Proof.
  intros H. pose proof (log_error_small E X H) as D. unfold recip_log_error. assert (HE : 1 <= IZR E <= 2) by (destruct H as [[-> _]|[-> _]]; lra). assert (HX : 0 < X <= 127) by (destruct H as [[_ B]|[_ B]]; lra).
  assert (L : Rabs (ln X) <= 7) by (destruct (ln_7 X) as [L _]; [destruct H as [[_ B]|[_ B]]; lra|exact L]). pose proof (Rabs_pos (ln X)). set (a := Rabs (ln X)) in *. assert (0 <= (a + 1 / 5) * (a + 1 / 5) <= (36 / 5) * (36 / 5)) by (split; [nra|apply Rmult_le_compat; lra]).
  assert (0 <= IZR E * X <= 2 * 127) by (split; [nra|apply Rmult_le_compat; lra]). lra.
Qed.

Section Weak.
  Context {pr : provider}.
  Variables (D : Z) (chk : check).
  Lemma recip_positivev_weak c x : weaker (recip_positivev (pr := pr) chk c x) (recip_positivev no_check c x).
  Proof. unfold recip_positivev. destruct (r_method c); [apply reciprocal_posv_weak| |apply weaker_refl]. apply weaker_bind; [apply logv_weak|]. intros l. apply expv_weak. Qed.
  Lemma recip_signedv_weak c x : weaker (recip_signedv (pr := pr) D chk c x) (recip_signedv D no_check c x).
  Proof. unfold recip_signedv. destruct (r_all_pos c); [apply recip_positivev_weak|]. apply weaker_bind; [apply weaker_refl|]. intros s. apply weaker_bind; [apply mulv_weak|]. intros p. apply weaker_bind; [apply recip_positivev_weak|]. intros r. apply mulv_weak. Qed.
  Lemma recipv_weak c b x : weaker (recipv (pr := pr) D chk c b x) (recipv D no_check c b x).
  Proof. unfold recipv. destruct b; [|apply recip_signedv_weak]. apply weaker_bind; [apply recip_signedv_weak|]. intros r. apply weaker_refl. Qed.
End Weak.

Section Claims.
  Variables (n : nat) (pr : provider).
  Hypothesis Hn : (0 < n)%nat.
  Hypothesis HV : valid n pr.
  (** exp with 8 iterations between -256 and 22, with an error in proportion to the result but for 9 units *)
  Lemma exp_all T E v x : (E = 1 \/ E = 2)%Z -> (T = true -> n = 1%nat) -> holds n 65536 v x -> -256 <= real 65536 v <= 22 ->
    yo T (expv (pr := pr) (within E) 8 x) (fun z => exists q, holds n 65536 q z /\ Rabs (real 65536 q - exp (real 65536 v)) <= exp (real 65536 v) * (real 65536 v * real 65536 v / 256 + 79 / 10000 * IZR E) + 14 / 100000 * IZR E).
  Proof using Hn HV.
    intros HE HT Hx Bx. assert (HE' : (1 <= E)%Z) by lia. assert (E12 : 1 <= IZR E <= 2) by (destruct HE as [-> | ->]; lra). destruct (default_growth E HE) as [G _]. rewrite growth_factor in G. assert (R8 : 2 ^ 8 = 256) by lra.
    pose proof (factor_ge 65536 E HE' ltac:(lia) 8) as F1. assert (I9 : INR 9 = 9) by (cbn; lra). set (y := real 65536 v) in *.
    pose proof (approx_le_exp 8 y ltac:(lra)) as A1. pose proof (approx_ge_exp 8 y ltac:(lia)) as A2. rewrite R8 in A2. pose proof (exp_pos y) as P. assert (A0 : 0 <= exp_approx 8 y) by (rewrite exp_approx_power; apply pow_even_nonneg; lia).
    assert (F : forall q, Rabs (q - exp_approx 8 y) <= exp y * (79 / 10000 * IZR E) + 14 / 100000 * IZR E -> Rabs (q - exp y) <= exp y * (y * y / 256 + 79 / 10000 * IZR E) + 14 / 100000 * IZR E).
    { intros q Bq. replace (q - exp y) with ((q - exp_approx 8 y) + - (exp y - exp_approx 8 y)) by ring. eapply Rle_trans; [apply Rabs_triang|]. rewrite Rabs_Ropp, (Rabs_right (exp y - _)) by lra. assert (exp y - exp_approx 8 y <= exp y * (y * y / 256)) by lra. lra. }
    destruct (Rle_dec y 0) as [N|N].
    - eapply yo_weaken; [apply (exp_negative n Hn pr HV 65536 E T HE' ltac:(lia) HT 8 v x Hx)|].
      + rewrite R8. fold y. lra.
      + rewrite I9. unfold eta. lra.
      + change (IZR H63) with (IZR 9223372036854775808). apply Rle_lt_trans with (65536 * 65536 * (1 + 79 / 10000 * 2)); [apply Rmult_le_compat_l; lra|lra].
      + intros z (q & Hq & Bq). exists q. split; [exact Hq|]. apply F. unfold damp, exact_exp in Bq. rewrite I9 in Bq. fold y in Bq. set (a := exp_approx 8 y) in *.
        assert (B1 : a * (factor 65536 E 8 - 1) <= exp y * (79 / 10000 * IZR E)) by (apply Rmult_le_compat; lra).
        assert (B2 : (1 - a) * (9 * eta 65536 E * factor 65536 E 8) <= 14 / 100000 * IZR E).
        { apply Rle_trans with (1 * (9 * eta 65536 E * (1 + 79 / 10000 * 2))); [|unfold eta; lra]. assert (0 < eta 65536 E) by (apply eta_pos; lia). assert (0 <= 9 * eta 65536 E * factor 65536 E 8) by (apply Rmult_le_pos; lra). apply Rle_trans with (1 * (9 * eta 65536 E * factor 65536 E 8)); [apply Rmult_le_compat_r; lra|]. rewrite !Rmult_1_l. apply Rmult_le_compat_l; lra. }
        lra.
    - assert (L1 : 1 <= exp_approx 8 y) by (rewrite <- limit_is; unfold limit_exp; apply pow_R1_Rle; lra). pose proof (limit_22 y ltac:(lra)) as M. rewrite limit_is in M.
      assert (Tp : top1 (exact_exp 65536 8 v) = exp_approx 8 y) by (unfold top1, exact_exp; fold y; rewrite Rabs_right by lra; apply Rmax_right; lra).
      eapply yo_weaken; [apply (exp_real n Hn pr HV 65536 E T HE' ltac:(lia) HT 8 v x Hx)|].
      + rewrite Tp. change (IZR H63) with (IZR 9223372036854775808). apply Rle_lt_trans with (65536 * 65536 * (1500000000 * (1 + 79 / 10000 * 2))); [|lra]. apply Rmult_le_compat_l; [lra|]. apply Rmult_le_compat; lra.
      + fold y. rewrite R8, (Rabs_right y) by lra. unfold eta. change (IZR H63) with (IZR 9223372036854775808). lra.
      + intros z (q & Hq & Bq & _). exists q. split; [exact Hq|]. apply F. rewrite Tp in Bq. unfold exact_exp in Bq. fold y in Bq.
        assert (exp_approx 8 y * (factor 65536 E 8 - 1) <= exp y * (79 / 10000 * IZR E)) by (apply Rmult_le_compat; lra). lra.
  Qed.
  (** a positive number, either method *)
  Lemma recip_positive T me p E v x : (T = true -> n = 1%nat) -> holds n 65536 v x -> recip_range me E (real 65536 v) ->
    yo T (recip_positivev (pr := pr) (within E) (usual me p) x) (fun z => exists u, holds n 65536 u z /\ Rabs (1 - real 65536 v * real 65536 u) <= recip_error me E (real 65536 v)).
  Proof using Hn HV.
    intros HT Hx HX. unfold recip_positivev, recip_error. cbn [usual r_method r_exp_iterations r_nr_iters]. destruct me; cbn [recip_range] in HX; [| |contradiction].
    - destruct HX as [HE HX]. apply (recip_pos n pr Hn HV T E v x HE HT Hx HX).
    - destruct (range_E E _ HX) as [HE B]. set (X := real 65536 v) in *. unfold recip_logv. cbn [usual r_exp_iterations r_log_exp_iterations r_log_order r_log_iterations].
      eapply yo_bind; [apply (log_near n pr Hn HV T E v x HT Hx HX)|]. fold X. intros l (q & Hq & Bq). pose proof (k_C74_range X ltac:(lra)) as C.
      assert (Bl : Rabs (real 65536 q - ln X) <= log_error E X). { unfold log_error. replace (real 65536 q - ln X) with ((real 65536 q - mpc_log default false X) + (mpc_log default false X - ln X)) by ring. eapply Rle_trans; [apply Rabs_triang|]. lra. }
      destruct (log_error_small E X HX) as [_ D1]. destruct (ln_7 X B) as [L7 _]. assert (Rn : real 65536 (- q) = - real 65536 q) by (unfold real; rewrite opp_IZR; field). pose proof (Rabs_def2' _ _ Bl). pose proof (Rabs_def2' _ _ L7).
      assert (Hm : holds n 65536 (- q) (neg_num l)). { apply (holds_bound n Hn 65536 T ltac:(lia) HT _ _ 8); [apply (neg_num_ok n), Hq|rewrite Rn, Rabs_Ropp; apply Rabs_le; lra|change (IZR H63) with (IZR 9223372036854775808); lra]. }
      eapply yo_weaken; [apply (exp_all T E (- q) (neg_num l) HE HT Hm); rewrite Rn; lra|]. rewrite Rn. intros z (u & Hu & Bu). exists u. split; [exact Hu|]. apply (recip_entry E X (real 65536 q) _ HX Bl). replace (real 65536 q * real 65536 q) with (- real 65536 q * - real 65536 q) by ring. exact Bu.
  Qed.
  Lemma range_pos me E X : recip_range me E X -> 1 / 1000 <= X <= 127 /\ 0 <= recip_error me E X <= 1.
  Proof using.
    intros H. destruct me; cbn [recip_range recip_error] in *; [|split; [destruct H as [[_ B]|[_ B]]; lra|now apply recip_log_error_small]|contradiction].
    destruct H as [HE B]. split; [lra|]. unfold recip_newton_error. assert (1 <= IZR E <= 2) by (destruct HE as [-> | ->]; lra). assert (0 <= X * (X + 1) <= 30 * 31) by (split; [nra|apply Rmult_le_compat; lra]). assert (0 <= X * (X + 1) * (IZR E / 65536) <= 930 * (2 / 65536)) by (split; [nra|apply Rmult_le_compat; lra]). lra.
  Qed.
  Lemma near_1000 X u : 1 / 1000 <= X -> Rabs (1 - X * u) <= 1 -> Rabs u <= 2000.
  Proof using. intros HX B. apply Rabs_def2' in B. apply Rabs_le. split; [destruct (Rle_dec 0 u); nra|destruct (Rle_dec u 2000); nra]. Qed.
  Lemma recip_signed_yo T me E x : (T = true -> n = 1%nat) -> sharing n x -> n_sc x = 65536%Z -> recip_range me E (Rabs (rval x)) ->
    yo T (recip_signedv (pr := pr) 65536 (within E) (usual me false) x) (fun z => n_sc z = 65536%Z /\ Rabs (1 - rval x * rval z) <= recip_error me E (Rabs (rval x))).
  Proof using Hn HV.
    intros HT Hx Sx HX. destruct (range_pos _ _ _ HX) as [B Be]. destruct (holds_rval n 65536 x Hx Sx) as [[Hv Iv] Rv]. set (v := open_a (n_sh x)) in *. set (X := Rabs (rval x)) in *. assert (HE : (1 <= E)%Z) by (destruct me; cbn in HX; [destruct HX as [HE _]; lia|destruct HX as [[-> _]|[-> _]]; lia|contradiction]).
    assert (W : real 65536 (Z.abs v) = X) by (unfold X; rewrite <- Rv; apply (real_abs 65536 ltac:(lia))). assert (IW : in64 (Z.abs v)) by (apply (bound64 n 65536 Hn ltac:(lia) _ X); [rewrite W, Rabs_right; lra|lra]).
    unfold recip_signedv. cbn [usual r_all_pos]. eapply yo_lift; [apply (n_sign_ok n Hn pr HV 65536 v 65536 x (ratio_D n Hn 65536 ltac:(lia)) Iv Hv)|]. intros sgn Hs.
    eapply yo_bind; [apply (mulv_l1 n Hn pr HV 65536 E T (sg v) v); [exact Hs|exact Hv]|]. rewrite sg_abs. intros p Hp.
    eapply yo_bind; [apply (recip_positive T me false E (Z.abs v) p HT (conj Hp IW)); rewrite W; exact HX|]. rewrite W. intros r (u & [Hu Iu] & Bu).
    eapply yo_weaken; [apply (mulv_l1 n Hn pr HV 65536 E T (sg v) u); [exact Hs|exact Hu]|]. intros z Hz.
    assert (Ru : real 65536 (sg v * u) = IZR (sg v) * real 65536 u) by (unfold real; rewrite mult_IZR; field). assert (Sg : sg v = 1%Z \/ sg v = (-1)%Z) by (unfold sg; destruct (v <? 0)%Z; auto).
    assert (N : holds n 65536 (sg v * u) z). { apply (holds_bound n Hn 65536 T ltac:(lia) HT _ _ 2000); [exact Hz| |change (IZR H63) with (IZR 9223372036854775808); lra]. rewrite Ru, Rabs_mult. pose proof (near_1000 X (real 65536 u) ltac:(lra) ltac:(lra)). destruct Sg as [-> | ->]; [rewrite Rabs_R1|rewrite Rabs_left by lra]; lra. }
    destruct (rval_holds n Hn 65536 (sg v * u) z ltac:(lia) N) as [Sz Rz]. split; [exact Sz|]. rewrite Rz, <- Rv. replace (real 65536 v * real 65536 (sg v * u)) with (X * real 65536 u); [exact Bu|]. rewrite <- W, <- sg_abs. unfold real. rewrite !mult_IZR. destruct Sg as [-> | ->]; field.
  Qed.
  Lemma recip_all_pos_yo T me E x : (T = true -> n = 1%nat) -> sharing n x -> n_sc x = 65536%Z -> recip_range me E (rval x) ->
    yo T (recip_signedv (pr := pr) 65536 (within E) (usual me true) x) (fun z => n_sc z = 65536%Z /\ Rabs (1 - rval x * rval z) <= recip_error me E (rval x)).
  Proof using Hn HV.
    intros HT Hx Sx HX. destruct (holds_rval n 65536 x Hx Sx) as [Hv Rv]. unfold recip_signedv. cbn [usual r_all_pos]. rewrite <- Rv in *. eapply yo_weaken; [apply (recip_positive T me true E _ x HT Hv HX)|]. intros z (u & Hu & Bu). destruct (rval_holds n Hn 65536 u z ltac:(lia) Hu) as [Sz Rz]. split; [exact Sz|]. rewrite Rz. exact Bu.
  Qed.
  Lemma recip_01_yo T me p E x : (T = true -> n = 1%nat) -> sharing n x -> n_sc x = 65536%Z -> recip_range me E (64 * rval x) ->
    yo T (recipv (pr := pr) 65536 (within E) (usual me p) true x) (fun z => n_sc z = 65536%Z /\ Rabs (1 - rval x * rval z) <= recip_error me E (64 * rval x)).
  Proof using Hn HV.
    intros HT Hx Sx HX. destruct (range_pos _ _ _ HX) as [B Be]. destruct (holds_rval n 65536 x Hx Sx) as [Hv Rv]. set (v := open_a (n_sh x)) in *. assert (R63 : IZR H63 = 9223372036854775808) by reflexivity.
    assert (Rm : real 65536 (v * 64) = 64 * rval x) by (rewrite <- Rv; unfold real; rewrite mult_IZR; field). set (X := 64 * rval x) in *.
    assert (Hm : holds n 65536 (v * 64) (muli_num 64 x)) by (apply (holds_bound n Hn 65536 T ltac:(lia) HT _ _ 200); [apply (muli_num_ok n), Hv|rewrite Rm; apply Rabs_le; lra|rewrite R63; lra]).
    unfold recipv, recip_signedv. cbn [with_positive r_all_pos]. eapply yo_bind; [apply (recip_positive T me true E _ _ HT Hm); rewrite Rm; exact HX|]. rewrite Rm. intros r (u & Hu & Bu). apply yo_ok.
    assert (Ru : real 65536 (u * 64) = 64 * real 65536 u) by (unfold real; rewrite mult_IZR; field). pose proof (Rabs_def2' _ _ (near_1000 X (real 65536 u) ltac:(lra) ltac:(lra))).
    assert (Hz : holds n 65536 (u * 64) (muli_num 64 r)) by (apply (holds_bound n Hn 65536 T ltac:(lia) HT _ _ 128000); [apply (muli_num_ok n), Hu|rewrite Ru; apply Rabs_le; lra|rewrite R63; lra]).
    destruct (rval_holds n Hn 65536 _ _ ltac:(lia) Hz) as [Sz Rz]. split; [exact Sz|]. rewrite Rz, Ru. replace (rval x * (64 * real 65536 u)) with (X * real 65536 u) by (unfold X; ring). exact Bu.
  Qed.

  (** C107: reciprocal of a positive or negative number, by either method. *)
  Lemma k_C107_reciprocal me E x st z : sharing n x -> n_sc x = 65536%Z -> let X := Rabs (rval x) in recip_range me E X -> fst (recipv (pr := pr) 65536 (within E) (usual me false) false x st) = Some z ->
    fst (recipv (pr := pr) 65536 no_check (usual me false) false x st) = Some z /\ n_sc z = 65536%Z /\ Rabs (1 - rval x * rval z) <= recip_error me E X.
  Proof using Hn HV. intros Hx Sx X HX Hz. split; [eapply weaker_fst; [apply recipv_weak|exact Hz]|]. exact (yo_some _ _ _ _ _ (recip_signed_yo false me E x ltac:(discriminate) Hx Sx HX) Hz). Qed.
  (** C107: with all_pos, for positive numbers, the same. *)
  Lemma k_C107_all_pos me E x st z : sharing n x -> n_sc x = 65536%Z -> recip_range me E (rval x) -> fst (recipv (pr := pr) 65536 (within E) (usual me true) false x st) = Some z ->
    fst (recipv (pr := pr) 65536 no_check (usual me true) false x st) = Some z /\ n_sc z = 65536%Z /\ Rabs (1 - rval x * rval z) <= recip_error me E (rval x).
  Proof using Hn HV. intros Hx Sx HX Hz. split; [eapply weaker_fst; [apply recipv_weak|exact Hz]|]. exact (yo_some _ _ _ _ _ (recip_all_pos_yo false me E x ltac:(discriminate) Hx Sx HX) Hz). Qed.
  (** C107: with input_in_01 the error is that of 64 x. *)
  Lemma k_C107_in_01 me p E x st z : sharing n x -> n_sc x = 65536%Z -> let X := 64 * rval x in recip_range me E X -> fst (recipv (pr := pr) 65536 (within E) (usual me p) true x st) = Some z ->
    fst (recipv (pr := pr) 65536 no_check (usual me p) true x st) = Some z /\ n_sc z = 65536%Z /\ Rabs (1 - rval x * rval z) <= recip_error me E X.
  Proof using Hn HV. intros Hx Sx X HX Hz. split; [eapply weaker_fst; [apply recipv_weak|exact Hz]|]. exact (yo_some _ _ _ _ _ (recip_01_yo false me p E x ltac:(discriminate) Hx Sx HX) Hz). Qed.
  (** C107: with one party no assumption on the truncations is needed. *)
  Lemma k_C107_one_party me x st : n = 1%nat -> sharing n x -> n_sc x = 65536%Z ->
    (recip_range me 1 (Rabs (rval x)) -> exists z, fst (recipv (pr := pr) 65536 no_check (usual me false) false x st) = Some z /\ Rabs (1 - rval x * rval z) <= recip_error me 1 (Rabs (rval x))) /\
    (recip_range me 1 (64 * rval x) -> forall p, exists z, fst (recipv (pr := pr) 65536 no_check (usual me p) true x st) = Some z /\ Rabs (1 - rval x * rval z) <= recip_error me 1 (64 * rval x)).
  Proof using Hn HV.
    intros H1 Hx Sx. split; [intros HX|intros HX p].
    - destruct (yo_true _ _ st (recip_signed_yo true me 1 x (fun _ => H1) Hx Sx HX)) as (z & Ez & _ & B). exists z. split; [|exact B]. eapply weaker_fst; [apply (recipv_weak 65536 (within 1))|exact Ez].
    - destruct (yo_true _ _ st (recip_01_yo true me p 1 x (fun _ => H1) Hx Sx HX)) as (z & Ez & _ & B). exists z. split; [|exact B]. eapply weaker_fst; [apply (recipv_weak 65536 (within 1))|exact Ez].
  Qed.
End Claims.

(** C107 refuted outside: with one party the reciprocal of 256 by the log method is about -1.8 thousand million, that of 1/65536 only 12760 instead of 65536; 1/0 is 14512; and all_pos with a negative number, or input_in_01 with a number as large as 4, give numbers of no meaning. *)
Lemma k_C107_far_refuted : exists pr st, valid 1 pr /\
  (exists x z, sharing 1 x /\ n_sc x = 65536%Z /\ rval x = 256 /\ fst (recipv (pr := pr) 65536 no_check (usual ByLog false) false x st) = Some z /\ rval z < - 1700000000) /\
  (exists x z, sharing 1 x /\ n_sc x = 65536%Z /\ rval x = 1 / 65536 /\ fst (recipv (pr := pr) 65536 no_check (usual ByLog false) false x st) = Some z /\ rval x * rval z < 1 / 5) /\
  (exists x z, sharing 1 x /\ n_sc x = 65536%Z /\ rval x = 0 /\ fst (recipv (pr := pr) 65536 no_check (usual ByLog false) false x st) = Some z /\ 14512 < rval z < 14513) /\
  (exists x z, sharing 1 x /\ n_sc x = 65536%Z /\ rval x = -1 /\ fst (recipv (pr := pr) 65536 no_check (usual ByLog true) false x st) = Some z /\ rval z < - 260000000) /\
  (exists x z, sharing 1 x /\ n_sc x = 65536%Z /\ rval x = 4 /\ fst (recipv (pr := pr) 65536 no_check (usual ByNewton false) true x st) = Some z /\ rval z < - 15000000000000).
Proof.
  exists alone, tt. split; [exact alone_valid|]. split; [|split; [|split; [|split]]].
  - destruct (number_ok 256 ltac:(lia)) as (A & B & C). destruct (run_gives 256 (recipv (pr := alone) 65536 no_check (usual ByLog false) false (number 256)) (-116193463600512) ltac:(vm_compute; reflexivity) ltac:(lia)) as (z & Z1 & Z2). exists (number 256), z. rewrite Z2. repeat (split; [assumption|]). lra.
  - destruct (run_gives 1 (recipv (pr := alone) 65536 no_check (usual ByLog false) false tiny) 836203506 ltac:(vm_compute; reflexivity) ltac:(lia)) as (z & Z1 & Z2). exists tiny, z. rewrite Z2. assert (I : in64 1) by (unfold in64, H63; lia).
    assert (Rt : rval tiny = 1 / 65536) by (unfold rval, tiny; cbn [n_sh n_sc]; unfold open_a; cbn [fold_left]; unfold wadd; rewrite Z.add_0_l, wrap_id by exact I; lra). split; [split; [reflexivity|split; [constructor; [exact I|constructor]|reflexivity]]|]. split; [reflexivity|]. split; [exact Rt|]. split; [exact Z1|]. rewrite Rt. lra.
  - destruct (number_ok 0 ltac:(lia)) as (A & B & C). destruct (run_gives 0 (recipv (pr := alone) 65536 no_check (usual ByLog false) false (number 0)) 951091143 ltac:(vm_compute; reflexivity) ltac:(lia)) as (z & Z1 & Z2). exists (number 0), z. rewrite Z2. repeat (split; [assumption|]). lra.
  - destruct (number_ok (-1) ltac:(lia)) as (A & B & C). destruct (run_gives (-1) (recipv (pr := alone) 65536 no_check (usual ByLog true) false (number (-1))) (-17045747121232) ltac:(vm_compute; reflexivity) ltac:(lia)) as (z & Z1 & Z2). exists (number (-1)), z. rewrite Z2. repeat (split; [assumption|]). lra.
  - destruct (number_ok 4 ltac:(lia)) as (A & B & C). destruct (run_gives 4 (recipv (pr := alone) 65536 no_check (usual ByNewton false) true (number 4)) (-995602604997214208) ltac:(vm_compute; reflexivity) ltac:(lia)) as (z & Z1 & Z2). exists (number 4), z. rewrite Z2. repeat (split; [assumption|]). lra.
Qed.

(** Rounding errors of exp and reciprocal on shares, in real numbers. *)
Require Import ZArith QArith List Bool Lia Reals Lra.
From Verif Require Import Approx Approx_claims.
From Verif Require Import Ring64 Encoder Arith Arith_proofs Beaver Beaver_proofs Trunc Trunc_proofs Provider Binary Binary_proofs Compare Compare_proofs Maximum Regular Regular_proofs Shareapprox.
Import ListNotations.
Open Scope R_scope.

Lemma weaker_repeat {pr A} k (f g : A -> runo pr A) : (forall a, weaker (f a) (g a)) -> forall x, weaker (repeatv k f x) (repeatv k g x).
Proof. intros H. induction k as [|k IH]; intros x; cbn [repeatv]; [apply weaker_refl|]. apply weaker_bind; [apply H|exact IH]. Qed.
Section Weak.
  Context {pr : provider}.
  Variables (D : Z) (chk : check).
  Notation nc := no_check.
  Lemma expv_weak d x : weaker (expv (pr := pr) chk d x) (expv nc d x).
  Proof. apply weaker_bind; [apply divv_weak|]. intros q. apply weaker_repeat. intros a. apply squarev_weak. Qed.
  Lemma nr_initialv_weak d x : weaker (nr_initialv (pr := pr) chk d x) (nr_initialv nc d x).
  Proof. apply weaker_bind; [apply expv_weak|]. intros q. apply weaker_refl. Qed.
  Lemma nr_stepv_weak x r : weaker (nr_stepv (pr := pr) chk x r) (nr_stepv nc x r).
  Proof. apply weaker_bind; [apply squarev_weak|]. intros q. apply weaker_bind; [apply mulv_weak|]. intros p. apply weaker_refl. Qed.
  Lemma nr_firstv_weak x v : weaker (nr_firstv (pr := pr) chk x v) (nr_firstv nc x v).
  Proof. apply weaker_bind; [apply mulpv_weak|]. intros q. apply weaker_refl. Qed.
  Lemma reciprocal_posv_weak d k x : weaker (reciprocal_posv (pr := pr) chk d k x) (reciprocal_posv nc d k x).
  Proof. apply weaker_bind; [apply nr_initialv_weak|]. intros r. apply weaker_repeat. intros a. apply nr_stepv_weak. Qed.
  Lemma reciprocal_fromv_weak v k x : weaker (reciprocal_fromv (pr := pr) chk v k x) (reciprocal_fromv nc v k x).
  Proof. apply weaker_bind; [apply nr_firstv_weak|]. intros r. apply weaker_repeat. intros a. apply nr_stepv_weak. Qed.
  Lemma reciprocalv_weak d k x : weaker (reciprocalv (pr := pr) D chk d k x) (reciprocalv D nc d k x).
  Proof.
    apply weaker_bind; [apply weaker_refl|]. intros sgn. apply weaker_bind; [apply mulv_weak|]. intros p. apply weaker_bind; [apply reciprocal_posv_weak|]. intros r. apply mulv_weak.
  Qed.
  Lemma wherev_weak x c y : weaker (wherev (pr := pr) chk x c y) (wherev nc x c y).
  Proof. apply weaker_bind; [apply mulv_weak|]. intros a. apply weaker_bind; [apply mulv_weak|]. intros b. apply weaker_refl. Qed.
  Lemma sigmoidv_weak d x : weaker (sigmoidv (pr := pr) D chk d x) (sigmoidv D nc d x).
  Proof.
    apply weaker_bind; [apply weaker_refl|]. intros l. apply weaker_bind; [apply mulv_weak|]. intros p. apply weaker_bind; [apply expv_weak|]. intros e.
    apply weaker_bind; [apply reciprocal_fromv_weak|]. intros r. apply wherev_weak.
  Qed.
  Lemma tanhv_weak d x : weaker (tanhv (pr := pr) D chk d x) (tanhv D nc d x).
  Proof. apply weaker_bind; [apply sigmoidv_weak|]. intros r. apply weaker_refl. Qed.
End Weak.

(** ** Arithmetic of the error bounds *)
Lemma sq_error a b m P eta : 0 <= eta -> 1 <= m -> Rabs a <= m -> 1 <= P -> Rabs (b - a) <= m * (P - 1) ->
  Rabs (b * b - a * a) + eta <= m * m * (P * P * (1 + eta) - 1).
Proof.
  intros He Hm Ha HP Hb.
  replace (b * b - a * a) with ((b - a) * ((b - a) + 2 * a)) by ring. rewrite Rabs_mult.
  assert (A : Rabs (b - a + 2 * a) <= m * (P - 1) + 2 * m).
  { eapply Rle_trans; [apply Rabs_triang|]. rewrite Rabs_mult, (Rabs_right 2) by lra. lra. }
  assert (B : Rabs (b - a) * Rabs (b - a + 2 * a) <= m * (P - 1) * (m * (P - 1) + 2 * m)) by (apply Rmult_le_compat; auto using Rabs_pos).
  assert (C : 1 <= m * m * (P * P)). { assert (1 * 1 <= m * m) by (apply Rmult_le_compat; lra). assert (1 * 1 <= P * P) by (apply Rmult_le_compat; lra). assert (1 * 1 <= m * m * (P * P)) by (apply Rmult_le_compat; lra). lra. }
  assert (D : eta * 1 <= eta * (m * m * (P * P))) by (apply Rmult_le_compat_l; lra). 
  replace (m * m * (P * P * (1 + eta) - 1)) with (m * (P - 1) * (m * (P - 1) + 2 * m) + eta * (m * m * (P * P))) by ring. lra.
Qed.

Lemma Rabs_def2' a b : Rabs a <= b -> - b <= a <= b.
Proof. intros H. unfold Rabs in H. destruct (Rcase_abs a); lra. Qed.
Lemma Nat_iter_S' {A} k (f : A -> A) x : Nat.iter (S k) f x = Nat.iter k f (f x).
Proof. induction k as [|k IH]; [reflexivity|]. change (f (Nat.iter (S k) f x) = f (Nat.iter k f (f x))). now rewrite IH. Qed.
Section N.
  Variable n : nat.
  Hypothesis Hn : (0 < n)%nat.
  Variable pr : provider.
  Hypothesis HV : valid n pr.
  Variables (s E D : Z) (T : bool).
  Hypothesis HE : (1 <= E)%Z.
  Hypothesis Hs : (1 < s)%Z.
  Hypothesis HT : T = true -> n = 1%nat.
  Definition real (v : Z) : R := IZR v / IZR s.
  Definition eta : R := IZR E / IZR s.
  Definition holds (v : Z) (x : num) : Prop := nshare n v s x /\ in64 v.

  Lemma s_pos : 0 < IZR s. Proof. clear HT Hn. apply IZR_lt. lia. Qed.
  Lemma eta_pos : 0 < eta. Proof. clear HT Hn. apply Rdiv_lt_0_compat; [apply IZR_lt; lia|apply s_pos]. Qed.
  Lemma real_le v M : Rabs (real v) <= M -> IZR (Z.abs v) <= IZR s * M.
  Proof.
    intros H. pose proof s_pos as S. rewrite abs_IZR. unfold real, Rdiv in H. rewrite Rabs_mult, (Rabs_right (/ IZR s)) in H by (apply Rle_ge, Rlt_le, Rinv_0_lt_compat, S).
    apply (Rmult_le_compat_l (IZR s)) in H; [|lra]. replace (IZR s * (Rabs (IZR v) * / IZR s)) with (Rabs (IZR v)) in H by (field; lra). exact H.
  Qed.
  Lemma real_product v w M M' : Rabs (real v) <= M -> Rabs (real w) <= M' -> IZR s * IZR s * (M * M') < IZR H63 -> in64 (v * w).
  Proof.
    intros A B C. pose proof s_pos as S. apply real_le in A, B. assert (X : IZR (Z.abs (v * w)) <= IZR s * M * (IZR s * M')).
    { rewrite Z.abs_mul, mult_IZR. apply Rmult_le_compat; try assumption; apply IZR_le; lia. }
    assert (Y : IZR (Z.abs (v * w)) < IZR H63) by (eapply Rle_lt_trans; [exact X|]; eapply Rle_lt_trans; [|exact C]; right; ring). apply lt_IZR in Y. unfold in64. lia.
  Qed.
  Lemma rounded q v d : (0 < d)%Z -> (Z.abs (q * d - v) < E * d)%Z -> Rabs (real q - IZR v / (IZR s * IZR d)) <= eta.
  Proof.
    intros Hd H. apply IZR_lt in Hd as Hd'. pose proof s_pos as S. apply IZR_lt in H. rewrite abs_IZR, minus_IZR, !mult_IZR in H.
    unfold real, eta. replace (IZR q / IZR s - IZR v / (IZR s * IZR d)) with ((IZR q * IZR d - IZR v) * / (IZR s * IZR d)) by (field; lra).
    assert (P : 0 < / (IZR s * IZR d)) by (apply Rinv_0_lt_compat, Rmult_lt_0_compat; assumption). rewrite Rabs_mult, (Rabs_right (/ _)) by lra.
    replace (IZR E / IZR s) with (IZR E * IZR d * / (IZR s * IZR d)) by (field; lra). apply Rmult_le_compat_r; lra.
  Qed.
  Lemma div_real v x d : (0 < d)%Z -> holds v x -> yo T (divv (pr := pr) (within E) x d) (fun z => exists q, holds q z /\ Rabs (real q - real v / IZR d) <= eta).
  Proof.
    intros Hd [[Hx Sx] I]. eapply yo_weaken; [apply (divv_acc n Hn pr HV E T HE HT v); assumption|]. intros z (q & A & I' & B). rewrite Sx in A. exists q. split; [split; assumption|].
    apply rounded in B; [|exact Hd]. apply IZR_lt in Hd. pose proof s_pos. replace (real v / IZR d) with (IZR v / (IZR s * IZR d)) by (unfold real; field; lra). exact B.
  Qed.
  Lemma square_real v x : holds v x -> in64 (v * v) -> yo T (squarev (pr := pr) (within E) x) (fun z => exists q, holds q z /\ Rabs (real q - real v * real v) <= eta).
  Proof.
    intros [[Hx Sx] _] I. unfold squarev. eapply (yo_lift _ _ _ (fun t => let '(r, r2) := t in _)); [intros st; exact (v_square n pr HV st)|]. intros [r r2] Hr. rewrite Sx.
    eapply yo_bind; [eapply (divv_acc n Hn pr HV E T HE HT (v * v)); [lia|exact I|cbn [n_sh]; apply (square_share n Hn); assumption]|].
    intros z (q & [Hq _] & Iq & Bq). apply yo_ok. exists q. split; [split; [split; [exact Hq|reflexivity]|exact Iq]|].
    apply rounded in Bq; [|lia]. pose proof s_pos. replace (real v * real v) with (IZR (v * v) / (IZR s * IZR s)) by (unfold real; rewrite mult_IZR; field; lra). exact Bq.
  Qed.
  Lemma mul_real v w x y : holds v x -> holds w y -> in64 (v * w) -> yo T (mulv (pr := pr) (within E) x y) (fun z => exists q, holds q z /\ Rabs (real q - real v * real w) <= eta).
  Proof.
    intros [[Hx Sx] _] [[Hy Sy] _] I. unfold mulv. eapply (yo_lift _ _ _ (fun t => let '(a, b, c) := t in _)); [intros st; exact (v_mul n pr HV st)|]. intros [[a b] c] Ht. rewrite Sx, Sy. cbv zeta.
    unfold mul_rescale. replace (1 <? s)%Z with true by (symmetry; apply Z.ltb_lt; lia). cbn [andb].
    eapply yo_weaken; [apply (divv_acc n Hn pr HV E T HE HT (v * w)); [lia|exact I|cbn [n_sh]; eapply (mul1_share n Hn); eassumption]|]. cbn [n_sc].
    intros z (q & Hq & Iq & Bq). exists q. split; [split; assumption|].
    apply rounded in Bq; [|lia]. pose proof s_pos. replace (real v * real w) with (IZR (v * w) / (IZR s * IZR s)) by (unfold real; rewrite mult_IZR; field; lra). exact Bq.
  Qed.
  Lemma mulp_real v k x : holds v x -> in64 (v * k) -> yo T (mulpv (pr := pr) (within E) x k) (fun z => exists q, holds q z /\ Rabs (real q - real v * real k) <= eta).
  Proof.
    intros [[Hx Sx] _] I. unfold mulpv. cbv zeta. unfold mul_pub_rescale. rewrite Sx. replace (1 <? s)%Z with true by (symmetry; apply Z.ltb_lt; lia).
    eapply yo_weaken; [apply (divv_acc n Hn pr HV E T HE HT (v * k)); [lia|exact I|exact (proj1 (muli_num_ok n k v s x (conj Hx Sx)))]|]. cbn [n_sc].
    intros z (q & Hq & Iq & Bq). exists q. split; [split; assumption|].
    apply rounded in Bq; [|lia]. pose proof s_pos. replace (real v * real k) with (IZR (v * k) / (IZR s * IZR s)) by (unfold real; rewrite mult_IZR; field; lra). exact Bq.
  Qed.
  (** operations without rounding: a result that fits 64 bits *)
  Lemma holds_bound v x M : nshare n v s x -> Rabs (real v) <= M -> IZR s * M < IZR H63 -> holds v x.
  Proof. intros H A B. split; [exact H|]. apply real_le in A. assert (C : IZR (Z.abs v) < IZR H63) by lra. apply lt_IZR in C. unfold in64. lia. Qed.

  (** ** exp *)
  Fixpoint factor (k : nat) : R := match k with O => 1 + eta | S k => factor k * factor k * (1 + eta) end.
  Lemma factor_ge k : 1 <= factor k.
  Proof. clear HT Hn. pose proof eta_pos. induction k as [|k IH]; cbn [factor]; [lra|]. assert (1 * 1 <= factor k * factor k) by (apply Rmult_le_compat; lra). assert (1 * 1 <= factor k * factor k * (1 + eta)) by (apply Rmult_le_compat; lra). lra. Qed.
  Lemma factor_pow k : factor k = (1 + eta) ^ (2 ^ S k - 1).
  Proof. clear HT Hn.
    induction k as [|k IH]; cbn [factor]; [cbn; ring|]. rewrite IH, <- pow_add, Rmult_comm. replace (2 ^ S (S k) - 1)%nat with (S (2 ^ S k - 1 + (2 ^ S k - 1))); [reflexivity|].
    assert (1 <= 2 ^ S k)%nat by (clear; induction k; cbn in *; lia). rewrite (Nat.pow_succ_r' 2 (S k)). lia.
  Qed.
  Lemma factor_mono j k : (j <= k)%nat -> factor j <= factor k.
  Proof. clear HT Hn.
    induction 1 as [|k _ IH]; [lra|]. eapply Rle_trans; [exact IH|]. pose proof (factor_ge k). pose proof eta_pos. cbn [factor].
    assert (factor k * 1 * 1 <= factor k * factor k * (1 + eta)); [|lra]. apply Rmult_le_compat; [nra|lra|apply Rmult_le_compat_l; lra|lra].
  Qed.
  Definition squares (k : nat) (a : R) : R := Nat.iter k (fun r => r * r) a.
  Lemma squares_S k a : squares (S k) a = squares k a * squares k a. Proof. reflexivity. Qed.
  Lemma squares_out k a : squares k (a * a) = squares k a * squares k a.
  Proof. induction k as [|k IH]; [reflexivity|]. now rewrite !squares_S, IH. Qed.
  Definition top1 (a : R) : R := Rmax 1 (Rabs a).
  Lemma top1_sq a : top1 (a * a) = top1 a * top1 a.
  Proof.
    unfold top1, Rmax. rewrite Rabs_mult. pose proof (Rabs_pos a). destruct (Rle_dec 1 (Rabs a)) as [H1|H1], (Rle_dec 1 (Rabs a * Rabs a)) as [H2|H2]; nra.
  Qed.
  Lemma top1_ge a : 1 <= top1 a /\ Rabs a <= top1 a. Proof. split; [apply Rmax_l|apply Rmax_r]. Qed.
  Lemma top1_grows k a : top1 a <= top1 (squares k a).
  Proof.
    induction k as [|k IH]; [right; reflexivity|]. eapply Rle_trans; [exact IH|]. rewrite squares_S, top1_sq. destruct (top1_ge (squares k a)). rewrite <- (Rmult_1_r (top1 (squares k a))) at 1. apply Rmult_le_compat_l; lra.
  Qed.
  Lemma fits_square v M : Rabs (real v) <= M -> IZR s * M <= 2 ^ 31 -> in64 (v * v).
  Proof.
    intros Bv Hf. pose proof s_pos as S. assert (P0 : 0 <= IZR s * M) by (apply Rmult_le_pos; [lra|]; eapply Rle_trans; [apply Rabs_pos|exact Bv]).
    eapply real_product; [exact Bv|exact Bv|]. assert (X : IZR s * M * (IZR s * M) <= 2 ^ 31 * 2 ^ 31) by (apply Rmult_le_compat; assumption). change (IZR H63) with (IZR 9223372036854775808).
    eapply Rle_lt_trans; [|apply (Rle_lt_trans _ _ _ X)]; [right; ring|]. lra.
  Qed.
  (** [k] squarings after [j] others *)
  Lemma squares_real k : forall j v x a, holds v x -> Rabs (real v - a) <= top1 a * (factor j - 1) -> IZR s * IZR s * (top1 (squares k a) * factor (j + k)) < IZR H63 ->
    yo T (repeatv k (squarev (pr := pr) (within E)) x) (fun z => exists q, holds q z /\ Rabs (real q - squares k a) <= top1 (squares k a) * (factor (j + k) - 1)).
  Proof.
    induction k as [|k IH]; intros j v x a Hx Hb Hfit; cbn [repeatv].
    - apply yo_ok. exists v. rewrite Nat.add_0_r. split; [exact Hx|exact Hb].
    - assert (Q : squares (S k) a = squares k (a * a)) by (rewrite squares_out; reflexivity). rewrite Q in *. pose proof (factor_ge j) as Fj. destruct (top1_ge a) as [M1 M2]. pose proof s_pos as S.
      assert (Bv : Rabs (real v) <= top1 a * factor j). { replace (real v) with ((real v - a) + a) by ring. eapply Rle_trans; [apply Rabs_triang|]. lra. }
      assert (G : top1 a * factor j * (top1 a * factor j) <= top1 (squares k (a * a)) * factor (j + Datatypes.S k)).
      { replace (top1 a * factor j * (top1 a * factor j)) with (top1 (a * a) * (factor j * factor j)) by (rewrite top1_sq; ring). destruct (top1_ge (a * a)). apply Rmult_le_compat; [lra|nra|apply top1_grows|].
        apply Rle_trans with (factor (Datatypes.S j)); [|apply factor_mono; lia]. cbn [factor]. pose proof eta_pos. nra. }
      eapply yo_bind; [apply square_real; [exact Hx|eapply real_product; [exact Bv|exact Bv|]; eapply Rle_lt_trans; [apply Rmult_le_compat_l; [nra|exact G]|exact Hfit]]|]. intros y (q & Hq & Bq).
      assert (Bq' : Rabs (real q - a * a) <= top1 (a * a) * (factor (Datatypes.S j) - 1)).
      { replace (real q - a * a) with ((real q - real v * real v) + (real v * real v - a * a)) by ring. eapply Rle_trans; [apply Rabs_triang|]. rewrite top1_sq. cbn [factor].
        pose proof (sq_error a (real v) (top1 a) (factor j) eta (Rlt_le _ _ eta_pos) M1 M2 Fj Hb). lra. }
      eapply yo_weaken; [apply (IH (Datatypes.S j) q y (a * a) Hq Bq')|]; replace (Datatypes.S j + k)%nat with (j + Datatypes.S k)%nat by lia; [exact Hfit|auto].
  Qed.
  Lemma repeat_last {A} k (f : A -> runo pr A) x st : repeatv (S k) f x st = bindo (repeatv k f x) f st.
  Proof.
    revert x st. induction k as [|k IH]; intros x st.
    - cbn [repeatv]. unfold bindo, okr, ret. unfold bind. destruct (f x st) as [[a|] st'] eqn:F; rewrite ?F; reflexivity.
    - change (repeatv (S (S k)) f x) with (y <~ f x ;; repeatv (S k) f y). change (repeatv (S k) f x) with (y <~ f x ;; repeatv k f y).
      unfold bindo at 1 2 3. unfold bind. destruct (f x st) as [[a|] st']; [|reflexivity]. rewrite IH. reflexivity.
  Qed.
  Lemma yo_ext {A} (m m' : runo pr A) Q : (forall st, m st = m' st) -> yo T m' Q -> yo T m Q.
  Proof. intros H K st. rewrite H. apply K. Qed.

  Definition exact_exp (d : nat) (v : Z) : R := exp_approx d (real v).
  Lemma pow2_IZR d : IZR (2 ^ Z.of_nat d) = 2 ^ d. Proof. now rewrite <- pow_IZR. Qed.
  (** the last squaring is rounded once: small results are accurate to about one unit *)
  Lemma exp_real d v x : holds v x -> IZR s * IZR s * (top1 (exact_exp d v) * factor d) < IZR H63 -> IZR s * (1 + Rabs (real v) / 2 ^ d + eta) < IZR H63 ->
    yo T (expv (pr := pr) (within E) d x) (fun z => exists q, holds q z /\ Rabs (real q - exact_exp d v) <= top1 (exact_exp d v) * (factor d - 1) /\
      ((1 <= d)%nat -> let b := sqrt (exact_exp d v) in Rabs (real q - exact_exp d v) <= top1 b * (factor (d - 1) - 1) * (top1 b * (factor (d - 1) - 1) + 2 * b) + eta)).
  Proof.
    intros Hx Hfit Hadd. unfold expv. assert (P2 : 0 < 2 ^ d) by (apply pow_lt; lra). eapply yo_bind; [apply (div_real v); [apply Z.pow_pos_nonneg; lia|exact Hx]|]. rewrite pow2_IZR. intros y (q & [Hq Iq] & Bq).
    set (a := 1 + real v / 2 ^ d). assert (X : exact_exp d v = squares d a) by reflexivity. 
    pose proof s_pos as S. pose proof eta_pos as Ep.
    assert (R1 : real (q + 1 * s) = 1 + real q) by (unfold real; rewrite plus_IZR, Z.mul_1_l; field; lra).
    assert (B0 : Rabs (real (q + 1 * s) - a) <= top1 a * (factor 0 - 1)).
    { rewrite R1. unfold a. cbn [factor]. destruct (top1_ge (1 + real v / 2 ^ d)) as [M1 _]. replace (1 + real q - (1 + real v / 2 ^ d)) with (real q - real v / 2 ^ d) by ring. eapply Rle_trans; [exact Bq|].
      replace (1 + eta - 1) with eta by ring. rewrite <- (Rmult_1_l eta) at 1. apply Rmult_le_compat_r; lra. }
    assert (H1 : holds (q + 1 * s) (add_num y (AInt 1))).
    { eapply holds_bound; [apply (add_int_ok n Hn); exact Hq| |exact Hadd]. rewrite R1. replace (1 + real q) with (1 + real v / 2 ^ d + (real q - real v / 2 ^ d)) by ring.
      eapply Rle_trans; [apply Rabs_triang|]. apply Rplus_le_compat; [|exact Bq]. eapply Rle_trans; [apply Rabs_triang|]. rewrite Rabs_R1. unfold Rdiv. rewrite Rabs_mult, (Rabs_right (/ 2 ^ d)); [lra|]. left. now apply Rinv_0_lt_compat. }
    rewrite X in *. destruct d as [|d].
    - eapply yo_weaken; [apply (squares_real 0 0 _ _ a H1 B0); exact Hfit|]. intros z (q' & Hq' & B). exists q'. split; [exact Hq'|]. split; [exact B|]. intros; lia.
    - (* the first d, then the last one *)
      destruct (top1_ge (squares d a)) as [M1 M2]. pose proof (factor_ge d) as Fd.
      assert (G : top1 (squares d a) * factor d * (top1 (squares d a) * factor d) <= top1 (squares (Datatypes.S d) a) * factor (Datatypes.S d)).
      { rewrite squares_S, top1_sq. replace (top1 (squares d a) * factor d * (top1 (squares d a) * factor d)) with (top1 (squares d a) * top1 (squares d a) * (factor d * factor d)) by ring. apply Rmult_le_compat_l; [nra|]. cbn [factor]. nra. }
      assert (Fl : IZR s * IZR s * (top1 (squares d a) * factor d * (top1 (squares d a) * factor d)) < IZR H63).
      { eapply Rle_lt_trans; [apply Rmult_le_compat_l; [nra|exact G]|exact Hfit]. }
      assert (Fm : IZR s * IZR s * (top1 (squares d a) * factor d) < IZR H63).
      { eapply Rle_lt_trans; [|exact Fl]. apply Rmult_le_compat_l; [nra|]. assert (1 <= top1 (squares d a) * factor d) by nra. nra. }
      eapply yo_ext; [intros st; apply repeat_last|]. eapply yo_bind; [apply (squares_real d 0 _ _ a H1 B0); exact Fm|]. cbn [Nat.add]. intros w (u & Hu & Bu).
      assert (Bu' : Rabs (real u) <= top1 (squares d a) * factor d). { replace (real u) with ((real u - squares d a) + squares d a) by ring. eapply Rle_trans; [apply Rabs_triang|]. lra. }
      eapply yo_weaken; [apply square_real; [exact Hu|eapply real_product; [exact Bu'|exact Bu'|exact Fl]]|]. intros z (q' & Hq' & B'). exists q'. split; [exact Hq'|].
      assert (L : Rabs (real q' - squares (Datatypes.S d) a) <= eta + Rabs (real u * real u - squares d a * squares d a)).
      { rewrite squares_S. replace (real q' - squares d a * squares d a) with ((real q' - real u * real u) + (real u * real u - squares d a * squares d a)) by ring. eapply Rle_trans; [apply Rabs_triang|]. lra. }
      split.
      + eapply Rle_trans; [exact L|]. rewrite squares_S, top1_sq. cbn [factor]. pose proof (sq_error (squares d a) (real u) (top1 (squares d a)) (factor d) eta (Rlt_le _ _ Ep) M1 M2 Fd Bu). lra.
      + intros _. cbv zeta. replace (Datatypes.S d - 1)%nat with d by lia. eapply Rle_trans; [exact L|]. rewrite squares_S. change (squares d a * squares d a) with (Rsqr (squares d a)). rewrite sqrt_Rsqr_abs. unfold Rsqr.
        assert (A : top1 (Rabs (squares d a)) = top1 (squares d a)) by (unfold top1; now rewrite Rabs_Rabsolu). rewrite A. rewrite Rplus_comm. apply Rplus_le_compat_r.
        replace (real u * real u - squares d a * squares d a) with ((real u - squares d a) * ((real u - squares d a) + 2 * squares d a)) by ring. rewrite Rabs_mult.
        apply Rmult_le_compat; [apply Rabs_pos|apply Rabs_pos|exact Bu|]. eapply Rle_trans; [apply Rabs_triang|]. rewrite Rabs_mult, (Rabs_right 2) by lra. lra.
  Qed.

  (** ** Newton iteration for 1/X *)
  Definition noise (X : R) : R := X * (X + 1) * eta.
  Definition fits_nr (X : R) : Prop := 0 < X /\ IZR s * (2 / X) <= 2 ^ 31 /\ IZR s * IZR s * ((4 / (X * X) + eta) * X) < IZR H63.
  Lemma near_inverse X r q : 0 < X -> Rabs (1 - X * r) <= q -> q <= 1 -> Rabs r <= 2 / X.
  Proof. clear HT Hn Hs HE.
    intros HX H Hq. replace r with (/ X * (1 - (1 - X * r))) by (field; lra). pose proof (Rinv_0_lt_compat X HX). rewrite Rabs_mult, (Rabs_right (/ X)) by lra.
    replace (2 / X) with (/ X * 2) by (field; lra). apply Rmult_le_compat_l; [lra|]. eapply Rle_trans; [apply Rabs_triang|]. rewrite Rabs_R1, Rabs_Ropp. lra.
  Qed.
  Lemma nr_error X r p t q : 0 < X -> Rabs (1 - X * r) <= q -> Rabs (t - r * r) <= eta -> Rabs (p - t * X) <= eta -> Rabs (1 - X * (r + (r - p))) <= q * q + noise X.
  Proof.
    intros HX Hr Ht Hp. replace (1 - X * (r + (r - p))) with ((1 - X * r) * (1 - X * r) + X * ((p - t * X) + X * (t - r * r))) by ring.
    eapply Rle_trans; [apply Rabs_triang|]. apply Rplus_le_compat.
    - rewrite Rabs_mult. apply Rmult_le_compat; auto using Rabs_pos.
    - unfold noise. rewrite Rabs_mult, (Rabs_right X) by lra. rewrite Rmult_assoc. apply Rmult_le_compat_l; [lra|]. eapply Rle_trans; [apply Rabs_triang|]. rewrite Rabs_mult, (Rabs_right X) by lra.
      assert (X * Rabs (t - r * r) <= X * eta) by (apply Rmult_le_compat_l; lra). lra.
  Qed.
  Lemma nr_step_real v x w r q : holds v x -> fits_nr (real v) -> holds w r -> Rabs (1 - real v * real w) <= q -> q <= 1 -> q * q + noise (real v) <= 1 ->
    yo T (nr_stepv (pr := pr) (within E) x r) (fun z => exists u, holds u z /\ Rabs (1 - real v * real u) <= q * q + noise (real v)).
  Proof.
    intros Hx (HX & F1 & F2) Hr Hq Q1 Q2. pose proof (near_inverse _ _ _ HX Hq Q1) as Br. pose proof s_pos as S. pose proof eta_pos as Ep. unfold nr_stepv.
    eapply yo_bind; [apply square_real; [exact Hr|eapply fits_square; eassumption]|]. intros y (t & Ht & Bt).
    assert (Bt' : Rabs (real t) <= 4 / (real v * real v) + eta).
    { replace (real t) with (real w * real w + (real t - real w * real w)) by ring. eapply Rle_trans; [apply Rabs_triang|]. apply Rplus_le_compat; [|exact Bt].
      replace (4 / (real v * real v)) with (2 / real v * (2 / real v)) by (field; lra). rewrite Rabs_mult. apply Rmult_le_compat; auto using Rabs_pos. }
    eapply yo_bind; [apply (mul_real t v y x Ht Hx); eapply real_product; [exact Bt'|right; apply Rabs_right; lra|exact F2]|]. intros p (u & Hu & Bu).
    pose proof (nr_error _ _ _ _ _ HX Hq Bt Bu) as Be. apply yo_ok. exists (w + (w - u))%Z.
    assert (Ru : real (w + (w - u)) = real w + (real w - real u)) by (unfold real; rewrite plus_IZR, minus_IZR; field; lra).
    split; [|rewrite Ru; exact Be]. eapply holds_bound; [| |].
    - apply (add_enc_ok n); [apply Hr|]. apply (sub_enc_ok n); [apply Hr|apply Hu].
    - rewrite Ru. eapply near_inverse; [exact HX|exact Be|exact Q2].
    - eapply Rle_lt_trans; [exact F1|]. change (IZR H63) with (IZR 9223372036854775808). lra.
  Qed.
  Definition refine (X q : R) : R := q * q + noise X.
  Lemma noise_pos X : 0 < X -> 0 < noise X.
  Proof. clear HT Hn. intros HX. unfold noise. pose proof eta_pos. apply Rmult_lt_0_compat; [apply Rmult_lt_0_compat; lra|assumption]. Qed.
  Lemma nr_real v x : holds v x -> fits_nr (real v) -> forall k w r q, holds w r -> Rabs (1 - real v * real w) <= q -> q <= 1 -> refine (real v) q <= q ->
    yo T (repeatv k (nr_stepv (pr := pr) (within E) x) r) (fun z => exists u, holds u z /\ Rabs (1 - real v * real u) <= Nat.iter k (refine (real v)) q).
  Proof.
    intros Hx HF. induction k as [|k IH]; intros w r q Hr Hq Q1 Q2.
    - cbn [repeatv Nat.iter nat_rect]. apply yo_ok. exists w. split; assumption.
    - cbn [repeatv]. assert (Q0 : 0 <= q) by (eapply Rle_trans; [apply Rabs_pos|exact Hq]). assert (N : 0 < noise (real v)) by (apply noise_pos, HF).
      eapply yo_bind; [apply (nr_step_real v x w r q Hx HF Hr Hq Q1); unfold refine in Q2; lra|]. intros y (u & Hu & Bu).
      rewrite Nat_iter_S'. apply (IH u y (refine (real v) q) Hu Bu); [lra|].
      unfold refine at 1. assert (M : refine (real v) q * refine (real v) q <= q * q) by (apply Rmult_le_compat; unfold refine in *; nra). change (refine (real v) q) with (q * q + noise (real v)) at 3. lra.
  Qed.

  (** ** The first estimate, and the reciprocal of a positive number *)
  Definition fits_exp (d : nat) (v : Z) : Prop := IZR s * IZR s * (top1 (exact_exp d v) * factor d) < IZR H63 /\ IZR s * (1 + Rabs (real v) / 2 ^ d + eta) < IZR H63.
  Definition exp_near (d : nat) (a q : R) : Prop := Rabs (q - a) <= top1 a * (factor d - 1) /\
    ((1 <= d)%nat -> let b := sqrt a in Rabs (q - a) <= top1 b * (factor (d - 1) - 1) * (top1 b * (factor (d - 1) - 1) + 2 * b) + eta).
  Lemma float_real a b : (0 <= a)%Z -> Rabs (real (encodeQ s (a # b)) - IZR a / IZR (Zpos b)) <= / IZR s.
  Proof. clear HT Hn.
    intros H. pose proof s_pos as S. unfold encodeQ. cbn [Qnum Qden]. set (q := Z.quot (s * a) (Zpos b)).
    pose proof (Z.quot_rem' (s * a) (Zpos b)) as Hq. fold q in Hq. pose proof (Z.rem_bound_pos (s * a) (Zpos b) ltac:(nia) ltac:(lia)) as Hr. set (r := Z.rem (s * a) (Zpos b)) in *.
    assert (B : 0 < IZR (Zpos b)) by (apply IZR_lt; lia). apply (f_equal IZR) in Hq. rewrite plus_IZR, !mult_IZR in Hq. destruct Hr as [R1 R2]. apply IZR_le in R1. apply IZR_lt in R2.
    assert (X : real q - IZR a / IZR (Zpos b) = - (IZR r / (IZR s * IZR (Zpos b)))).
    { unfold real. replace (IZR a) with ((IZR (Zpos b) * IZR q + IZR r) / IZR s) by (rewrite <- Hq; field; lra). field. lra. }
    rewrite X, Rabs_Ropp. assert (P : 0 < / (IZR s * IZR (Zpos b))) by (apply Rinv_0_lt_compat, Rmult_lt_0_compat; assumption).
    unfold Rdiv. rewrite Rabs_right by (apply Rle_ge, Rmult_le_pos; lra). replace (/ IZR s) with (IZR (Zpos b) * / (IZR s * IZR (Zpos b))) by (field; lra). apply Rmult_le_compat_r; lra.
  Qed.
  Lemma nr_initial_real d v x : holds v x -> in64 (s - v * 2) -> fits_exp d (s - v * 2) ->
    yo T (nr_initialv (pr := pr) (within E) d x) (fun z => exists w q e, nshare n w s z /\ real w = 3 * q + e /\ exp_near d (exp_approx d (1 - 2 * real v)) q /\ Rabs (e - 3 / 1000) <= / IZR s).
  Proof.
    intros [Hx _] I [F1 F2]. pose proof s_pos as S. unfold nr_initialv.
    assert (Y : holds (s - v * 2) (one_minus (muli_num 2 x))) by (split; [apply (one_minus_ok n Hn), (muli_num_ok n); exact Hx|exact I]).
    eapply yo_bind; [apply (exp_real d _ _ Y F1 F2)|]. intros y (q & [Hq _] & B1 & B2). apply yo_ok. exists (q * 3 + encodeQ s (3 # 1000))%Z, (real q), (real (encodeQ s (3 # 1000))).
    split; [apply (add_public n Hn _ _ _ (AFloat (3 # 1000))); [exact Logic.I|apply (muli_num_ok n); exact Hq]|]. split; [unfold real; rewrite plus_IZR, mult_IZR; field; lra|].
    split; [|apply (float_real 3 1000); lia]. unfold exact_exp in B1, B2. replace (real (s - v * 2)) with (1 - 2 * real v) in B1, B2 by (unfold real; rewrite minus_IZR, mult_IZR; field; lra). split; assumption.
  Qed.
  Lemma reciprocal_pos_real d k v x q0 : holds v x -> in64 (s - v * 2) -> fits_exp d (s - v * 2) -> fits_nr (real v) ->
    (forall q e, exp_near d (exp_approx d (1 - 2 * real v)) q -> Rabs (e - 3 / 1000) <= / IZR s -> Rabs (1 - real v * (3 * q + e)) <= q0) -> q0 <= 1 -> refine (real v) q0 <= q0 ->
    yo T (reciprocal_posv (pr := pr) (within E) d k x) (fun z => exists u, holds u z /\ Rabs (1 - real v * real u) <= Nat.iter k (refine (real v)) q0).
  Proof.
    intros Hx I Fe Fn Hq Q1 Q2. unfold reciprocal_posv. eapply yo_bind; [apply (nr_initial_real d v x Hx I Fe)|]. intros r (w & q & e & Hw & Ew & Bq & Be).
    specialize (Hq q e Bq Be). rewrite <- Ew in Hq. apply (nr_real v x Hx Fn k w r q0); try assumption. destruct Fn as (X & F1 & _).
    eapply holds_bound; [exact Hw|eapply near_inverse; eassumption|]. eapply Rle_lt_trans; [exact F1|]. change (IZR H63) with (IZR 9223372036854775808). lra.
  Qed.
  Lemma mulv_l1 vx vy x y : nshare n vx 1 x -> nshare n vy s y -> yo T (mulv (pr := pr) (within E) x y) (nshare n (vx * vy) s).
  Proof.
    intros [Hx Sx] [Hy Sy]. unfold mulv. eapply (yo_lift _ _ _ (fun t => let '(a, b, c) := t in _)); [intros st; exact (v_mul n pr HV st)|]. intros [[a b] c] Ht. rewrite Sx, Sy. cbv zeta.
    unfold mul_rescale. cbn [Z.ltb Z.compare Pos.compare Pos.compare_cont andb]. apply yo_ok. split; [eapply (mul1_share n Hn); eassumption|reflexivity].
  Qed.
  Lemma mulv_r1 vx vy x y : nshare n vx s x -> nshare n vy 1 y -> yo T (mulv (pr := pr) (within E) x y) (nshare n (vx * vy) s).
  Proof.
    intros [Hx Sx] [Hy Sy]. unfold mulv. eapply (yo_lift _ _ _ (fun t => let '(a, b, c) := t in _)); [intros st; exact (v_mul n pr HV st)|]. intros [[a b] c] Ht. rewrite Sx, Sy. cbv zeta.
    unfold mul_rescale. cbn [Z.ltb Z.compare Pos.compare Pos.compare_cont]. rewrite Bool.andb_false_r. replace (1 <? s)%Z with true by (symmetry; apply Z.ltb_lt; lia). apply yo_ok. split; [eapply (mul1_share n Hn); eassumption|reflexivity].
  Qed.
  (** the sign is a number of scale 1: multiplying by it rounds nothing *)
  Hypothesis HR : ratio D s = 1%Z.
  Definition sg (v : Z) : Z := if (v <? 0)%Z then (-1)%Z else 1%Z.
  Lemma sg_abs v : (sg v * v = Z.abs v)%Z. Proof. clear HT Hn Hs HE. unfold sg. destruct (Z.ltb_spec v 0); lia. Qed.
  Lemma reciprocal_real d k v x q0 : let w := Z.abs v in nshare n v s x -> in64 v -> in64 w -> in64 (s - w * 2) -> fits_exp d (s - w * 2) -> fits_nr (real w) ->
    (forall q e, exp_near d (exp_approx d (1 - 2 * real w)) q -> Rabs (e - 3 / 1000) <= / IZR s -> Rabs (1 - real w * (3 * q + e)) <= q0) -> q0 <= 1 -> refine (real w) q0 <= q0 ->
    yo T (reciprocalv (pr := pr) D (within E) d k x) (fun z => exists u, nshare n (sg v * u) s z /\ in64 u /\ Rabs (1 - real w * real u) <= Nat.iter k (refine (real w)) q0).
  Proof.
    intros w Hx Iv Iw I Fe Fn Hq Q1 Q2. unfold reciprocalv. eapply yo_lift; [apply (n_sign_ok n Hn pr HV D v s x HR Iv Hx)|]. intros sgn Hs'.
    eapply yo_bind; [apply (mulv_l1 (sg v) v); [exact Hs'|exact Hx]|]. rewrite sg_abs. fold w. intros p Hp.
    eapply yo_bind; [apply (reciprocal_pos_real d k w p q0 (conj Hp Iw) I Fe Fn Hq Q1 Q2)|]. intros r (u & [Hu Iu] & Bu).
    eapply yo_weaken; [apply (mulv_l1 (sg v) u); [exact Hs'|exact Hu]|]. intros z Hz. exists u. split; [exact Hz|]. split; assumption.
  Qed.

  (** ** Sigmoid *)
  Lemma where_real c u y r l : (c = 0 \/ c = 1)%Z -> nshare n u s r -> nshare n y s l -> forall b, nshare n c 1 b -> yo T (wherev (pr := pr) (within E) r b l) (nshare n (if (c =? 1)%Z then u else y) s).
  Proof.
    intros Hc Hr Hl b Hb. unfold wherev. eapply yo_bind; [apply (mulv_l1 (1 - c) y); [apply (one_minus_ok n Hn); exact Hb|exact Hl]|]. intros ym Hy.
    eapply yo_bind; [apply (mulv_r1 u c); [exact Hr|exact Hb]|]. intros xm Hxm. apply yo_ok. eapply nshare_eqm; [|apply (add_enc_ok n); [exact Hxm|exact Hy]]. apply eqm_refl_eq. destruct Hc as [-> | ->]; [change (0 =? 1)%Z with false|change (1 =? 1)%Z with true]; cbv iota; ring.
  Qed.
  Lemma nr_first_error X p f g q : 0 < X -> Rabs (f - 9 / 16) <= q -> Rabs (g - 3 / 2) <= q -> q <= eta -> Rabs (p - X * f) <= eta -> Rabs (1 - X * (- p + g)) <= (1 - X * (3 / 4)) * (1 - X * (3 / 4)) + X * (X + 2) * eta.
  Proof.
    intros HX Hf Hg Hq Hp. replace (1 - X * (- p + g)) with ((1 - X * (3 / 4)) * (1 - X * (3 / 4)) + X * ((p - X * f) + X * (f - 9 / 16) - (g - 3 / 2))) by field.
    eapply Rle_trans; [apply Rabs_triang|]. apply Rplus_le_compat; [right; apply Rabs_right, Rle_ge; apply (Rle_0_sqr (1 - X * (3 / 4)))|]. rewrite Rabs_mult, (Rabs_right X) by lra. rewrite Rmult_assoc. apply Rmult_le_compat_l; [lra|].
    unfold Rminus at 1. eapply Rle_trans; [apply Rabs_triang|]. rewrite Rabs_Ropp. assert (Rabs (p - X * f + X * (f - 9 / 16)) <= eta + X * eta); [|lra].
    eapply Rle_trans; [apply Rabs_triang|]. rewrite Rabs_mult, (Rabs_right X) by lra. assert (X * Rabs (f - 9 / 16) <= X * eta) by (apply Rmult_le_compat_l; lra). lra.
  Qed.
  Lemma nr_first_real v x : holds v x -> fits_nr (real v) -> IZR s * IZR s * (real v * (9 / 16 + eta)) < IZR H63 -> let q := (1 - real v * (3 / 4)) * (1 - real v * (3 / 4)) + real v * (real v + 2) * eta in q <= 1 ->
    yo T (nr_firstv (pr := pr) (within E) x (3 # 4)) (fun z => exists u, holds u z /\ Rabs (1 - real v * real u) <= q).
  Proof.
    intros Hx (HX & F1 & _) F q Q1. pose proof s_pos as S. pose proof eta_pos as Ep. assert (Hi : / IZR s <= eta). { unfold eta, Rdiv. pose proof (Rinv_0_lt_compat _ S). rewrite <- (Rmult_1_l (/ IZR s)) at 1. apply Rmult_le_compat_r; [lra|]. apply IZR_le. exact HE. }
    unfold nr_firstv. rewrite (proj2 (proj1 Hx)). change ((3 # 4) * (3 # 4))%Q with (9 # 16)%Q. change (2 * (3 # 4))%Q with (6 # 4)%Q.
    pose proof (float_real 9 16 ltac:(lia)) as Bf. pose proof (float_real 6 4 ltac:(lia)) as Bg. set (f := encodeQ s (9 # 16)) in *. 
    eapply yo_bind; [apply (mulp_real v f x Hx); eapply real_product; [right; apply Rabs_right; lra| |exact F]|].
    { replace (real f) with (9 / 16 + (real f - 9 / 16)) by ring. eapply Rle_trans; [apply Rabs_triang|]. apply Rplus_le_compat; [right; apply Rabs_right; lra|lra]. }
    intros p (u & [Hu _] & Bu). apply yo_ok. exists (- u + encodeQ s (6 # 4))%Z.
    assert (R1 : real (- u + encodeQ s (6 # 4)) = - real u + real (encodeQ s (6 # 4))) by (unfold real; rewrite plus_IZR, opp_IZR; field; lra).
    assert (B : Rabs (1 - real v * real (- u + encodeQ s (6 # 4))) <= q).
    { rewrite R1. apply (nr_first_error _ _ (real f) _ (/ IZR s)); try assumption. replace (3 / 2) with (6 / 4) by field. exact Bg. }
    split; [|exact B]. eapply holds_bound; [apply (add_public n Hn _ _ _ (AFloat (6 # 4))); [exact Logic.I|apply (neg_num_ok n); exact Hu]|eapply near_inverse; [exact HX|exact B|exact Q1]|].
    eapply Rle_lt_trans; [exact F1|]. change (IZR H63) with (IZR 9223372036854775808). lra.
  Qed.
  Lemma three_steps T' e p : 0 <= e <= 1 -> 0 <= p <= 1 / 8 -> eta <= 1 / 1024 -> Rabs (T' - 1 - e) <= p ->
    let q1 := (1 - T' * (3 / 4)) * (1 - T' * (3 / 4)) + T' * (T' + 2) * eta in let q2 := q1 * q1 + noise T' in
    7 / 8 <= T' <= 17 / 8 /\ q1 <= 1 /\ q2 <= 1 /\ q2 * q2 + noise T' <= 1 / 256 + p / 8 + 16 * eta.
  Proof.
    intros He Hp Ht Hd. apply Rabs_def2' in Hd. pose proof eta_pos as Ep. cbv zeta. assert (B : 7 / 8 <= T' <= 17 / 8) by lra.
    set (m := 1 - T' * (3 / 4)). assert (M : - (1 / 2 + 3 / 4 * p) <= m <= 1 / 2 + 3 / 4 * p) by (unfold m; lra).
    set (a := m * m). assert (A : 0 <= a <= 1 / 4 + 821 / 1000 * p). { unfold a. split; [nra|]. assert (m * m <= (1 / 2 + 3 / 4 * p) * (1 / 2 + 3 / 4 * p)) by nra. nra. }
    assert (A2 : a * a <= 1 / 16 + 495 / 1000 * p) by (assert (a * a <= (1 / 4 + 821 / 1000 * p) * (1 / 4 + 821 / 1000 * p)) by nra; nra).
    assert (A4 : a * a * (a * a) <= 1 / 256 + p / 8) by (assert (a * a * (a * a) <= (1 / 16 + 495 / 1000 * p) * (1 / 16 + 495 / 1000 * p)) by nra; nra).
    assert (C : 0 <= T' * (T' + 2) <= 9) by nra. assert (N : 0 <= noise T' <= 7 * eta). { unfold noise. assert (0 <= T' * (T' + 1) <= 7) by nra. nra. }
    set (k := T' * (T' + 2) * eta). assert (K : 0 <= k <= 9 * eta) by (unfold k; nra).
    assert (Q1 : 0 <= a + k <= 1 / 2) by lra. assert (Q2 : 0 <= (a + k) * (a + k) + noise T' <= a * a + 14 * eta). { split; [nra|]. assert (2 * a * k <= 6 / 1 * 9 / 8 * eta) by nra. assert (k * k <= 1 / 10 * eta) by nra. nra. }
    split; [exact B|]. split; [lra|]. split; [nra|]. assert (Q3 : ((a + k) * (a + k) + noise T') * ((a + k) * (a + k) + noise T') <= (a * a + 14 * eta) * (a * a + 14 * eta)) by nra.
    assert (a * a <= 1 / 8) by lra. nra.
  Qed.
  Lemma sigmoid_real d v x : let w := Z.abs v in (1 <= d)%nat -> nshare n v s x -> in64 v -> in64 w -> real w <= 2 ^ d -> factor d - 1 <= 1 / 8 -> eta <= 1 / 1024 -> (s <= 2 ^ 28)%Z ->
    yo T (sigmoidv (pr := pr) D (within E) d x) (fun z => exists u t, nshare n (if (v <? 0)%Z then s - u else u) s z /\ in64 u /\
      Rabs (t - exp_approx d (- real w)) <= factor d - 1 /\ Rabs (1 - (1 + t) * real u) <= 1 / 256 + (factor d - 1) / 8 + 16 * eta).
  Proof.
    intros w Hd Hx Iv Iw Bw F8 E8 S28. pose proof s_pos as S. pose proof eta_pos as Ep. assert (S28' : IZR s <= 268435456) by (apply (IZR_le s 268435456), S28).
    assert (W0 : 0 <= real w) by (unfold real, w; apply Rmult_le_pos; [apply IZR_le; lia|left; now apply Rinv_0_lt_compat]). assert (P2 : 0 < 2 ^ d) by (apply pow_lt; lra). pose proof (factor_ge d) as Fd.
    unfold sigmoidv. eapply yo_lift; [apply (ltz_ok n Hn pr HV D v s x Hx)|]. intros l Hl. rewrite (wrap_id v Iv), HR in Hl. set (c := if (v <? 0)%Z then 1%Z else 0%Z) in *. rewrite Z.mul_1_r in Hl.
    eapply yo_bind; [apply (mulv_r1 v (1 - c * 2)); [exact Hx|apply (one_minus_ok n Hn), (muli_num_ok n); exact Hl]|]. intros p Hp.
    assert (Ev : (v * (1 - c * 2) = w)%Z) by (unfold c, w; destruct (Z.ltb_spec v 0); lia). rewrite Ev in Hp.
    assert (Hm : holds (- w) (neg_num p)) by (split; [apply (neg_num_ok n); exact Hp|unfold in64, w in *; lia]).
    assert (Rm : real (- w) = - real w) by (unfold real; rewrite opp_IZR; field; lra).
    assert (U : 0 <= exp_approx d (- real w) <= 1). { apply (exp_unit (with_exp_iterations d default)); [exact Hd|]. cbn [with_exp_iterations exp_iterations]. lra. }
    assert (T1 : top1 (exact_exp d (- w)) = 1) by (unfold top1, exact_exp; rewrite Rm, Rabs_right by lra; apply Rmax_left; lra).
    assert (Fe : fits_exp d (- w)).
    { split; [rewrite T1, Rmult_1_l; assert (IZR s * IZR s <= 268435456 * 268435456) by (apply Rmult_le_compat; lra); assert (IZR s * IZR s * factor d <= 268435456 * 268435456 * 2) by (apply Rmult_le_compat; nra); change (IZR H63) with (IZR 9223372036854775808); lra|]. rewrite Rm, Rabs_Ropp, Rabs_right by lra.
      assert (real w / 2 ^ d <= 1) by (apply Rmult_le_reg_r with (2 ^ d); [exact P2|]; unfold Rdiv; rewrite Rmult_assoc, Rinv_l by lra; lra).
      assert (IZR s * (1 + real w / 2 ^ d + eta) <= IZR s * 3) by (apply Rmult_le_compat_l; lra). change (IZR H63) with (IZR 9223372036854775808). lra. }
    eapply yo_bind; [apply (exp_real d _ _ Hm (proj1 Fe) (proj2 Fe))|]. intros y (q & [Hq Iq] & B1 & _). rewrite T1, Rmult_1_l in B1. unfold exact_exp in B1. rewrite Rm in B1.
    assert (Rq : real (q + 1 * s) = 1 + real q) by (unfold real; rewrite plus_IZR, Z.mul_1_l; field; lra).
    assert (Bq : Rabs (1 + real q - 1 - exp_approx d (- real w)) <= factor d - 1) by (replace (1 + real q - 1) with (real q) by ring; exact B1).
    destruct (three_steps (1 + real q) _ (factor d - 1) U ltac:(lra) E8 Bq) as (BT & Q1 & Q2 & Q3). rewrite <- Rq in BT, Q1, Q2, Q3.
    assert (HT' : holds (q + 1 * s) (add_num y (AInt 1))).
    { eapply holds_bound; [apply (add_int_ok n Hn); exact Hq|rewrite Rabs_right by lra; apply BT|]. change (IZR H63) with (IZR 9223372036854775808). lra. }
    assert (Fn : fits_nr (real (q + 1 * s))).
    { set (X := real (q + 1 * s)) in *. assert (IX : 0 < / X <= 8 / 7). { split; [apply Rinv_0_lt_compat; lra|]. replace (8 / 7) with (/ (7 / 8)) by field. apply Rinv_le_contravar; lra. }
      split; [lra|]. split; [unfold Rdiv; assert (IZR s * (2 * / X) <= IZR s * (16 / 7)) by (apply Rmult_le_compat_l; lra); lra|].
      replace ((4 / (X * X) + eta) * X) with (4 * / X + eta * X) by (field; lra). assert (eta * X <= 1) by nra. assert (4 * / X + eta * X <= 6) by lra.
      assert (IZR s * IZR s <= 268435456 * 268435456) by (apply Rmult_le_compat; lra). assert (0 <= IZR s * IZR s) by nra. assert (0 <= 4 * / X + eta * X) by nra.
      assert (IZR s * IZR s * (4 * / X + eta * X) <= 268435456 * 268435456 * 6) by (apply Rmult_le_compat; lra). change (IZR H63) with (IZR 9223372036854775808). lra. }
    unfold reciprocal_fromv. eapply yo_bind.
    { eapply yo_bind; [apply (nr_first_real _ _ HT' Fn); [|exact Q1]|].
      { set (X := real (q + 1 * s)) in *. assert (X * (9 / 16 + eta) <= 2) by nra. assert (IZR s * IZR s <= 268435456 * 268435456) by (apply Rmult_le_compat; lra). assert (0 <= IZR s * IZR s) by nra. assert (0 <= X * (9 / 16 + eta)) by nra.
        assert (IZR s * IZR s * (X * (9 / 16 + eta)) <= 268435456 * 268435456 * 2) by (apply Rmult_le_compat; lra). change (IZR H63) with (IZR 9223372036854775808). lra. }
      intros r (u & Hu & Bu). change (3 - 1)%nat with 2%nat. cbn [repeatv].
      eapply yo_bind; [apply (nr_step_real _ _ _ _ _ HT' Fn Hu Bu Q1 Q2)|]. intros r2 (u2 & Hu2 & Bu2).
      eapply yo_bind; [apply (nr_step_real _ _ _ _ _ HT' Fn Hu2 Bu2 Q2); lra|]. intros r3 (u3 & Hu3 & Bu3). apply yo_ok. instantiate (1 := fun r3 => exists u3, holds u3 r3 /\ Rabs (1 - real (q + 1 * s) * real u3) <= 1 / 256 + (factor d - 1) / 8 + 16 * eta).
      exists u3. split; [exact Hu3|]. lra. }
    intros r (u & [Hu Iu] & Bu). rewrite Rq in Bu.
    assert (Hc : (1 - c = 0 \/ 1 - c = 1)%Z) by (unfold c; destruct (v <? 0)%Z; lia).
    eapply yo_weaken; [apply (where_real (1 - c) u (s - u) r _ Hc Hu ltac:(apply (one_minus_ok n Hn); exact Hu)); apply (one_minus_ok n Hn); exact Hl|].
    intros z Hz. exists u, (real q). split; [|split; [exact Iu|split; [exact B1|exact Bu]]]. unfold c in Hz. destruct (v <? 0)%Z; exact Hz.
  Qed.
End N.

(** Rational Chebyshev coefficients of tanh and a proof of their accuracy (used by C106).
    A series p with coefficients [c] satisfies p' = 1 - p^2 up to the residual [residual c], which is computed as a series too; so p is near tanh on [-1, 1],
    and by discrete orthogonality its coefficients are near those computed from the values of tanh at the nodes. *)
Require Import ZArith QArith Qreals Qabs List Bool Lia Reals Lra Psatz Arith.
From Verif Require Import Rtensor Rtensor_proofs Realgrad Realgrad_claims Approx Approx_claims Approxfn_claims Approxcheb_claims Interp_claims.
From Verif Require Import Ring64 Encoder Arith Beaver Trunc Provider Binary Compare Compare_claims Maximum Regular Program Shareapprox_proofs Shareapprox_claims Sharecheb Sharecheb_claims.
Import ListNotations.
Open Scope R_scope.

(** the coefficients for 32 terms, in units of 10^-12 *)
Definition coeffs32 : list Q := [0 # 1000000000000; 811675685132 # 1000000000000; 0 # 1000000000000; -54245810326 # 1000000000000; 0 # 1000000000000; 4516821993 # 1000000000000; 0 # 1000000000000; -382447171 # 1000000000000; 0 # 1000000000000; 32443948 # 1000000000000; 0 # 1000000000000; -2752950 # 1000000000000; 0 # 1000000000000; 233602 # 1000000000000; 0 # 1000000000000; -19822 # 1000000000000; 0 # 1000000000000; 1682 # 1000000000000; 0 # 1000000000000; -143 # 1000000000000; 0 # 1000000000000; 12 # 1000000000000; 0 # 1000000000000; -1 # 1000000000000; 0 # 1000000000000; 0 # 1000000000000; 0 # 1000000000000; 0 # 1000000000000; 0 # 1000000000000; 0 # 1000000000000; 0 # 1000000000000; 0 # 1000000000000]%Q.

(** ** Series *)
Fixpoint evf (k : nat) (c : list Q) (x : R) : R := match c with [] => 0 | a :: r => Q2R a * first_kind k x + evf (S k) r x end.
Fixpoint add_at (k : nat) (v : Q) (l : list Q) : list Q :=
  match k, l with O, [] => [v] | O, a :: r => Qred (a + v) :: r | S k, [] => 0%Q :: add_at k v [] | S k, a :: r => a :: add_at k v r end.
Lemma evf_add k : forall m v l x, evf m (add_at k v l) x = evf m l x + Q2R v * first_kind (m + k) x.
Proof.
  induction k as [|k IH]; intros m v [|a l] x; cbn [add_at evf]; rewrite ?Nat.add_0_r.
  - ring.
  - rewrite (Qeq_eqR _ _ (Qred_correct (a + v))), Q2R_plus. ring.
  - rewrite IH. cbn [evf]. replace (S m + k)%nat with (m + S k)%nat by lia. rewrite RMicromega.Q2R_0. ring.
  - rewrite IH. replace (S m + k)%nat with (m + S k)%nat by lia. ring.
Qed.
(** the product of two series on [-1, 1] *)
Definition apart (i j : nat) : nat := (i - j + (j - i))%nat.
Lemma kind_product i j x : -1 <= x <= 1 -> first_kind i x * first_kind j x = (first_kind (i + j) x + first_kind (apart i j) x) / 2.
Proof.
  intros X. replace x with (cos (acos x)) by (apply cos_acos; lra). set (t := acos x). rewrite !(fun m => proj1 (first_kind_cos t m)).
  replace (INR (i + j) * t) with (INR i * t + INR j * t) by (rewrite plus_INR; ring). rewrite cos_plus.
  assert (A : cos (INR (apart i j) * t) = cos (INR i * t - INR j * t)). { unfold apart. destruct (Nat.le_ge_cases i j) as [L|L]; [replace (i - j)%nat with 0%nat by lia; cbn [Nat.add]; rewrite minus_INR by exact L; rewrite <- cos_neg; f_equal; ring|replace (j - i)%nat with 0%nat by lia; rewrite Nat.add_0_r, minus_INR by exact L; f_equal; ring]. }
  rewrite A, cos_minus. field.
Qed.
Fixpoint mul_row (i : nat) (a : Q) (j : nat) (bs acc : list Q) : list Q :=
  match bs with [] => acc | b :: r => if Qeq_bool b 0 then mul_row i a (S j) r acc else mul_row i a (S j) r (add_at (i + j) (a * b / 2) (add_at (apart i j) (a * b / 2) acc)) end.
Fixpoint mul_all (i : nat) (l bs acc : list Q) : list Q :=
  match l with [] => acc | a :: r => if Qeq_bool a 0 then mul_all (S i) r bs acc else mul_all (S i) r bs (mul_row i a 0 bs acc) end.
Lemma zero_coef b : Qeq_bool b 0 = true -> Q2R b = 0. Proof. intros H. apply Qeq_bool_iff, Qeq_eqR in H. rewrite H. apply RMicromega.Q2R_0. Qed.
Lemma ev_row x i a : -1 <= x <= 1 -> forall bs j acc, evf 0 (mul_row i a j bs acc) x = evf 0 acc x + Q2R a * first_kind i x * evf j bs x.
Proof.
  intros X. induction bs as [|b bs IH]; intros j acc; cbn [mul_row evf]; [ring|]. destruct (Qeq_bool b 0) eqn:B; rewrite IH.
  - rewrite (zero_coef b B). ring.
  - rewrite !evf_add. cbn [Nat.add]. rewrite Q2R_div, Q2R_mult by discriminate. replace (Q2R 2) with 2 by (unfold Q2R; cbn; lra). pose proof (kind_product i j x X) as K. replace (first_kind (i + j) x) with (2 * (first_kind i x * first_kind j x) - first_kind (apart i j) x) by lra. field.
Qed.
Lemma ev_all x bs : -1 <= x <= 1 -> forall l i acc, evf 0 (mul_all i l bs acc) x = evf 0 acc x + evf i l x * evf 0 bs x.
Proof.
  intros X. induction l as [|a l IH]; intros i acc; cbn [mul_all evf]; [ring|]. destruct (Qeq_bool a 0) eqn:A; rewrite IH; [rewrite (zero_coef a A); ring|]. rewrite ev_row by exact X. ring.
Qed.
(** the derivative *)
Lemma swing_kind n x : swing (2 * x) (S (S n)) - swing (2 * x) n = 2 * first_kind (S n) x.
Proof. revert n. apply two_steps; [cbn; ring|cbn; ring|]. intros n I1 I2. rewrite first_kind_SS. rewrite (swing_SS (2 * x) (S (S n))). rewrite (swing_SS (2 * x) n) at 2. replace (2 * (2 * x * first_kind (S (S n)) x - first_kind (S n) x)) with (2 * x * (2 * first_kind (S (S n)) x) - 2 * first_kind (S n) x) by ring. rewrite <- I1, <- I2. ring. Qed.
Lemma kind_swing n x : kind_d n 1 x = INR n * swing (2 * x) n.
Proof.
  revert n. apply two_steps; [cbn; ring|cbn; ring|]. intros n I1 I2. rewrite kind_d_SS, I1, I2. replace (1 - 1)%nat with 0%nat by lia. rewrite kind_d_0. pose proof (swing_kind n x) as K. pose proof (swing_SS (2 * x) n) as W. replace (first_kind (S n) x) with ((swing (2 * x) (S (S n)) - swing (2 * x) n) / 2) by lra. rewrite W, !S_INR. cbn [INR]. field.
Qed.
Fixpoint add_swing (m : nat) (v : Q) (acc : list Q) : list Q :=
  match m with O => acc | S k => match k with O => add_at 0 v acc | S j => add_swing j v (add_at k (2 * v) acc) end end.
Lemma ev_swing m x v : forall acc, evf 0 (add_swing m v acc) x = evf 0 acc x + Q2R v * swing (2 * x) m.
Proof.
  pattern m. apply two_steps; clear m; [intros acc; cbn [add_swing swing]; ring|intros acc; cbn [add_swing swing]; rewrite evf_add; cbn [Nat.add first_kind]; ring|]. intros m I1 _ acc. change (add_swing (S (S m)) v acc) with (add_swing m v (add_at (S m) (2 * v) acc)). rewrite I1, evf_add, Q2R_mult. replace (Q2R 2) with 2 by (unfold Q2R; cbn; lra). pose proof (swing_kind m x). cbn [Nat.add]. replace (swing (2 * x) (S (S m))) with (swing (2 * x) m + 2 * first_kind (S m) x) by lra. ring.
Qed.
Fixpoint deriv (k : nat) (c acc : list Q) : list Q := match c with [] => acc | a :: r => if Qeq_bool a 0 then deriv (S k) r acc else deriv (S k) r (add_swing k (inject_Z (Z.of_nat k) * a) acc) end.
Fixpoint evd (k : nat) (c : list Q) (x : R) : R := match c with [] => 0 | a :: r => Q2R a * kind_d k 1 x + evd (S k) r x end.
Lemma ev_deriv x c : forall k acc, evf 0 (deriv k c acc) x = evf 0 acc x + evd k c x.
Proof.
  induction c as [|a c IH]; intros k acc; cbn [deriv evd]; [ring|]. destruct (Qeq_bool a 0) eqn:A; rewrite IH; [rewrite (zero_coef a A); ring|]. rewrite ev_swing, Q2R_mult, kind_swing. replace (Q2R (inject_Z (Z.of_nat k))) with (INR k) by (unfold Q2R, inject_Z; cbn [Qnum Qden]; rewrite INR_IZR_INZ; field). ring.
Qed.
Lemma evf_lim c : forall k x, derivable_pt_lim (evf k c) x (evd k c x).
Proof.
  induction c as [|a c IH]; intros k x; cbn [evd]; [apply (lim_ext _ (fct_cte 0) x 0); try reflexivity; apply derivable_pt_lim_const|].
  apply (lim_ext _ (fun y => Q2R a * kind_d k 0 y + evf (S k) c y) x (Q2R a * kind_d k 1 x + evd (S k) c x)); [intros y; cbn [evf]; now rewrite kind_d_0|reflexivity|].
  apply (derivable_pt_lim_plus (fun y => Q2R a * kind_d k 0 y) (evf (S k) c)); [apply (derivable_pt_lim_scal (kind_d k 0)); apply kind_smooth|apply IH].
Qed.
Definition total (c : list Q) : Q := fold_right (fun a r => (Qabs a + r)%Q) 0%Q c.
Lemma Q2R_abs a : Q2R (Qabs a) = Rabs (Q2R a).
Proof. destruct (Qlt_le_dec a 0) as [L|L]; [rewrite (Qeq_eqR _ _ (Qabs_neg a (Qlt_le_weak _ _ L))), Q2R_opp; apply Qlt_Rlt in L; rewrite RMicromega.Q2R_0 in L; rewrite Rabs_left; lra|rewrite (Qeq_eqR _ _ (Qabs_pos a L)); apply Qle_Rle in L; rewrite RMicromega.Q2R_0 in L; rewrite Rabs_right; lra]. Qed.
Lemma evf_bound x c : -1 <= x <= 1 -> forall k, Rabs (evf k c x) <= Q2R (total c).
Proof.
  intros X. induction c as [|a c IH]; intros k; cbn [evf total fold_right]; [rewrite Rabs_R0, RMicromega.Q2R_0; lra|]. fold (total c). rewrite Q2R_plus, Q2R_abs. eapply Rle_trans; [apply Rabs_triang|]. apply Rplus_le_compat; [|apply IH]. rewrite Rabs_mult. pose proof (first_kind_small k x X). pose proof (Rabs_pos (Q2R a)). nra.
Qed.

(** ** Near tanh *)
Definition residual (c : list Q) : list Q := mul_all 0 c c (deriv 0 c [(-1)%Q]).
Lemma residual_ok c x : -1 <= x <= 1 -> evd 0 c x = 1 - evf 0 c x * evf 0 c x + evf 0 (residual c) x.
Proof. intros X. unfold residual. rewrite (ev_all x c X), ev_deriv. cbn [evf first_kind]. replace (Q2R (-1)) with (-1) by (unfold Q2R; cbn; lra). ring. Qed.
Lemma tanh_artanh p : -1 < p < 1 -> tanh ((ln (1 + p) - ln (1 - p)) / 2) = p.
Proof.
  intros P. set (u := (ln (1 + p) - ln (1 - p)) / 2). assert (E2 : exp u * exp u = (1 + p) / (1 - p)). { rewrite <- exp_plus. replace (u + u) with (ln (1 + p) + - ln (1 - p)) by (unfold u; field). rewrite exp_plus, exp_Ropp, !exp_ln by lra. reflexivity. }
  unfold tanh, sinh, cosh. rewrite exp_Ropp. pose proof (exp_pos u). set (e := exp u) in *. clearbody e. assert (0 < e * e + 1) by nra. assert (X : (e - / e) / 2 / ((e + / e) / 2) = (e * e - 1) / (e * e + 1)) by (field; repeat split; nra). rewrite X, E2. field. split; lra.
Qed.
Lemma near_tanh c B e x : (forall x, -1 <= x <= 1 -> Rabs (evf 0 c x) <= B) -> (forall x, -1 <= x <= 1 -> Rabs (evf 0 (residual c) x) <= e) -> B < 1 -> evf 0 c 0 = 0 -> -1 <= x <= 1 -> Rabs (evf 0 c x - tanh x) <= e / (1 - B * B).
Proof.
  intros HB He B1 P0 X. assert (B0 : 0 <= B) by (pose proof (HB 0 ltac:(lra)); pose proof (Rabs_pos (evf 0 c 0)); lra). assert (e0 : 0 <= e) by (pose proof (He 0 ltac:(lra)); pose proof (Rabs_pos (evf 0 (residual c) 0)); lra). set (p := evf 0 c) in *. set (G := fun y => (ln (1 + p y) - ln (1 - p y)) / 2 - y). set (K := e / (1 - B * B)).
  assert (Q0 : 0 < 1 - B * B) by nra. assert (D : forall y, -1 <= y <= 1 -> derivable_pt_lim G y (evf 0 (residual c) y / (1 - p y * p y)) /\ Rabs (evf 0 (residual c) y / (1 - p y * p y)) <= K).
  { intros y Y. pose proof (HB y Y) as By. apply Rabs_def2' in By. assert (Py : 0 < 1 - p y * p y) by nra. split.
    - pose proof (evf_lim c 0 y) as L. fold p in L. rewrite (residual_ok c y Y) in L. fold p in L. set (d := 1 - p y * p y + evf 0 (residual c) y) in *.
      apply (lim_ext _ (fun y => / 2 * (ln (1 + p y) - ln (1 - p y)) - id y) y (/ 2 * (/ (1 + p y) * d - / (1 - p y) * (- d)) - 1)).
      + intros z. unfold G, id. field.
      + unfold d. field. repeat split; nra.
      + apply (derivable_pt_lim_minus (fun y => / 2 * (ln (1 + p y) - ln (1 - p y))) id); [|apply derivable_pt_lim_id]. apply (derivable_pt_lim_scal (fun y => ln (1 + p y) - ln (1 - p y)) (/ 2)). apply (derivable_pt_lim_minus (fun y => ln (1 + p y)) (fun y => ln (1 - p y))).
        * apply (derivable_pt_lim_comp (fun y => 1 + p y) ln); [|apply derivable_pt_lim_ln; lra]. apply (lim_ext _ (fun y => fct_cte 1 y + p y) y (0 + d)); [reflexivity|ring|]. apply (derivable_pt_lim_plus (fct_cte 1) p); [apply derivable_pt_lim_const|exact L].
        * apply (derivable_pt_lim_comp (fun y => 1 - p y) ln); [|apply derivable_pt_lim_ln; lra]. apply (lim_ext _ (fun y => fct_cte 1 y - p y) y (0 - d)); [reflexivity|ring|]. apply (derivable_pt_lim_minus (fct_cte 1) p); [apply derivable_pt_lim_const|exact L].
    - unfold K, Rdiv. rewrite Rabs_mult, (Rabs_right (/ (1 - p y * p y))) by (apply Rle_ge; left; now apply Rinv_0_lt_compat). apply Rmult_le_compat; [apply Rabs_pos|left; now apply Rinv_0_lt_compat|apply He; exact Y|]. apply Rinv_le_contravar; nra. }
  assert (K0 : 0 <= K) by (unfold K; apply Rmult_le_pos; [exact e0|left; now apply Rinv_0_lt_compat]). assert (G0 : G 0 = 0) by (unfold G; rewrite P0; replace (1 + 0) with 1 by ring; replace (1 - 0) with 1 by ring; lra).
  assert (Gx : Rabs (G x) <= K). { destruct (Rtotal_order x 0) as [L|[->|L]]; [|rewrite G0, Rabs_R0; exact K0|].
    - destruct (MVT_cor2 G (fun y => evf 0 (residual c) y / (1 - p y * p y)) x 0 L (fun y Y => proj1 (D y ltac:(lra)))) as [y [Ey Y]]. rewrite G0 in Ey. replace (G x) with (evf 0 (residual c) y / (1 - p y * p y) * x) by lra. rewrite Rabs_mult. pose proof (proj2 (D y ltac:(lra))). assert (Rabs x <= 1) by (apply Rabs_le; lra). pose proof (Rabs_pos x). pose proof (Rabs_pos (evf 0 (residual c) y / (1 - p y * p y))). nra.
    - destruct (MVT_cor2 G (fun y => evf 0 (residual c) y / (1 - p y * p y)) 0 x L (fun y Y => proj1 (D y ltac:(lra)))) as [y [Ey Y]]. rewrite G0 in Ey. replace (G x) with (evf 0 (residual c) y / (1 - p y * p y) * x) by lra. rewrite Rabs_mult. pose proof (proj2 (D y ltac:(lra))). assert (Rabs x <= 1) by (apply Rabs_le; lra). pose proof (Rabs_pos x). pose proof (Rabs_pos (evf 0 (residual c) y / (1 - p y * p y))). nra. }
  pose proof (HB x X) as Bx. apply Rabs_def2' in Bx. rewrite <- (tanh_artanh (p x)) by lra. eapply Rle_trans; [apply tanh_lipschitz|]. exact Gx.
Qed.

(** ** The coefficients *)
Lemma theta_sum n i j : (i < n)%nat -> (j < n)%nat -> rsumn n (fun k => cos (INR i * theta n k) * cos (INR j * theta n k)) = if Nat.eq_dec i j then (if Nat.eq_dec i 0 then INR n else INR n / 2) else 0.
Proof.
  intros I J. rewrite (rsumn_ext n _ (fun k => 1 / 2 * (cos (INR (apart i j) * theta n k) + cos (INR (i + j) * theta n k)))).
  2: { intros k _. set (t := theta n k). replace (INR (i + j) * t) with (INR i * t + INR j * t) by (rewrite plus_INR; ring). rewrite cos_plus.
    assert (A : cos (INR (apart i j) * t) = cos (INR i * t - INR j * t)). { unfold apart. destruct (Nat.le_ge_cases i j) as [L|L]; [replace (i - j)%nat with 0%nat by lia; cbn [Nat.add]; rewrite minus_INR by exact L; rewrite <- cos_neg; f_equal; ring|replace (j - i)%nat with 0%nat by lia; rewrite Nat.add_0_r, minus_INR by exact L; f_equal; ring]. }
    rewrite A, cos_minus. field. }
  rewrite rsumn_scale, rsumn_plus. assert (Z : rsumn n (fun k => cos (INR 0 * theta n k)) = INR n) by (rewrite (rsumn_ext n _ (fun _ => 1)) by (intros k _; cbn [INR]; now rewrite Rmult_0_l, cos_0); rewrite rsumn_const; ring).
  destruct (Nat.eq_dec i j) as [->|E].
  - replace (apart j j) with 0%nat by (unfold apart; lia). rewrite Z. destruct (Nat.eq_dec j 0) as [->|J0]; [cbn [Nat.add]; rewrite Z; field|rewrite node_sum by lia; field].
  - rewrite !node_sum by (unfold apart; lia). field.
Qed.
Lemma series_sum n c j : (j < n)%nat -> (0 < j)%nat -> forall k, (k + length c <= n)%nat -> rsumn n (fun i => evf k c (node n i) * cos (INR j * theta n i)) = INR n / 2 * (if le_lt_dec k j then Q2R (nth (j - k) c 0%Q) else 0).
Proof.
  intros J J0. induction c as [|a c IH]; intros k L; cbn [evf length] in *.
  - rewrite rsumn_zero by (intros i _; ring). destruct (le_lt_dec k j); [|ring]. destruct (j - k)%nat; cbn [nth]; rewrite RMicromega.Q2R_0; ring.
  - rewrite (rsumn_ext n _ (fun i => Q2R a * (cos (INR k * theta n i) * cos (INR j * theta n i)) + evf (S k) c (node n i) * cos (INR j * theta n i))) by (intros i _; replace (node n i) with (cos (theta n i)) by reflexivity; rewrite (proj1 (first_kind_cos (theta n i) k)); ring).
    rewrite rsumn_plus, rsumn_scale, theta_sum, IH by lia. destruct (Nat.eq_dec k j) as [->|E].
    + destruct (Nat.eq_dec j 0); [lia|]. destruct (le_lt_dec (S j) j); [lia|]. destruct (le_lt_dec j j); [|lia]. rewrite Nat.sub_diag. cbn [nth]. ring.
    + destruct (le_lt_dec (S k) j) as [A|A], (le_lt_dec k j) as [A'|A']; try lia; [|ring]. replace (j - k)%nat with (S (j - S k)) by lia. cbn [nth]. ring.
Qed.
Lemma series_sum_0 n c : (0 < n)%nat -> forall k, (k + length c <= n)%nat -> (k = 0%nat -> Q2R (nth 0 c 0%Q) = 0) -> rsumn n (fun i => evf k c (node n i) * cos (INR 0 * theta n i)) = 0.
Proof.
  intros N0. induction c as [|a c IH]; intros k L Z; cbn [evf length] in *; [apply rsumn_zero; intros i _; ring|].
  rewrite (rsumn_ext n _ (fun i => Q2R a * (cos (INR k * theta n i) * cos (INR 0 * theta n i)) + evf (S k) c (node n i) * cos (INR 0 * theta n i))) by (intros i _; replace (node n i) with (cos (theta n i)) by reflexivity; rewrite (proj1 (first_kind_cos (theta n i) k)); ring).
  rewrite rsumn_plus, rsumn_scale, theta_sum, IH by lia. destruct (Nat.eq_dec k 0) as [->|E]; [specialize (Z eq_refl); cbn [nth] in Z; rewrite Z; ring|ring].
Qed.
Lemma near_coefficients c e : (0 < length c)%nat -> Q2R (nth 0 c 0%Q) = 0 -> (forall x, -1 <= x <= 1 -> Rabs (evf 0 c x - tanh x) <= e) -> coefficients (length c) (2 * e) c.
Proof.
  intros Lc C0 H. split; [reflexivity|]. intros j J. set (n := length c) in *. assert (Np : 0 < INR n) by (apply lt_0_INR; lia). unfold chebyshev_coefficient.
  rewrite (rsumn_ext n _ (fun k => tanh (node n k) * cos (INR j * theta n k))) by (intros k _; do 2 f_equal; unfold theta; field; lra).
  assert (S : 2 / INR n * rsumn n (fun i => evf 0 c (node n i) * cos (INR j * theta n i)) = Q2R (nth j c 0%Q)).
  { destruct (Nat.eq_dec j 0) as [->|J0]; [rewrite (series_sum_0 n c ltac:(lia) 0 ltac:(unfold n; lia) (fun _ => C0)), C0; ring|]. rewrite (series_sum n c j J ltac:(lia) 0 ltac:(unfold n; lia)). destruct (le_lt_dec 0 j); [|lia]. rewrite Nat.sub_0_r. field. lra. }
  rewrite <- S, <- Rmult_minus_distr_l, <- rsumn_minus, Rabs_mult, (Rabs_right (2 / INR n)) by (apply Rle_ge; left; apply Rdiv_lt_0_compat; lra).
  replace (2 * e) with (2 / INR n * (INR n * e)) by (field; lra). apply Rmult_le_compat_l; [left; apply Rdiv_lt_0_compat; lra|]. apply rsumn_bound. intros k _. rewrite <- Rmult_minus_distr_r, Rabs_mult. assert (Rabs (cos (INR j * theta n k)) <= 1) by (apply Rabs_le, COS_bound). pose proof (H (node n k) (COS_bound _)) as Hk. pose proof (Rabs_pos (evf 0 c (node n k) - tanh (node n k))). pose proof (Rabs_pos (cos (INR j * theta n k))). nra.
Qed.
Fixpoint evens_zero (c : list Q) : bool := match c with [] => true | a :: r => Qeq_bool a 0 && match r with [] => true | _ :: r' => evens_zero r' end end.
Lemma evf_zero c : forall k, evens_zero c = true -> evf (2 * k) c 0 = 0.
Proof.
  assert (O : forall k, first_kind (2 * k + 1) 0 = 0). { induction k as [|k IH]; [reflexivity|]. replace (2 * S k + 1)%nat with (S (S (2 * k + 1))) by lia. rewrite first_kind_SS, IH. ring. }
  assert (G : forall m c k, (length c <= m)%nat -> evens_zero c = true -> evf (2 * k) c 0 = 0).
  { clear c. induction m as [|m IH]; intros [|a c] k L H; cbn [length] in L; try reflexivity; [lia|]. cbn [evens_zero] in H. apply andb_prop in H. destruct H as [A H]. cbn [evf]. rewrite (zero_coef a A). destruct c as [|b c]; [cbn [evf]; ring|]. cbn [evf]. cbn [length] in L. replace (S (2 * k)) with (2 * k + 1)%nat by lia. rewrite O. replace (S (2 * k + 1)) with (2 * S k)%nat by lia. rewrite IH by (try lia; exact H). ring. }
  intros k H. exact (G (length c) c k (Nat.le_refl _) H).
Qed.
(** C106: the listed coefficients for 32 terms are the Chebyshev coefficients of tanh up to 2 / 10^9. *)
Lemma k_C106_coefficients : coefficients 32 (2 / 1000000000) coeffs32.
Proof.
  assert (B : Q2R (total coeffs32) <= 88 / 100). { replace (88 / 100) with (Q2R (88 # 100)) by (unfold Q2R; cbn [Qnum Qden]; lra). apply Qle_Rle. unfold Qle. vm_compute. discriminate. }
  assert (E : Q2R (total (residual coeffs32)) <= 2 / 10000000000). { replace (2 / 10000000000) with (Q2R (2 # 10000000000)) by (unfold Q2R; cbn [Qnum Qden]; lra). apply Qle_Rle. unfold Qle. vm_compute. discriminate. }
  pose proof (near_coefficients coeffs32 (2 / 10000000000 / (1 - 88 / 100 * (88 / 100)))) as N. destruct N as [L C].
  - cbn. lia.
  - cbn [nth coeffs32]. unfold Q2R. cbn [Qnum Qden]. lra.
  - intros x X. apply (near_tanh coeffs32 (88 / 100) (2 / 10000000000) x); [| | lra| |exact X].
    + intros y Y. eapply Rle_trans; [apply (evf_bound y coeffs32 Y)|exact B].
    + intros y Y. eapply Rle_trans; [apply (evf_bound y (residual coeffs32) Y)|exact E].
    + apply (evf_zero coeffs32 0). vm_compute. reflexivity.
  - split; [reflexivity|]. intros j J. eapply Rle_trans; [apply (C j J)|lra].
Qed.
(** C106: in the default precision with 32 terms and one party, tanh from -1 to 1 is within 43 units of 2^-16 of tanh, and sigmoid inside (-2, 2) within 25 of the logistic function. *)
Lemma k_C106_default pr x st : valid 1 pr -> sharing 1 x -> n_sc x = 65536%Z ->
  (Rabs (rval x) <= 1 -> exists z, fst (tanh_chebv (pr := pr) 65536 no_check coeffs32 32 x st) = Some z /\ Rabs (rval z - tanh (rval x)) <= 43 / 65536) /\
  (Rabs (rval x) <= 2 - 2 / 65536 -> exists z, fst (sigmoid_chebv (pr := pr) 65536 no_check coeffs32 32 x st) = Some z /\ Rabs (rval z - / (1 + exp (- rval x))) <= 25 / 65536).
Proof.
  intros HV Hx Sx. assert (I16 : INR 16 = 16) by (cbn; lra). assert (Ft : cheb_fits 65536 1 16 (2 / 1000000000)) by (unfold cheb_fits; rewrite I16; cbn [pow]; lra). assert (P : 2 / 4 ^ 16 <= 1 / 2000000000) by (cbn [pow]; lra).
  pose proof (k_C106_one_party 1 pr ltac:(lia) HV 65536 16 (2 / 1000000000) coeffs32 x st eq_refl ltac:(lia) ltac:(lia) Ft k_C106_coefficients Hx Sx) as [A B]. unfold cheb_error in A, B. rewrite I16 in A, B. change (2 * 16)%nat with 32%nat in A, B. split; intros Bx.
  - destruct (A Bx) as (z & Z1 & _ & Z2). exists z. split; [exact Z1|]. eapply Rle_trans; [exact Z2|lra].
  - destruct (B Bx) as (z & Z1 & _ & Z2). exists z. split; [exact Z1|]. eapply Rle_trans; [exact Z2|lra].
Qed.
(** C106 refuted: the result is documented to be truncated to +-1 outside [-1, 1]; with the same settings tanh(8) is given as -1, and sigmoid(16) as 0. *)
Lemma k_C106_far_refuted : exists pr st, valid 1 pr /\
  (exists x z, sharing 1 x /\ n_sc x = 65536%Z /\ rval x = 8 /\ fst (tanh_chebv (pr := pr) 65536 no_check coeffs32 32 x st) = Some z /\ rval z = -1) /\
  (exists x z, sharing 1 x /\ n_sc x = 65536%Z /\ rval x = 16 /\ fst (sigmoid_chebv (pr := pr) 65536 no_check coeffs32 32 x st) = Some z /\ rval z = 0).
Proof.
  exists alone, tt. split; [exact alone_valid|]. split.
  - destruct (number_ok 8 ltac:(lia)) as (A & B & C). destruct (run_gives 8 (tanh_chebv (pr := alone) 65536 no_check coeffs32 32 (number 8)) (-65536) ltac:(vm_compute; reflexivity) ltac:(lia)) as (z & Z1 & Z2). exists (number 8), z. rewrite Z2. repeat (split; [assumption|]). lra.
  - destruct (number_ok 16 ltac:(lia)) as (A & B & C). destruct (run_gives 16 (sigmoid_chebv (pr := alone) 65536 no_check coeffs32 32 (number 16)) 0 ltac:(vm_compute; reflexivity) ltac:(lia)) as (z & Z1 & Z2). exists (number 16), z. rewrite Z2. repeat (split; [assumption|]). lra.
Qed.

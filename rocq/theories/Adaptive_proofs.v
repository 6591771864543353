(** Proofs about adaptive pooling. *)
Require Import ZArith List Lia Bool.
From Verif Require Import Adaptive.
Import ListNotations.
Open Scope Z_scope.

(** ** rounding *)
Lemma round_even_near n d : 0 < d -> 2 * Z.abs (round_even n d * d - n) <= d.
Proof.
  intros Hd. unfold round_even. pose proof (Z.div_mod n d ltac:(lia)). pose proof (Z.mod_pos_bound n d Hd).
  destruct (Z.ltb_spec (2 * (n mod d)) d); [nia|]. destruct (Z.ltb_spec d (2 * (n mod d))); [nia|]. destruct (Z.even (n / d)); nia.
Qed.
Definition num (x : float) : Z := fst x * 2 ^ (Z.max (snd x) 0).
Definition den (x : float) : Z := 2 ^ (Z.max (- snd x) 0).
Lemma den_pos x : 0 < den x. Proof. unfold den. apply Z.pow_pos_nonneg; lia. Qed.
Lemma pow_split e : 2 ^ Z.max (e + 1) 0 * 2 ^ Z.max (- e) 0 = 2 * (2 ^ Z.max e 0 * 2 ^ Z.max (- (e + 1)) 0).
Proof.
  destruct (Z.le_gt_cases 0 e).
  - rewrite (Z.max_l (e + 1) 0), (Z.max_l e 0), (Z.max_r (- e) 0), (Z.max_r (- (e + 1)) 0) by lia. rewrite Z.pow_add_r by lia. change (2 ^ 0) with 1. change (2 ^ 1) with 2. lia.
  - rewrite (Z.max_r (e + 1) 0), (Z.max_r e 0), (Z.max_l (- e) 0), (Z.max_l (- (e + 1)) 0) by lia. replace (- e) with (- (e + 1) + 1) by lia. rewrite Z.pow_add_r by lia. change (2 ^ 0) with 1. change (2 ^ 1) with 2. lia.
Qed.
Lemma log_ratio n d : 0 < n -> 0 < d -> let e := Z.log2 n - Z.log2 d - 53 in 2 ^ 52 * (d * 2 ^ Z.max e 0) <= n * 2 ^ Z.max (- e) 0.
Proof.
  intros Hn Hd e. pose proof (Z.log2_spec n Hn) as [A _]. pose proof (Z.log2_spec d Hd) as [_ B]. pose proof (Z.log2_nonneg n). pose proof (Z.log2_nonneg d).
  set (a := Z.log2 n) in *. set (b := Z.log2 d) in *.
  assert (E : 2 ^ 52 * 2 ^ (Z.succ b) * 2 ^ Z.max e 0 = 2 ^ a * 2 ^ Z.max (- e) 0).
  { rewrite <- !Z.pow_add_r by lia. f_equal. unfold e in *. lia. }
  assert (P1 : 0 < 2 ^ Z.max e 0) by (apply Z.pow_pos_nonneg; lia). assert (P2 : 0 < 2 ^ Z.max (- e) 0) by (apply Z.pow_pos_nonneg; lia).
  transitivity (2 ^ 52 * 2 ^ Z.succ b * 2 ^ Z.max e 0).
  - rewrite Z.mul_assoc. apply Z.mul_le_mono_nonneg_r; [lia|]. apply Z.mul_le_mono_nonneg_l; [apply Z.pow_nonneg; lia|lia].
  - rewrite E. apply Z.mul_le_mono_nonneg_r; lia.
Qed.
(** relative error 2^-53 *)
Lemma round53_near n d : 0 <= n -> 0 < d -> Z.abs (num (round53 n d) * d - n * den (round53 n d)) * 2 ^ 53 <= n * den (round53 n d).
Proof.
  intros Hn Hd. unfold round53. destruct (Z.eqb_spec n 0) as [->|N0]; [reflexivity|]. assert (Hn' : 0 < n) by lia. clear Hn N0. pose proof (log_ratio n d Hn' Hd) as L. cbv zeta in L.
  set (e0 := Z.log2 n - Z.log2 d - 53) in *. cbv zeta. cbn [fst snd].
  assert (G : forall e, 2 ^ 52 * (d * 2 ^ Z.max e 0) <= n * 2 ^ Z.max (- e) 0 ->
    Z.abs (num (round_even (n * 2 ^ Z.max (- e) 0) (d * 2 ^ Z.max e 0), e) * d - n * den (round_even (n * 2 ^ Z.max (- e) 0) (d * 2 ^ Z.max e 0), e)) * 2 ^ 53 <=
    n * den (round_even (n * 2 ^ Z.max (- e) 0) (d * 2 ^ Z.max e 0), e)).
  { intros e B. unfold num, den. cbn [fst snd]. assert (P1 : 0 < 2 ^ Z.max e 0) by (apply Z.pow_pos_nonneg; lia).
    assert (PD : 0 < d * 2 ^ Z.max e 0) by (now apply Z.mul_pos_pos). pose proof (round_even_near (n * 2 ^ Z.max (- e) 0) (d * 2 ^ Z.max e 0) PD) as R.
    set (N := n * 2 ^ Z.max (- e) 0) in *. set (D := d * 2 ^ Z.max e 0) in *. set (m := round_even N D) in *.
    replace (m * 2 ^ Z.max e 0 * d - N) with (m * D - N) by (unfold D; ring). change (2 ^ 53) with (2 * 2 ^ 52). assert (0 < 2 ^ 52) by reflexivity. set (c := 2 ^ 52) in *. clearbody c N D m. clear - R B H. nia. }
  destruct (Z.ltb_spec (n * 2 ^ Z.max (- e0) 0 / (d * 2 ^ Z.max e0 0)) (2 ^ 53)) as [A|A]; apply G; [exact L|].
  assert (P1 : 0 < 2 ^ Z.max e0 0) by (apply Z.pow_pos_nonneg; lia). assert (PD : 0 < d * 2 ^ Z.max e0 0) by (now apply Z.mul_pos_pos).
  assert (B : 2 ^ 53 * (d * 2 ^ Z.max e0 0) <= n * 2 ^ Z.max (- e0) 0).
  { transitivity (n * 2 ^ Z.max (- e0) 0 / (d * 2 ^ Z.max e0 0) * (d * 2 ^ Z.max e0 0)); [apply Z.mul_le_mono_nonneg_r; lia|]. rewrite Z.mul_comm. now apply Z.mul_div_le. }
  pose proof (pow_split e0) as E. assert (P2 : 0 < 2 ^ Z.max (- e0) 0) by (apply Z.pow_pos_nonneg; lia). assert (P3 : 0 < 2 ^ Z.max (- (e0 + 1)) 0) by (apply Z.pow_pos_nonneg; lia).
  assert (P4 : 0 < 2 ^ Z.max (e0 + 1) 0) by (apply Z.pow_pos_nonneg; lia).
  set (a := 2 ^ Z.max e0 0) in *. set (a' := 2 ^ Z.max (e0 + 1) 0) in *. set (b := 2 ^ Z.max (- e0) 0) in *. set (b' := 2 ^ Z.max (- (e0 + 1)) 0) in *.
  (* multiply by a, b > 0 *)
  apply (Z.mul_le_mono_pos_r _ _ b P2). apply (Z.mul_le_mono_pos_r _ _ 2 eq_refl).
  replace (2 ^ 52 * (d * a') * b * 2) with (2 ^ 53 * (d * a) * (2 * b')) by (change (2 ^ 53) with (2 * 2 ^ 52); transitivity (2 * 2 ^ 52 * d * (a' * b)); [rewrite E|]; ring).
  replace (n * b' * b * 2) with (n * b * (2 * b')) by ring. apply Z.mul_le_mono_nonneg_r; lia.
Qed.
Lemma round53_nonneg n d : 0 <= n -> 0 < d -> 0 <= num (round53 n d).
Proof.
  intros Hn Hd. pose proof (round53_near n d Hn Hd) as R. set (x := round53 n d) in *. pose proof (den_pos x). destruct (Z.lt_ge_cases (num x) 0) as [A|A]; [|exact A]. exfalso.
  assert (0 <= n * den x) by nia. assert (num x * d < 0) by nia. change (2 ^ 53) with 9007199254740992 in R. lia.
Qed.
(** the float product [j * (a / b)] *)
Lemma product_near a b j : 0 <= a -> 0 < b -> 0 <= j -> let v := fl_mul j (fl_div a b) in Z.abs (num v * b - j * a * den v) * 2 ^ 51 <= j * a * den v.
Proof.
  intros Ha Hb Hj v. pose proof (round53_near a b Ha Hb) as R1. fold (fl_div a b) in R1. set (x := fl_div a b) in *.
  assert (Nx : 0 <= num x) by (apply round53_nonneg; assumption). pose proof (den_pos x) as Dx.
  pose proof (round53_near (j * num x) (den x) ltac:(nia) Dx) as R2.
  assert (Ev : v = round53 (j * num x) (den x)) by (unfold v, fl_mul, num, den; f_equal; ring). rewrite <- Ev in R2. pose proof (den_pos v) as Dv.
  set (X := num x) in *. set (Dx' := den x) in *. set (V := num v) in *. set (Dv' := den v) in *. clearbody X Dx' V Dv'. clear Ev v x.
  (* |V Dx - j X Dv| 2^53 <= j X Dv ;  |X b - a Dx| 2^53 <= a Dx *)
  assert (G1 : Z.abs (V * Dx' - j * X * Dv') * 2 ^ 53 <= j * X * Dv') by exact R2.
  assert (A1 : Z.abs (V * b - j * a * Dv') * Dx' <= b * Z.abs (V * Dx' - j * X * Dv') + j * Dv' * Z.abs (X * b - a * Dx')).
  { replace (Z.abs (V * b - j * a * Dv') * Dx') with (Z.abs (b * (V * Dx' - j * X * Dv') + j * Dv' * (X * b - a * Dx'))).
    - eapply Z.le_trans; [apply Z.abs_triangle|]. rewrite !Z.abs_mul. rewrite (Z.abs_eq b), (Z.abs_eq j), (Z.abs_eq Dv') by lia. lia.
    - rewrite <- (Z.abs_eq Dx') at 3 by lia. rewrite <- Z.abs_mul. f_equal. ring. }
  assert (A2 : X * b <= 2 * (a * Dx')) by (change (2 ^ 53) with 9007199254740992 in R1; lia).
  apply (Z.mul_le_mono_pos_r _ _ Dx' Dx). set (e1 := Z.abs (V * Dx' - j * X * Dv')) in *. set (e2 := Z.abs (X * b - a * Dx')) in *. set (w := Z.abs (V * b - j * a * Dv')) in *.
  assert (H1 : b * (e1 * 2 ^ 53) <= b * (j * X * Dv')) by (apply Z.mul_le_mono_nonneg_l; lia).
  assert (H2 : j * Dv' * (e2 * 2 ^ 53) <= j * Dv' * (a * Dx')) by (apply Z.mul_le_mono_nonneg_l; nia).
  assert (H3 : j * Dv' * (X * b) <= j * Dv' * (2 * (a * Dx'))) by (apply Z.mul_le_mono_nonneg_l; nia).
  assert (H4 : 0 <= j * Dv' * (a * Dx')) by (apply Z.mul_nonneg_nonneg; nia).
  change (2 ^ 53) with (4 * 2 ^ 51) in H1, H2. set (c := 2 ^ 51) in *.
  assert (w * Dx' * (4 * c) <= 4 * (j * Dv' * (a * Dx'))); [|lia].
  transitivity ((b * e1 + j * Dv' * e2) * (4 * c)); [apply Z.mul_le_mono_nonneg_r; [vm_compute; discriminate|exact A1]|]. lia.
Qed.
Lemma product_floor a b j : 0 <= a -> 0 < b -> 0 <= j -> j * a < 2 ^ 50 -> let v := fl_mul j (fl_div a b) in
  ((j * a) mod b <> 0 -> fl_floor v = j * a / b /\ fl_ceil v = j * a / b + 1) /\
  ((j * a) mod b = 0 -> (fl_floor v = j * a / b \/ fl_floor v = j * a / b - 1) /\ (fl_ceil v = j * a / b \/ fl_ceil v = j * a / b + 1)).
Proof.
  intros Ha Hb Hj B v. pose proof (product_near a b j Ha Hb Hj) as R. cbv zeta in R. fold v in R. pose proof (den_pos v) as Dv.
  unfold fl_floor, fl_ceil. fold (num v). fold (den v). set (V := num v) in *. set (D := den v) in *. clearbody V D. clear v.
  assert (S : 2 * Z.abs (V * b - j * a * D) < D). { change (2 ^ 51) with (2 * 2 ^ 50) in R. set (c := 2 ^ 50) in *. assert (j * a * D < c * D) by (apply Z.mul_lt_mono_pos_r; assumption). assert (0 < c) by reflexivity. nia. }
  clear R. pose proof (Z.div_mod (j * a) b ltac:(lia)) as E. pose proof (Z.mod_pos_bound (j * a) b Hb) as M. set (k := j * a / b) in *. set (r := (j * a) mod b) in *.
  assert (F : forall q, q * D <= V < (q + 1) * D -> V / D = q) by (intros q Hq; symmetry; apply Z.div_unique with (V - D * q); lia).
  assert (C : forall q, (q - 1) * D < V <= q * D -> - ((- V) / D) = q) by (intros q Hq; apply Z.opp_inj; rewrite Z.opp_involutive; symmetry; apply Z.div_unique with (- V + D * q); lia).
  assert (T : V * b * 2 < 2 * (j * a) * D + D /\ 2 * (j * a) * D - D < V * b * 2) by lia. clear S. rewrite E in T. destruct T as [T1 T2].
  split; intros Hr.
  - assert (k * D < V) by nia. assert (V < (k + 1) * D) by nia. split; [apply F|apply C]; lia.
  - rewrite Hr in *. destruct (Z.lt_ge_cases V (k * D)) as [A|A].
    + assert ((k - 1) * D < V) by nia. split; [right; apply F|left; apply C]; lia.
    + assert (V < (k + 1) * D) by nia. split; [left; apply F; lia|]. destruct (Z.eq_dec V (k * D)); [left|right]; apply C; lia.
Qed.
(** integers below 2^51 are represented *)
Lemma round53_exact q b : 0 <= q < 2 ^ 51 -> 0 < b -> num (round53 (q * b) b) = q * den (round53 (q * b) b).
Proof.
  intros Hq Hb. unfold round53. destruct (Z.eqb_spec (q * b) 0) as [E|N0]; [unfold num, den; cbn [fst snd]; nia|]. assert (Q0 : 0 < q) by nia.
  assert (L : Z.log2 (q * b) <= Z.log2 q + Z.log2 b + 1) by (apply Z.log2_mul_above; lia). assert (Lq : Z.log2 q < 51) by (apply Z.log2_lt_pow2; lia).
  cbv zeta. set (e0 := Z.log2 (q * b) - Z.log2 b - 53). assert (G : forall e, e <= 0 -> round_even (q * b * 2 ^ Z.max (- e) 0) (b * 2 ^ Z.max e 0) = q * 2 ^ Z.max (- e) 0).
  { intros e He. rewrite (Z.max_r e 0) by lia. change (2 ^ 0) with 1. rewrite Z.mul_1_r. unfold round_even. replace (q * b * 2 ^ Z.max (- e) 0) with (q * 2 ^ Z.max (- e) 0 * b) by ring.
    rewrite Z.mod_mul, Z.div_mul by lia. cbn [Z.mul]. destruct (Z.ltb_spec 0 b); [reflexivity|lia]. }
  cbn [fst snd]. assert (R : forall e, e <= 0 -> num (round_even (q * b * 2 ^ Z.max (- e) 0) (b * 2 ^ Z.max e 0), e) = q * den (round_even (q * b * 2 ^ Z.max (- e) 0) (b * 2 ^ Z.max e 0), e)).
  { intros e He. rewrite G by assumption. unfold num, den. cbn [fst snd]. rewrite (Z.max_r e 0) by lia. change (2 ^ 0) with 1. ring. }
  destruct (Z.ltb _ _); apply R; unfold e0; lia.
Qed.
Lemma product_exact b q j : 0 <= q -> 0 < b -> 0 <= j -> q < 2 ^ 51 -> j * q < 2 ^ 51 -> let v := fl_mul j (fl_div (q * b) b) in fl_floor v = j * q /\ fl_ceil v = j * q.
Proof.
  intros Hq Hb Hj B1 B2 v. pose proof (round53_exact q b ltac:(lia) Hb) as E. fold (fl_div (q * b) b) in E. set (x := fl_div (q * b) b) in *. pose proof (den_pos x) as Dx.
  assert (Ev : v = round53 (j * q * den x) (den x)) by (rewrite <- Z.mul_assoc, <- E; unfold v, fl_mul, num, den; f_equal; ring).
  pose proof (round53_exact (j * q) (den x) ltac:(nia) Dx) as E2. rewrite <- Ev in E2. pose proof (den_pos v) as Dv. unfold fl_floor, fl_ceil. fold (num v). fold (den v). rewrite E2. split.
  - apply Z.div_mul. lia.
  - rewrite <- Z.mul_opp_l, Z.div_mul by lia. lia.
Qed.

(** ** windows *)
Definition exact_windows (n out : Z) : list (nat * nat) := map (fun j => let j := Z.of_nat j in (Z.to_nat (j * n / out), Z.to_nat (- ((- ((j + 1) * n)) / out)))) (seq 0 (Z.to_nat out)).
Lemma float_divides q b : 0 <= q -> 0 < b -> q * b < 2 ^ 51 -> float_windows (q * b) b = exact_windows (q * b) b.
Proof.
  intros Hq Hb B. unfold float_windows, exact_windows. cbv zeta. apply map_ext_in. intros j Hj. apply in_seq in Hj.
  destruct (product_exact b q (Z.of_nat j) Hq Hb ltac:(lia) ltac:(nia) ltac:(nia)) as [F _]. destruct (product_exact b q (Z.of_nat j + 1) Hq Hb ltac:(lia) ltac:(nia) ltac:(nia)) as [_ C].
  rewrite F, C. f_equal; f_equal.
  - rewrite Z.mul_assoc, Z.div_mul by lia. reflexivity.
  - rewrite Z.mul_assoc, <- Z.mul_opp_l, Z.div_mul by lia. lia.
Qed.

(** ** resizing *)
Definition part {A} (t : list A) (w : nat * nat) : list A := firstn (snd w - fst w) (skipn (fst w) t).
(** consecutive windows overlap by at most one row *)
Fixpoint linked (n s : nat) (ws : list (nat * nat)) : Prop :=
  match ws with
  | [] => False
  | (a, b) :: rest => a = s /\ (a < b)%nat /\ (b <= n)%nat /\ match rest with [] => b = n | (a', _) :: _ => (a' <= b <= S a')%nat /\ linked n a' rest end
  end.
Section Rows.
  Context {A : Type}.
  Variable extension : list A -> option A.
  Variable ext : list A -> A.
  Hypothesis ext_ok : forall w, w <> [] -> extension w = Some (ext w).
  Definition block (K : nat) (t : list A) (w : nat * nat) : list A := repeat (ext (part t w)) (K - (snd w - fst w)) ++ part t w.
  Lemma skip_split (t : list A) s e : (s <= e)%nat -> skipn s t = part t (s, e) ++ skipn e t.
  Proof. intros H. unfold part. cbn [fst snd]. rewrite <- (firstn_skipn (e - s) (skipn s t)) at 1. f_equal. revert e H. revert t. induction s as [|s IH]; intros t e H; [now rewrite Nat.sub_0_r|].
    destruct t as [|x t]; [now rewrite !skipn_nil|]. destruct e as [|e]; [lia|]. cbn [skipn]. replace (S e - S s)%nat with (e - s)%nat by lia. apply IH. lia. Qed.
  Lemma part_length (t : list A) s e : (s <= e)%nat -> (e <= length t)%nat -> length (part t (s, e)) = (e - s)%nat.
  Proof. intros H L. unfold part. cbn [fst snd]. rewrite firstn_length, skipn_length. lia. Qed.
  Lemma select_mid (x y z : list A) a b : length x = a -> (a + length y = b)%nat -> select (x ++ y ++ z) a b = Some y.
  Proof.
    intros <- <-. unfold select. rewrite !app_length. destruct (Nat.leb_spec (length x) (length x + length y)); [|lia].
    destruct (Nat.leb_spec (length x + length y) (length x + (length y + length z))); [|lia]. cbn [andb]. f_equal. rewrite skipn_app, Nat.sub_diag, skipn_all. cbn [skipn app].
    replace (length x + length y - length x)%nat with (length y) by lia. rewrite firstn_app, Nat.sub_diag, firstn_all, firstn_O. apply app_nil_r.
  Qed.
  Lemma select_pre (x y : list A) a : length x = a -> select (x ++ y) 0 a = Some x.
  Proof. intros H. apply (select_mid [] x y); [reflexivity|exact H]. Qed.
  Lemma select_post (x y : list A) a b : length x = a -> b = length (x ++ y) -> select (x ++ y) a b = Some y.
  Proof. intros H ->. rewrite <- (app_nil_r y) at 1. apply select_mid; [exact H|]. rewrite app_length. lia. Qed.
  Lemma extend_row_ok (pre w post : list A) s : length pre = s -> w <> [] -> extend_row extension (pre ++ w ++ post) s (s + length w) = Some (pre ++ ext w :: w ++ post).
  Proof.
    intros L W. unfold extend_row. rewrite select_mid by (lia || assumption). rewrite ext_ok by assumption. destruct (Nat.eqb_spec s 0) as [->|N].
    - destruct pre; [reflexivity|discriminate].
    - rewrite (select_pre pre (w ++ post)) by assumption. rewrite (select_post pre (w ++ post)); [reflexivity|assumption|reflexivity].
  Qed.
  Lemma extend_times_ok (pre w post : list A) s e added : w <> [] -> length w = (e - s)%nat -> (s <= e)%nat -> forall n j, (length pre + j = s + added)%nat ->
    extend_times extension n s e (Some (pre ++ repeat (ext w) j ++ w ++ post, added)) = Some (pre ++ repeat (ext w) (j + n) ++ w ++ post, (added + n)%nat).
  Proof.
    intros W L Hse n. revert added. induction n as [|n IH]; intros added j Hj; cbn [extend_times]; [now rewrite !Nat.add_0_r|].
    replace (e + added)%nat with (s + added + length w)%nat by lia. rewrite app_assoc. rewrite extend_row_ok; [|rewrite app_length, repeat_length; lia|assumption]. cbn [option_map].
    replace (repeat (ext w) (j + S n)) with (repeat (ext w) (S j + n)) by (f_equal; lia). replace (added + S n)%nat with (S added + n)%nat by lia. rewrite <- IH by lia. f_equal. f_equal. f_equal.
    rewrite <- !app_assoc. f_equal. change (repeat (ext w) (S j)) with (ext w :: repeat (ext w) j). rewrite repeat_cons. rewrite <- app_assoc. reflexivity.
  Qed.
  Lemma repeat_row_ok (pre : list A) x post ind : length (pre ++ [x]) = ind -> repeat_row ((pre ++ [x]) ++ post) ind = Some ((pre ++ [x]) ++ x :: post).
  Proof.
    intros L. unfold repeat_row. rewrite select_pre by assumption. rewrite (select_post (pre ++ [x]) post) by (assumption || reflexivity).
    replace (nth_error ((pre ++ [x]) ++ post) (ind - 1)) with (Some x); [reflexivity|]. symmetry. rewrite <- app_assoc. rewrite nth_error_app2 by (rewrite app_length in L; cbn in L; lia).
    rewrite app_length in L. cbn in L. replace (ind - 1 - length pre)%nat with 0%nat by lia. reflexivity.
  Qed.
  Lemma resize_loop_ok (t : list A) K : forall ws s done added, linked (length t) s ws -> Forall (fun w => (snd w - fst w <= K)%nat) ws -> (length done = s + added)%nat ->
    exists added', resize_loop extension K ws (Some (done ++ skipn s t, added)) = Some (done ++ flat_map (block K t) ws, added').
  Proof.
    induction ws as [|[a b] rest IH]; intros s done added Lk F L; [destruct Lk|]. cbn [linked] in Lk. destruct Lk as (-> & Hab & Hb & Lk). inversion F as [|? ? Fw Fr]; subst. cbn [fst snd] in Fw.
    assert (Wne : part t (s, b) <> []) by (intros E; apply (f_equal (@length A)) in E; rewrite part_length in E by lia; cbn in E; lia).
    assert (E1 : extend_times extension (K - (b - s)) s b (Some (done ++ skipn s t, added)) = Some ((done ++ block K t (s, b)) ++ skipn b t, (added + (K - (b - s)))%nat)).
    { rewrite (skip_split t s b) by lia. pose proof (extend_times_ok done (part t (s, b)) (skipn b t) s b added Wne ltac:(apply part_length; lia) ltac:(lia) (K - (b - s))%nat 0%nat ltac:(lia)) as E.
      cbn [repeat app] in E. rewrite E. cbn [plus]. unfold block. cbn [fst snd]. now rewrite <- !app_assoc. }
    destruct rest as [|[a' b'] rest'].
    - cbn [resize_loop]. rewrite E1. subst b. rewrite skipn_all. rewrite app_nil_r. cbn [flat_map]. rewrite app_nil_r. eexists. reflexivity.
    - destruct Lk as [Ov Lk]. change (resize_loop extension K ((s, b) :: (a', b') :: rest') (Some (done ++ skipn s t, added))) with
        (resize_loop extension K ((a', b') :: rest') (let st := extend_times extension (K - (b - s)) s b (Some (done ++ skipn s t, added)) in
           if Nat.ltb a' b then match st with Some (t, added) => option_map (fun t => (t, S added)) (repeat_row t (b + added)) | None => None end else st)).
      cbv zeta. rewrite E1. assert (Lb : length (done ++ block K t (s, b)) = (b + (added + (K - (b - s))))%nat) by (unfold block; rewrite !app_length, repeat_length, part_length by (cbn [fst snd]; lia); cbn [fst snd]; lia).
      destruct (Nat.ltb_spec a' b) as [O|O].
      + assert (a' = (b - 1)%nat) by lia. subst a'.
        destruct (exists_last Wne) as (u & x & Eu). assert (Ed : done ++ block K t (s, b) = (done ++ repeat (ext (part t (s, b))) (K - (b - s)) ++ u) ++ [x]) by (unfold block; cbn [fst snd]; rewrite Eu at 2; now rewrite <- !app_assoc).
        cbv beta iota zeta. assert (ER : repeat_row ((done ++ block K t (s, b)) ++ skipn b t) (b + (added + (K - (b - s)))) = Some ((done ++ block K t (s, b)) ++ x :: skipn b t)) by (rewrite Ed; apply repeat_row_ok; rewrite <- Ed; exact Lb).
        rewrite ER. cbn [option_map].
        assert (Ex : x :: skipn b t = skipn (b - 1) t).
        { rewrite (skip_split t (b - 1) b) by lia. change (x :: skipn b t) with ([x] ++ skipn b t). f_equal.
          pose proof (skip_split t s (b - 1) ltac:(lia)) as S1. pose proof (skip_split t s b ltac:(lia)) as S2. rewrite (skip_split t (b - 1) b) in S1 by lia. rewrite S2, Eu in S1. rewrite app_assoc in S1.
          apply app_inv_tail in S1.
          assert (Lx : length (part t ((b - 1)%nat, b)) = 1%nat) by (rewrite part_length; lia). destruct (part t ((b - 1)%nat, b)) as [|y [|]]; try discriminate. apply app_inj_tail in S1 as [_ ->]. reflexivity. }
        rewrite Ex. destruct (IH (b - 1)%nat (done ++ block K t (s, b)) (S (added + (K - (b - s)))) Lk Fr ltac:(lia)) as [ad E]. exists ad. rewrite E. cbn [flat_map]. now rewrite <- app_assoc.
      + assert (a' = b) by lia. subst a'. destruct (IH b (done ++ block K t (s, b)) (added + (K - (b - s)))%nat Lk Fr ltac:(lia)) as [ad E]. exists ad. rewrite E. cbn [flat_map]. now rewrite <- app_assoc.
  Qed.
End Rows.

(** exact windows are linked *)
Definition lo (n out j : Z) : Z := j * n / out.
Definition hi (n out j : Z) : Z := - ((- ((j + 1) * n)) / out).
Lemma ceil_spec a b : 0 < b -> (- ((- a) / b) - 1) * b < a <= - ((- a) / b) * b.
Proof. intros Hb. pose proof (Z.div_mod (- a) b ltac:(lia)). pose proof (Z.mod_pos_bound (- a) b Hb). nia. Qed.
Lemma window_bounds n out j : 0 < n -> 0 < out -> 0 <= j < out -> 0 <= lo n out j < hi n out j /\ hi n out j <= n /\ lo n out (j + 1) <= hi n out j <= lo n out (j + 1) + 1.
Proof.
  intros Hn Ho Hj. unfold lo, hi. pose proof (ceil_spec ((j + 1) * n) out Ho) as C. set (c := - ((- ((j + 1) * n)) / out)) in *.
  pose proof (Z.div_mod (j * n) out ltac:(lia)) as D1. pose proof (Z.mod_pos_bound (j * n) out Ho) as M1. pose proof (Z.div_mod ((j + 1) * n) out ltac:(lia)) as D2. pose proof (Z.mod_pos_bound ((j + 1) * n) out Ho) as M2.
  assert (0 <= j * n / out) by (apply Z.div_pos; nia). set (a := j * n / out) in *. set (b := (j + 1) * n / out) in *. nia.
Qed.
Lemma linked_exact n out : 0 < n -> 0 < out -> linked (Z.to_nat n) 0 (exact_windows n out).
Proof.
  intros Hn Ho. unfold exact_windows.
  assert (G : forall m s, (1 <= m)%nat -> Z.of_nat (s + m) = out ->
    linked (Z.to_nat n) (Z.to_nat (lo n out (Z.of_nat s))) (map (fun j => let j := Z.of_nat j in (Z.to_nat (j * n / out), Z.to_nat (- ((- ((j + 1) * n)) / out)))) (seq s m))).
  { induction m as [|m IH]; intros s Hm Hs; [lia|]. cbn [seq map linked]. cbv zeta. fold (lo n out (Z.of_nat s)). fold (hi n out (Z.of_nat s)).
    destruct (window_bounds n out (Z.of_nat s) Hn Ho ltac:(lia)) as (B1 & B2 & B3). split; [reflexivity|]. split; [lia|]. split; [lia|].
    destruct m as [|m].
    - cbn [seq map]. assert (Z.of_nat s + 1 = out) by lia. unfold hi. rewrite H. rewrite <- Z.mul_opp_r, Z.mul_comm, Z.div_mul by lia. lia.
    - cbn [seq map]. cbv zeta. fold (lo n out (Z.of_nat (S s))). replace (Z.of_nat s + 1) with (Z.of_nat (S s)) in B3 by lia. split; [lia|]. apply (IH (S s)); lia. }
  specialize (G (Z.to_nat out) 0%nat ltac:(lia) ltac:(lia)). unfold lo in G. cbn [Z.of_nat Z.mul] in G. rewrite Z.div_0_l in G by lia. exact G.
Qed.
Lemma max_kernel_ge ws : Forall (fun w => (snd w - fst w <= max_kernel ws)%nat) ws.
Proof.
  unfold max_kernel. assert (G : forall ws m, (m <= fold_left (fun m w => Nat.max m (snd w - fst w)) ws m)%nat /\ Forall (fun w : nat * nat => (snd w - fst w <= fold_left (fun m w => Nat.max m (snd w - fst w)) ws m)%nat) ws).
  { clear. induction ws as [|w ws IH]; intros m; cbn [fold_left]; [split; [lia|constructor]|]. destruct (IH (Nat.max m (snd w - fst w))) as [A B]. split; [lia|]. constructor; [lia|exact B]. }
  apply G.
Qed.
Lemma chunks_concat {A} K (bs : list (list A)) : (0 < K)%nat -> Forall (fun b => length b = K) bs -> chunks K (concat bs) = bs.
Proof.
  intros HK F. unfold chunks. assert (L : length (concat bs) = (length bs * K)%nat) by (clear HK; induction F as [|b bs Hb F IH]; [reflexivity|]; cbn [concat length]; rewrite app_length, IH, Hb; lia).
  rewrite L, Nat.div_mul by lia. clear L.
  assert (G : forall (bs : list (list A)) n, Forall (fun b => length b = K) bs -> (n <= length bs)%nat -> map (fun i => firstn K (skipn (i * K) (concat bs))) (seq 0 n) = firstn n bs).
  { clear bs F. induction bs as [|b bs IH]; intros n F Hn; [cbn in Hn; replace n with 0%nat by lia; reflexivity|]. inversion F as [|? ? Hb F']; subst. destruct n as [|n]; [reflexivity|]. cbn [length] in Hn.
    cbn [seq map firstn]. f_equal.
    - cbn [Nat.mul skipn concat]. rewrite firstn_app, Nat.sub_diag, firstn_all, firstn_O. apply app_nil_r.
    - rewrite <- (IH n F') by lia. rewrite <- seq_shift, map_map. apply map_ext. intros i. cbn [concat Nat.mul]. f_equal. rewrite skipn_app. rewrite skipn_all2 by lia. cbn [app]. f_equal. lia. }
  rewrite G by (assumption || lia). apply firstn_all.
Qed.
Section Adaptive.
  Context {A : Type}.
  Variable extension : list A -> option A.
  Variable ext : list A -> A.
  Hypothesis ext_ok : forall w, w <> [] -> extension w = Some (ext w).
  Definition windows_of (t : list A) (out : nat) : list (nat * nat) := exact_windows (Z.of_nat (length t)) (Z.of_nat out).
  Definition kernel_of (n out : nat) : nat := max_kernel (exact_windows (Z.of_nat n) (Z.of_nat out)).
  Lemma resize_ok (t : list A) out : t <> [] -> (0 < out)%nat -> float_windows (Z.of_nat (length t)) (Z.of_nat out) = exact_windows (Z.of_nat (length t)) (Z.of_nat out) ->
    resize extension out t = Some (concat (map (block ext (kernel_of (length t) out) t) (exact_windows (Z.of_nat (length t)) (Z.of_nat out))), kernel_of (length t) out) /\
    (0 < kernel_of (length t) out)%nat /\ Forall (fun b => length b = kernel_of (length t) out) (map (block ext (kernel_of (length t) out) t) (exact_windows (Z.of_nat (length t)) (Z.of_nat out))) /\
    Forall (fun w => fst w < snd w <= length t)%nat (exact_windows (Z.of_nat (length t)) (Z.of_nat out)).
  Proof.
    intros Ht Ho E. set (n := length t) in *. assert (Hn : (0 < n)%nat) by (destruct t; [contradiction|cbn in n; lia]).
    pose proof (linked_exact (Z.of_nat n) (Z.of_nat out) ltac:(lia) ltac:(lia)) as Lk. rewrite Nat2Z.id in Lk. unfold kernel_of. set (ws := exact_windows (Z.of_nat n) (Z.of_nat out)) in *.
    pose proof (max_kernel_ge ws) as F.
    assert (B : Forall (fun w => fst w < snd w <= n)%nat ws).
    { clear -Lk. revert Lk. generalize 0%nat. induction ws as [|[a b] ws IH]; intros s Lk; [constructor|]. cbn [linked] in Lk. destruct Lk as (_ & H1 & H2 & H3). constructor; [cbn; lia|].
      destruct ws as [|[a' b'] ws]; [constructor|]. destruct H3 as [_ H3]. apply (IH _ H3). }
    assert (K0 : (0 < max_kernel ws)%nat). { destruct ws as [|w ws']; [destruct Lk|]. inversion F; subst. inversion B; subst. lia. }
    assert (FL : Forall (fun b => length b = max_kernel ws) (map (block ext (max_kernel ws) t) ws)).
    { apply Forall_forall. intros b Hb. apply in_map_iff in Hb as ([s e] & <- & Hw). rewrite Forall_forall in F, B. specialize (F _ Hw). specialize (B _ Hw). cbn [fst snd] in F, B.
      unfold block. cbn [fst snd]. rewrite app_length, repeat_length, part_length by (fold n; lia). lia. }
    split; [|split; [exact K0|split; [exact FL|exact B]]]. unfold resize. destruct (Nat.ltb_spec 1 out) as [O|O].
    - unfold resize_with. fold n. rewrite E. fold ws. destruct (resize_loop_ok extension ext ext_ok t (max_kernel ws) ws 0%nat [] 0%nat Lk F eq_refl) as [ad R]. cbn [app skipn] in R. rewrite R. cbn [option_map fst].
      now rewrite flat_map_concat_map.
    - assert (out = 1%nat) by lia. subst out. assert (Ew : ws = [(0%nat, n)]).
      { unfold ws, exact_windows. change (Z.to_nat (Z.of_nat 1)) with 1%nat. cbn [seq map]. cbv zeta. change (Z.of_nat 0) with 0. change (Z.of_nat 1) with 1. rewrite !Z.div_1_r, Z.mul_0_l, Z.add_0_l, Z.mul_1_l. repeat f_equal. lia. }
      rewrite Ew. unfold max_kernel. cbn [fold_left fst snd map concat]. rewrite Nat.max_0_l, Nat.sub_0_r. fold n. unfold block, part. cbn [fst snd skipn]. rewrite Nat.sub_0_r, Nat.sub_diag. cbn [repeat app].
      rewrite app_nil_r. unfold n. rewrite firstn_all. reflexivity.
  Qed.
  Lemma adaptive_ok (t : list A) out : t <> [] -> (0 < out)%nat -> float_windows (Z.of_nat (length t)) (Z.of_nat out) = exact_windows (Z.of_nat (length t)) (Z.of_nat out) ->
    adaptive extension out t = Some (map (block ext (kernel_of (length t) out) t) (exact_windows (Z.of_nat (length t)) (Z.of_nat out))).
  Proof.
    intros Ht Ho E. destruct (resize_ok t out Ht Ho E) as (R & K0 & FL & _). unfold adaptive. rewrite R. cbn [option_map fst snd]. f_equal. now apply chunks_concat.
  Qed.
End Adaptive.

(** both dimensions *)
Lemma adaptive2_ok {A} ext_rows ext_cols (xr : list (list A) -> list A) (xc : list A -> A) (h w : nat) (m : list (list A)) W :
  (forall r, r <> [] -> ext_cols r = Some (xc r)) -> (forall rs, rs <> [] -> ext_rows rs = Some (xr rs)) -> (forall rs, rs <> [] -> Forall (fun r => length r = W) rs -> length (xr rs) = W) ->
  m <> [] -> (0 < W)%nat -> Forall (fun r => length r = W) m -> (0 < h)%nat -> (0 < w)%nat ->
  float_windows (Z.of_nat (length m)) (Z.of_nat h) = exact_windows (Z.of_nat (length m)) (Z.of_nat h) -> float_windows (Z.of_nat W) (Z.of_nat w) = exact_windows (Z.of_nat W) (Z.of_nat w) ->
  adaptive2 ext_rows ext_cols h w m = Some (map (fun wi => map (fun wj => map (fun r => block xc (kernel_of W w) r wj) (block xr (kernel_of (length m) h) m wi)) (exact_windows (Z.of_nat W) (Z.of_nat w)))
    (exact_windows (Z.of_nat (length m)) (Z.of_nat h))).
Proof.
  intros Xc Xr XL Hm HW Fm Hh Hw E0 E1. unfold adaptive2. destruct (resize_ok ext_rows xr Xr m h Hm Hh E0) as (R & K0 & FL & B). rewrite R.
  set (wh := exact_windows (Z.of_nat (length m)) (Z.of_nat h)) in *. set (ww := exact_windows (Z.of_nat W) (Z.of_nat w)) in *. set (k0 := kernel_of (length m) h) in *. set (k1 := kernel_of W w) in *.
  assert (Fp : forall wi, In wi wh -> Forall (fun r => length r = W) (part m wi)).
  { intros wi _. apply Forall_forall. intros r Hr. rewrite Forall_forall in Fm. apply Fm. unfold part in Hr.
    assert (Hs : In r (skipn (fst wi) m)) by (rewrite <- (firstn_skipn (snd wi - fst wi) (skipn (fst wi) m)); apply in_or_app; now left). rewrite <- (firstn_skipn (fst wi) m). apply in_or_app. now right. }
  assert (Fb : Forall (fun r => length r = W) (concat (map (block xr k0 m) wh))).
  { apply Forall_forall. intros r Hr. apply in_concat in Hr as (b & Hb & Hr). apply in_map_iff in Hb as (wi & <- & Hwi). unfold block in Hr. specialize (Fp wi Hwi). apply in_app_iff in Hr as [Hr|Hr].
    - apply repeat_spec in Hr. subst r. apply XL; [|exact Fp]. intros E. rewrite Forall_forall in B. specialize (B wi Hwi). apply (f_equal (@length _)) in E. destruct wi as [s e]. rewrite part_length in E by (cbn in B; lia). cbn in E, B. lia.
    - rewrite Forall_forall in Fp. now apply Fp. }
  set (xs := concat (map (block xr k0 m) wh)) in *.
  assert (RC : forall r, length r = W -> resize ext_cols w r = Some (concat (map (block xc k1 r) ww), k1) /\ (0 < k1)%nat /\ Forall (fun b => length b = k1) (map (block xc k1 r) ww)).
  { intros r Lr. assert (r <> []) by (destruct r; cbn in Lr; [lia|discriminate]). destruct (resize_ok ext_cols xc Xc r w H Hw) as (R1 & R2 & R3 & _); [rewrite Lr; exact E1|]. rewrite Lr in *. auto. }
  assert (Xne : xs <> []).
  { intros E. destruct wh as [|wi wh'] eqn:Ew.
    - unfold wh in Ew. pose proof (linked_exact (Z.of_nat (length m)) (Z.of_nat h)) as Lk. rewrite Ew in Lk. apply Lk; [destruct m; [contradiction|cbn; lia]|lia].
    - unfold xs in E. cbn [map concat] in E. apply app_eq_nil in E as [E _]. inversion FL as [|? ? Lb _]; subst. rewrite E in Lb. cbn in Lb. lia. }
  assert (FR : fold_right (fun row acc => match resize ext_cols w row, acc with Some (r, s1), Some (rows, _) => Some (r :: rows, s1) | _, _ => None end) (Some ([], 0%nat)) xs = Some (map (fun r => concat (map (block xc k1 r) ww)) xs, k1)).
  { clear -Xne Fb RC. induction Fb as [|r xs Lr F IH]; [contradiction|]. cbn [fold_right map]. destruct (RC r Lr) as (R1 & _ & _). rewrite R1. destruct xs as [|r' xs]; [reflexivity|]. rewrite IH by discriminate. reflexivity. }
  rewrite FR. f_equal.
  assert (Ck : chunks k0 (map (fun r => concat (map (block xc k1 r) ww)) xs) = map (fun wi => map (fun r => concat (map (block xc k1 r) ww)) (block xr k0 m wi)) wh).
  { replace (map (fun r => concat (map (block xc k1 r) ww)) xs) with (concat (map (fun wi => map (fun r => concat (map (block xc k1 r) ww)) (block xr k0 m wi)) wh)).
    - apply chunks_concat; [exact K0|]. apply Forall_forall. intros b Hb. apply in_map_iff in Hb as (wi & <- & Hwi). rewrite map_length. rewrite Forall_forall in FL. apply FL. now apply in_map.
    - unfold xs. clear. induction wh as [|wi wh IH]; [reflexivity|]. cbn [map concat]. now rewrite map_app, IH. }
  rewrite Ck, map_map. apply map_ext_in. intros wi Hwi.
  assert (Fw : Forall (fun r => length r = W) (block xr k0 m wi)).
  { apply Forall_forall. intros r Hr. rewrite Forall_forall in Fb. apply Fb. unfold xs. apply in_concat. exists (block xr k0 m wi). split; [now apply in_map|exact Hr]. }
  assert (Lw : length ww = w) by (unfold ww, exact_windows; rewrite map_length, seq_length; lia).
  rewrite <- (firstn_all ww) at 1. rewrite Lw.
  transitivity (map (fun j => map (fun r => block xc k1 r (nth j ww (0, 0)%nat)) (block xr k0 m wi)) (seq 0 w)).
  - apply map_ext_in. intros j Hj. apply in_seq in Hj. rewrite map_map. apply map_ext_in. intros r Hr. rewrite Forall_forall in Fw. destruct (RC r (Fw r Hr)) as (_ & R2 & R3). rewrite chunks_concat by assumption.
    rewrite (nth_indep _ [] (block xc k1 r (0, 0)%nat)) by (rewrite map_length; lia). apply map_nth.
  - rewrite firstn_all2 by lia. clear -Lw. rewrite <- Lw. clear Lw. rewrite <- (map_map (fun j => nth j ww (0, 0)%nat) (fun wj => map (fun r => block xc k1 r wj) (block xr k0 m wi))). f_equal.
    clear. generalize dependent ww. intros ww. induction ww as [|x l IH]; [reflexivity|]. cbn [length seq map nth]. f_equal. rewrite <- seq_shift, map_map. exact IH.
Qed.

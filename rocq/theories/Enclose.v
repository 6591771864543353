(** Interval arithmetic on numbers with [bits] binary digits, used to prove bounds of the approximated functions on whole ranges.  Nothing here models /repo. *)
Require Import List Reals ZArith Lia Lra Psatz.
Open Scope R_scope.

Definition bits : Z := 40.
Definition scale : Z := Eval vm_compute in (2 ^ bits)%Z.
Definition interval := (Z * Z)%type.
Definition rs : R := IZR scale.
Definition enc (i : interval) (x : R) : Prop := IZR (fst i) <= x * rs <= IZR (snd i).
Lemma rs_pos : 0 < rs. Proof. apply IZR_lt. reflexivity. Qed.

Definition down (a : Z) : Z := Z.shiftr a bits.
Definition up (a : Z) : Z := (- Z.shiftr (- a) bits)%Z.
Definition iadd (a b : interval) : interval := (fst a + fst b, snd a + snd b)%Z.
Definition ineg (a : interval) : interval := (- snd a, - fst a)%Z.
Definition isub (a b : interval) : interval := iadd a (ineg b).
Definition imul (a b : interval) : interval :=
  let '(p, q) := a in let '(r, s) := b in
  if (0 <=? p)%Z then
    if (0 <=? r)%Z then (down (p * r), up (q * s))%Z
    else if (s <=? 0)%Z then (down (q * r), up (p * s))%Z else (down (q * r), up (q * s))%Z
  else if (q <=? 0)%Z then
    if (0 <=? r)%Z then (down (p * s), up (q * r))%Z
    else if (s <=? 0)%Z then (down (q * s), up (p * r))%Z else (down (p * s), up (p * r))%Z
  else if (0 <=? r)%Z then (down (p * s), up (q * s))%Z
  else if (s <=? 0)%Z then (down (q * r), up (p * r))%Z
  else (down (Z.min (p * s) (q * r)), up (Z.max (p * r) (q * s)))%Z.
Definition itimes (k : Z) (a : interval) : interval := if (0 <=? k)%Z then (k * fst a, k * snd a)%Z else (k * snd a, k * fst a)%Z.
Definition idiv (a : interval) (n : Z) : interval := (fst a / n, - (- snd a / n))%Z.
Definition iz (k : Z) : interval := (k * scale, k * scale)%Z.
Definition ifrac (a n : Z) : interval := idiv (iz a) n.
Fixpoint isquares (n : nat) (a : interval) : interval := match n with O => a | S n => let b := isquares n a in imul b b end.

Lemma down_le a : IZR (down a) * rs <= IZR a.
Proof. unfold down, rs. rewrite Z.shiftr_div_pow2 by discriminate. change (2 ^ bits)%Z with scale. rewrite <- mult_IZR. apply IZR_le. pose proof (Z.mul_div_le a scale ltac:(reflexivity)). lia. Qed.
Lemma up_ge a : IZR a <= IZR (up a) * rs.
Proof. unfold up. rewrite opp_IZR. pose proof (down_le (- a)). unfold down in H. rewrite opp_IZR in H. lra. Qed.
Lemma enc_of a b x : a * rs <= x * rs * rs <= b * rs -> a <= x * rs <= b.
Proof. pose proof rs_pos. intros [A B]. split; apply (Rmult_le_reg_r rs); assumption. Qed.
Lemma e_add a b x y : enc a x -> enc b y -> enc (iadd a b) (x + y).
Proof. intros [A1 A2] [B1 B2]. unfold enc, iadd. cbn [fst snd]. rewrite !plus_IZR. lra. Qed.
Lemma e_neg a x : enc a x -> enc (ineg a) (- x).
Proof. intros [A1 A2]. unfold enc, ineg. cbn [fst snd]. rewrite !opp_IZR. lra. Qed.
Lemma e_sub a b x y : enc a x -> enc b y -> enc (isub a b) (x - y).
Proof. intros A B. unfold isub, Rminus. apply e_add; [exact A|now apply e_neg]. Qed.
Lemma prod_bounds p q r s x y : p <= x <= q -> r <= y <= s ->
  (0 <= p -> 0 <= r -> p * r <= x * y <= q * s) /\ (0 <= p -> s <= 0 -> q * r <= x * y <= p * s) /\ (0 <= p -> r <= 0 <= s -> q * r <= x * y <= q * s) /\
  (q <= 0 -> 0 <= r -> p * s <= x * y <= q * r) /\ (q <= 0 -> s <= 0 -> q * s <= x * y <= p * r) /\ (q <= 0 -> r <= 0 <= s -> p * s <= x * y <= p * r) /\
  (p <= 0 <= q -> 0 <= r -> p * s <= x * y <= q * s) /\ (p <= 0 <= q -> s <= 0 -> q * r <= x * y <= p * r) /\ (p <= 0 <= q -> r <= 0 <= s -> Rmin (p * s) (q * r) <= x * y <= Rmax (p * r) (q * s)).
Proof.
  intros X Y. repeat split; intros; try nra.
  - destruct (Rle_dec 0 x); [apply Rle_trans with (q * r); [apply Rmin_r|nra]|apply Rle_trans with (p * s); [apply Rmin_l|nra]].
  - destruct (Rle_dec 0 x); [apply Rle_trans with (q * s); [nra|apply Rmax_r]|apply Rle_trans with (p * r); [nra|apply Rmax_l]].
Qed.
Lemma IZR_min a b : IZR (Z.min a b) = Rmin (IZR a) (IZR b).
Proof. destruct (Z.min_spec a b) as [[H ->]|[H ->]]; [rewrite Rmin_left; [reflexivity|apply IZR_le; lia]|rewrite Rmin_right; [reflexivity|apply IZR_le; lia]]. Qed.
Lemma IZR_max a b : IZR (Z.max a b) = Rmax (IZR a) (IZR b).
Proof. destruct (Z.max_spec a b) as [[H ->]|[H ->]]; [rewrite Rmax_right; [reflexivity|apply IZR_le; lia]|rewrite Rmax_left; [reflexivity|apply IZR_le; lia]]. Qed.
Lemma e_mul a b x y : enc a x -> enc b y -> enc (imul a b) (x * y).
Proof.
  destruct a as [p q], b as [r s]. intros A B. unfold enc in A, B. cbn [fst snd] in A, B.
  assert (G : forall u v, IZR u <= x * rs * (y * rs) <= IZR v -> enc (down u, up v) (x * y)).
  { intros u v H. unfold enc. cbn [fst snd]. apply enc_of. pose proof (down_le u). pose proof (up_ge v). replace (x * y * rs * rs) with (x * rs * (y * rs)) by ring. lra. }
  assert (Pq : IZR p <= IZR q) by lra. assert (Rs : IZR r <= IZR s) by lra. apply le_IZR in Pq. apply le_IZR in Rs.
  pose proof (prod_bounds _ _ _ _ _ _ A B) as (B1 & B2 & B3 & B4 & B5 & B6 & B7 & B8 & B9).
  unfold imul. destruct (Z.leb_spec 0 p) as [P|P]; [|destruct (Z.leb_spec q 0) as [Q|Q]]; (destruct (Z.leb_spec 0 r) as [R0|R0]; [|destruct (Z.leb_spec s 0) as [S0|S0]]); apply G; rewrite ?IZR_min, ?IZR_max, ?mult_IZR;
    [apply B1|apply B2|apply B3|apply B4|apply B5|apply B6|apply B7|apply B8|apply B9]; try (split; apply IZR_le; lia); apply IZR_le; lia.
Qed.
Lemma e_times k a x : enc a x -> enc (itimes k a) (IZR k * x).
Proof. intros [A1 A2]. unfold enc, itimes. destruct (Z.leb_spec 0 k) as [K|K]; cbn [fst snd]; rewrite !mult_IZR, Rmult_assoc; split; (apply Rmult_le_compat_l; [now apply IZR_le|assumption]) || (apply Rmult_le_compat_neg_l; [apply IZR_le; lia|assumption]). Qed.
Lemma e_div a n x : (0 < n)%Z -> enc a x -> enc (idiv a n) (x / IZR n).
Proof.
  intros N [A1 A2]. unfold enc, idiv. cbn [fst snd]. pose proof (IZR_lt 0 n N) as P. replace (x / IZR n * rs) with (x * rs / IZR n) by (field; lra). split; apply (Rmult_le_reg_r (IZR n)); try exact P; unfold Rdiv; rewrite ?Rmult_assoc, ?Rinv_l, ?Rmult_1_r, <- ?mult_IZR by lra.
  - apply Rle_trans with (2 := A1). apply IZR_le. pose proof (Z.mul_div_le (fst a) n N). lia.
  - apply Rle_trans with (1 := A2). apply IZR_le. pose proof (Z.mul_div_le (- snd a) n N). lia.
Qed.
Lemma e_z k : enc (iz k) (IZR k). Proof. unfold enc, iz. cbn [fst snd]. rewrite mult_IZR. fold rs. lra. Qed.
Lemma e_frac a n : (0 < n)%Z -> enc (ifrac a n) (IZR a / IZR n). Proof. intros N. apply e_div; [exact N|apply e_z]. Qed.
Lemma e_squares n a x : enc a x -> enc (isquares n a) (Nat.iter n (fun r => r * r) x).
Proof. intros A. induction n as [|n IH]; [exact A|]. cbn [isquares]. change (Nat.iter (S n) (fun r => r * r) x) with (Nat.iter n (fun r => r * r) x * Nat.iter n (fun r => r * r) x). now apply e_mul. Qed.
Lemma e_eq a x y : x = y -> enc a x -> enc a y. Proof. now intros ->. Qed.
(** all of the numbers between two *)
Definition hull (lo hi : Z) : interval := (lo, hi).
Lemma enc_le a x k : enc a x -> (snd a <= k)%Z -> x * rs <= IZR k. Proof. intros [_ A] H. apply IZR_le in H. lra. Qed.
Lemma enc_ge a x k : enc a x -> (k <= fst a)%Z -> IZR k <= x * rs. Proof. intros [A _] H. apply IZR_le in H. lra. Qed.

(** comparing with an exponential: both tests are sufficient; 2^n is the number of factors *)
Definition exp_below (n : nat) (a b : interval) : bool := let k := (2 ^ Z.of_nat n)%Z in (snd a <? k * scale)%Z && (scale <=? fst (imul b (isquares n (isub (iz 1) (idiv a k)))))%Z.
Definition exp_above (n : nat) (a b : interval) : bool := let k := (2 ^ Z.of_nat n)%Z in (- k * scale <? fst a)%Z && (snd b <=? fst (isquares n (iadd (iz 1) (idiv a k))))%Z.
Lemma squares_power n r : Nat.iter n (fun r => r * r) r = r ^ (2 ^ n).
Proof. induction n as [|n IH]; [cbn; ring|]. change (Nat.iter (S n) (fun r => r * r) r) with (Nat.iter n (fun r => r * r) r * Nat.iter n (fun r => r * r) r). rewrite IH, Nat.pow_succ_r', Nat.mul_comm, pow_mult. cbn [pow]. ring. Qed.
Lemma exp_power n t : exp t = exp (t / 2 ^ n) ^ (2 ^ n).
Proof.
  assert (G : forall m u, exp u ^ m = exp (INR m * u)) by (induction m as [|m IH]; intros u; [cbn; now rewrite Rmult_0_l, exp_0|]; rewrite S_INR, Rmult_plus_distr_r, Rmult_1_l, exp_plus, <- IH; cbn [pow]; ring).
  rewrite G, pow_INR. change (INR 2) with 2. f_equal. field. apply pow_nonzero. lra.
Qed.
Lemma pow2 n : 2 ^ n = IZR (2 ^ Z.of_nat n). Proof. apply pow_IZR. Qed.
Lemma e_below n a b t x : exp_below n a b = true -> enc a t -> enc b x -> exp t <= x.
Proof.
  unfold exp_below. cbv zeta. intros H A B. apply andb_prop in H. destruct H as [H1 H2]. apply Z.ltb_lt in H1. apply Z.leb_le in H2. pose proof rs_pos as P. assert (N : 0 < 2 ^ n) by (apply pow_lt; lra). assert (K : (0 < 2 ^ Z.of_nat n)%Z) by (apply Z.pow_pos_nonneg; lia).
  assert (T : t < 2 ^ n). { destruct A as [_ A]. apply IZR_lt in H1. rewrite mult_IZR in H1. fold rs in H1. rewrite pow2. apply (Rmult_lt_reg_r rs); lra. }
  set (q := 1 - t / 2 ^ n). assert (Q0 : 0 <= q). { unfold q. assert (t / 2 ^ n < 1) by (apply (Rmult_lt_reg_r (2 ^ n)); [lra|]; unfold Rdiv; rewrite Rmult_assoc, Rinv_l by lra; lra). lra. }
  assert (E : enc (imul b (isquares n (isub (iz 1) (idiv a (2 ^ Z.of_nat n))))) (x * q ^ (2 ^ n))).
  { apply e_mul; [exact B|]. rewrite <- squares_power. apply e_squares. apply e_sub; [apply e_z|]. rewrite pow2. apply e_div; [exact K|exact A]. }
  pose proof (enc_ge _ _ _ E H2) as G. fold rs in G. assert (G1 : 1 <= x * q ^ (2 ^ n)) by (apply (Rmult_le_reg_r rs); lra).
  assert (Q : q ^ (2 ^ n) <= exp (- t)). { rewrite (exp_power n (- t)). apply pow_incr. split; [exact Q0|]. replace (- t / 2 ^ n) with (- (t / 2 ^ n)) by (field; lra). unfold q. pose proof (exp_ineq1_le (- (t / 2 ^ n))). lra. }
  pose proof (pow_le q (2 ^ n) Q0) as Q1. rewrite exp_Ropp in Q. pose proof (exp_pos t) as PT. assert (X : 0 <= x) by (apply Rnot_lt_le; intros M; nra).
  assert (1 <= x * / exp t) by (apply Rle_trans with (1 := G1); apply Rmult_le_compat_l; assumption). apply (Rmult_le_reg_r (/ exp t)); [now apply Rinv_0_lt_compat|]. rewrite Rinv_r; lra.
Qed.
Lemma e_above n a b t x : exp_above n a b = true -> enc a t -> enc b x -> x <= exp t.
Proof.
  unfold exp_above. cbv zeta. intros H A B. apply andb_prop in H. destruct H as [H1 H2]. apply Z.ltb_lt in H1. apply Z.leb_le in H2. pose proof rs_pos as P. assert (N : 0 < 2 ^ n) by (apply pow_lt; lra). assert (K : (0 < 2 ^ Z.of_nat n)%Z) by (apply Z.pow_pos_nonneg; lia).
  assert (T : - 2 ^ n < t). { destruct A as [A _]. apply IZR_lt in H1. rewrite mult_IZR, opp_IZR in H1. fold rs in H1. rewrite pow2. apply (Rmult_lt_reg_r rs); lra. }
  set (q := 1 + t / 2 ^ n). assert (Q0 : 0 <= q). { unfold q. assert (-1 < t / 2 ^ n) by (apply (Rmult_lt_reg_r (2 ^ n)); [lra|]; unfold Rdiv; rewrite Rmult_assoc, Rinv_l by lra; lra). lra. }
  assert (E : enc (isquares n (iadd (iz 1) (idiv a (2 ^ Z.of_nat n)))) (q ^ (2 ^ n))).
  { rewrite <- squares_power. apply e_squares. apply e_add; [apply e_z|]. rewrite pow2. apply e_div; [exact K|exact A]. }
  assert (G : x <= q ^ (2 ^ n)) by (destruct B as [_ B]; destruct E as [E _]; apply IZR_le in H2; apply (Rmult_le_reg_r rs); lra). apply Rle_trans with (1 := G). rewrite (exp_power n t). apply pow_incr. split; [exact Q0|]. unfold q. apply exp_ineq1_le.
Qed.

(** for positive numbers *)
Definition iinv (a : interval) : interval := (scale * scale / snd a, - (- (scale * scale) / fst a))%Z.
Lemma e_inv a x : (0 < fst a)%Z -> enc a x -> enc (iinv a) (/ x).
Proof.
  intros F [A1 A2]. pose proof rs_pos as P. pose proof (IZR_lt _ _ F) as F'. cbv beta in F'. assert (X : 0 < x) by (apply (Rmult_lt_reg_r rs); lra). assert (G : (0 < snd a)%Z) by (apply lt_IZR; lra). pose proof (IZR_lt _ _ G) as G'. unfold enc, iinv. cbn [fst snd]. set (s2 := (scale * scale)%Z).
  assert (E : IZR s2 = rs * rs) by (unfold s2; now rewrite mult_IZR). assert (V : / x * rs * (x * rs) = IZR s2) by (rewrite E; field; lra). assert (I : 0 < / x * rs) by (apply Rmult_lt_0_compat; [now apply Rinv_0_lt_compat|exact P]). split.
  - apply (Rmult_le_reg_r (IZR (snd a))); [lra|]. rewrite <- mult_IZR. apply Rle_trans with (IZR s2); [apply IZR_le; pose proof (Z.mul_div_le s2 (snd a) G); lia|]. rewrite <- V. apply Rmult_le_compat_l; lra.
  - apply (Rmult_le_reg_r (IZR (fst a))); [lra|]. rewrite <- mult_IZR. apply Rle_trans with (IZR s2); [rewrite <- V; apply Rmult_le_compat_l; lra|]. apply IZR_le. pose proof (Z.mul_div_le (- s2) (fst a) F). lia.
Qed.

(** a test that holds on each of consecutive intervals; each is given by its width, in 4096ths of its lower end *)
Fixpoint walk (ok : interval -> bool) (a : Z) (ks : list Z) (last : Z) : bool :=
  match ks with
  | nil => (last <=? a)%Z
  | k :: ks => let b := Z.min last (a + Z.shiftr (a * k) 12)%Z in if ok (a, b) then walk ok b ks last else false
  end.
Lemma walk_sound (ok : interval -> bool) (good : R -> Prop) last : (forall i x, ok i = true -> enc i x -> good x) ->
  forall ks a, walk ok a ks last = true -> forall x, IZR a <= x * rs < IZR last -> good x.
Proof.
  intros S. induction ks as [|k ks IH]; intros a; cbn [walk]; [intros H x X; apply Z.leb_le, IZR_le in H; lra|]. cbv zeta. set (b := Z.min _ _). destruct (ok (a, b)) eqn:O; [|discriminate].
  intros H x X. destruct (Rle_dec (x * rs) (IZR b)) as [M|M]; [apply (S _ x O); split; cbn [fst snd]; lra|apply (IH b H); lra].
Qed.

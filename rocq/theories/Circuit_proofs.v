(** Proofs about the bit-level circuits (plain values), then their sharings. *)
Require Import ZArith List Lia Bool.
From Verif Require Import Ring64 Sharing_proofs Arith Arith_proofs Beaver Beaver_proofs Trunc Provider Binary Binary_proofs.
Import ListNotations.
Open Scope Z_scope.

(** ** Fan-out: a bit at position [w-1] of each [2w]-block is copied to positions [w .. 2w-1]. *)
Lemma testbit_mul_block b w k : 0 < w -> 0 <= k < 2 * w -> Z.testbit (Z.b2z b * (2 ^ (2 * w) - 2 ^ w)) k = b && (w <=? k).
Proof.
  intros Hw Hk. destruct b; cbn [Z.b2z andb]; rewrite ?Z.mul_1_l, ?Z.mul_0_l; [|apply Z.bits_0].
  replace (2 ^ (2 * w) - 2 ^ w) with (Z.shiftl (Z.ones w) w).
  - destruct (w <=? k) eqn:E.
    + apply Z.leb_le in E. rewrite Z.shiftl_spec by lia. apply Z.ones_spec_low. lia.
    + apply Z.leb_gt in E. apply Z.shiftl_spec_low. lia.
  - rewrite Z.shiftl_mul_pow2, Z.ones_equiv by lia. replace (2 * w) with (w + w) by lia. rewrite Z.pow_add_r by lia. unfold Z.pred. ring.
Qed.

Lemma testbit_join a b m k : 0 <= m -> 0 <= a < 2 ^ m -> 0 <= k -> Z.testbit (a + 2 ^ m * b) k = if k <? m then Z.testbit a k else Z.testbit b (k - m).
Proof.
  intros Hm Ha Hk. destruct (k <? m) eqn:E.
  - apply Z.ltb_lt in E. rewrite <- (Z.mod_pow2_bits_low (a + 2 ^ m * b) m k) by lia. rewrite Z.mul_comm, Z.mod_add by lia.
    apply Z.mod_pow2_bits_low. lia.
  - apply Z.ltb_ge in E. replace k with (k - m + m) at 1 by lia. rewrite <- Z.div_pow2_bits by lia. rewrite Z.mul_comm, Z.div_add by lia.
    rewrite Z.div_small by lia. f_equal. 
Qed.

Definition src (w k : Z) : Z := k / (2 * w) * (2 * w) + (w - 1).

Lemma one_bit_high b j : 0 < j -> Z.testbit (Z.b2z b) j = false.
Proof. intros Hj. destruct b; cbn [Z.b2z]; [|apply Z.bits_0]. replace j with (Z.succ (j - 1)) by lia. change 1 with (2 * 0 + 1). rewrite Z.testbit_odd_succ by lia. apply Z.bits_0. Qed.

Definition blocky (w Y : Z) : Prop := 0 <= Y /\ forall j, 0 <= j -> Z.testbit Y j = true -> j mod (2 * w) = w - 1.

Lemma fan_split w Y : 0 < w -> blocky w Y -> let Y' := Y / 2 ^ (2 * w) in blocky w Y' /\ Y * (2 ^ (w + 1) - 2) = Z.b2z (Z.testbit Y (w - 1)) * (2 ^ (2 * w) - 2 ^ w) + 2 ^ (2 * w) * (Y' * (2 ^ (w + 1) - 2)).
Proof.
  intros Hw [HY Hb] Y'. assert (HY' : 0 <= Y') by (apply Z.div_pos; [assumption|apply Z.pow_pos_nonneg; lia]).
  assert (Lo : Y mod 2 ^ (2 * w) = Z.b2z (Z.testbit Y (w - 1)) * 2 ^ (w - 1)).
  { apply Z.bits_inj'. intros j Hj. rewrite Z.mul_pow2_bits by lia.
    assert (NT : j < 2 * w -> j <> w - 1 -> Z.testbit Y j = false).
    { intros H1 H2. destruct (Z.testbit Y j) eqn:T; [|reflexivity]. apply Hb in T; [|lia]. rewrite Z.mod_small in T by lia. lia. }
    destruct (Z.ltb_spec j (2 * w)).
    - rewrite Z.mod_pow2_bits_low by lia. destruct (Z.eq_dec j (w - 1)) as [->|Ne].
      + rewrite Z.sub_diag. now rewrite Z.b2z_bit0.
      + rewrite NT by assumption. destruct (Z.ltb_spec j (w - 1)); [now rewrite Z.testbit_neg_r by lia|]. now rewrite one_bit_high by lia.
    - rewrite Z.mod_pow2_bits_high by lia. now rewrite one_bit_high by lia. }
  split.
  - split; [assumption|]. intros j Hj T. unfold Y' in T. rewrite Z.div_pow2_bits in T by lia. apply Hb in T; [|lia]. rewrite <- T.
    replace (j + 2 * w) with (j + 1 * (2 * w)) by ring. now rewrite Z.mod_add by lia.
  - rewrite (Z.div_mod Y (2 ^ (2 * w))) at 1 by (apply Z.pow_nonzero; lia). rewrite Lo. fold Y'.
    set (h := 2 ^ (w - 1)). assert (E1 : 2 ^ w = 2 * h) by (unfold h; rewrite <- Z.pow_succ_r by lia; f_equal; lia).
    assert (E2 : 2 ^ (w + 1) = 4 * h) by (rewrite Z.pow_add_r by lia; lia). assert (E3 : 2 ^ (2 * w) = 4 * h * h) by (replace (2 * w) with (w + w) by lia; rewrite Z.pow_add_r by lia; lia).
    rewrite E1, E2, E3. ring.
Qed.

Lemma fan_bits w : 0 < w -> forall m Y k, blocky w Y -> 0 <= k -> Z.to_nat (k / (2 * w)) = m ->
  Z.testbit (Y * (2 ^ (w + 1) - 2)) k = (w <=? k mod (2 * w)) && Z.testbit Y (src w k).
Proof.
  intros Hw. assert (Bd : forall b, 0 <= Z.b2z b * (2 ^ (2 * w) - 2 ^ w) < 2 ^ (2 * w)).
  { intros b. pose proof (Z.pow_pos_nonneg 2 w ltac:(lia) ltac:(lia)). assert (2 ^ w < 2 ^ (2 * w)) by (apply Z.pow_lt_mono_r; lia). destruct b; cbn [Z.b2z]; lia. }
  induction m as [|m IH]; intros Y k HY Hk Em; destruct (fan_split w Y Hw HY) as [HY' E]; rewrite E, testbit_join by (auto; lia).
  - assert (Q : k / (2 * w) = 0) by (pose proof (Z.div_pos k (2 * w) ltac:(lia) ltac:(lia)); lia). apply Z.div_small_iff in Q; [|lia].
    replace (k <? 2 * w) with true by (symmetry; apply Z.ltb_lt; lia). rewrite testbit_mul_block by lia. unfold src. rewrite Z.mod_small, Z.div_small by lia.
    rewrite andb_comm. reflexivity.
  - assert (Q : k / (2 * w) = Z.of_nat (S m)) by lia. assert (2 * w <= k) by (pose proof (Z.mul_div_le k (2 * w) ltac:(lia)); nia).
    replace (k <? 2 * w) with false by (symmetry; apply Z.ltb_ge; lia).
    assert (Q' : (k - 2 * w) / (2 * w) = k / (2 * w) - 1) by (replace (k - 2 * w) with (k + (-1) * (2 * w)) by ring; rewrite Z.div_add by lia; lia).
    rewrite IH; [|assumption|lia|lia]. f_equal.
    + f_equal. replace (k - 2 * w) with (k + (-1) * (2 * w)) by ring. now rewrite Z.mod_add by lia.
    + unfold src. rewrite Q'. rewrite Z.div_pow2_bits by nia. f_equal. nia.
Qed.

(** The constants of stage [i]. *)
Definition smask i := nth i spk_masks 0.
Definition smul i := nth i spk_multipliers 0.
Definition sout i := nth i spk_out_masks 0.

Lemma stages_eq : spk_stages = map (fun i => (smask i, sout i, smul i)) (seq 0 6).
Proof. vm_compute. reflexivity. Qed.

Lemma consts_check : forallb (fun i => let w := 2 ^ Z.of_nat i in (smul i =? 2 ^ (w + 1) - 2) && (0 <=? smask i) && (smask i <? 2 ^ 63) &&
   forallb (fun k => let k := Z.of_nat k in Bool.eqb (Z.testbit (smask i) k) (k mod (2 * w) =? w - 1) && Bool.eqb (Z.testbit (sout i) k) (w <=? k mod (2 * w))) (seq 0 64)) (seq 0 6) = true.
Proof. vm_compute. reflexivity. Qed.

Lemma consts i : (i < 6)%nat -> let w := 2 ^ Z.of_nat i in smul i = 2 ^ (w + 1) - 2 /\ 0 <= smask i < 2 ^ 63 /\
   forall k, 0 <= k < 64 -> Z.testbit (smask i) k = (k mod (2 * w) =? w - 1) /\ Z.testbit (sout i) k = (w <=? k mod (2 * w)).
Proof.
  intros Hi w. pose proof consts_check as C. rewrite forallb_forall in C. specialize (C i). rewrite in_seq in C. specialize (C ltac:(lia)).
  cbv zeta in C. rewrite !andb_true_iff, Z.eqb_eq, Z.leb_le, Z.ltb_lt, forallb_forall in C. destruct C as [[[C1 C2] C3] C4]. fold w in C1, C4.
  split; [assumption|split; [lia|]]. intros k Hk. specialize (C4 (Z.to_nat k)). rewrite in_seq in C4. specialize (C4 ltac:(lia)). rewrite Z2Nat.id in C4 by lia.
  rewrite andb_true_iff, !Bool.eqb_true_iff in C4. assumption.
Qed.

Lemma pow2_div64 i : (i < 6)%nat -> exists q, 64 = q * (2 * 2 ^ Z.of_nat i) /\ 0 < q.
Proof. intros Hi. do 6 (destruct i as [|i]; [eexists; split; [vm_compute Z.mul; reflexivity|lia] || (first [exists 32; split; [reflexivity|lia]|exists 16; split; [reflexivity|lia]|exists 8; split; [reflexivity|lia]|exists 4; split; [reflexivity|lia]|exists 2; split; [reflexivity|lia]|exists 1; split; [reflexivity|lia]])|]). lia. Qed.

Lemma src_range i k : (i < 6)%nat -> 0 <= k < 64 -> 0 <= src (2 ^ Z.of_nat i) k < 64.
Proof.
  intros Hi Hk. destruct (pow2_div64 i Hi) as (q & Hq & Hq0). set (w := 2 ^ Z.of_nat i) in *. assert (0 < w) by (apply Z.pow_pos_nonneg; lia). unfold src.
  pose proof (Z.div_pos k (2 * w) ltac:(lia) ltac:(lia)). assert (k / (2 * w) < q) by (apply Z.div_lt_upper_bound; nia). nia.
Qed.

Lemma src_mod w k : 0 < w -> src w k mod (2 * w) = w - 1.
Proof. intros H. unfold src. rewrite Z.add_comm, Z.mod_add by lia. apply Z.mod_small; lia. Qed.

Lemma fan_spec i x k : (i < 6)%nat -> 0 <= k < 64 ->
  Z.testbit (fan (smask i) (smul i) x) k = (2 ^ Z.of_nat i <=? k mod (2 * 2 ^ Z.of_nat i)) && Z.testbit x (src (2 ^ Z.of_nat i) k).
Proof.
  intros Hi Hk. destruct (consts i Hi) as (C1 & C2 & C3). set (w := 2 ^ Z.of_nat i) in *. assert (Hw : 0 < w) by (apply Z.pow_pos_nonneg; lia).
  unfold fan, wmul. rewrite wrap_testbit by assumption. rewrite C1. erewrite fan_bits; [|assumption|split|lia|reflexivity].
  - f_equal. rewrite Z.land_spec. pose proof (src_range i k Hi Hk) as Hs. fold w in Hs. destruct (C3 _ Hs) as [-> _]. rewrite src_mod by assumption. rewrite Z.eqb_refl. apply andb_true_r.
  - apply Z.land_nonneg. right. lia.
  - intros j Hj T. rewrite Z.land_spec, andb_true_iff in T. destruct T as [_ T]. destruct (Z.ltb_spec j 64).
    + destruct (C3 j ltac:(lia)) as [E _]. rewrite E in T. now apply Z.eqb_eq.
    + rewrite Z.bits_above_log2 in T; [discriminate|lia|]. destruct (Z.eq_dec (smask i) 0) as [->|]; [cbn; lia|]. apply Z.log2_lt_pow2; [lia|]. apply (Z.lt_le_trans _ (2 ^ 63)); [lia|]. apply Z.pow_le_mono_r; lia.
Qed.

(** ** Specification of the carry tree: generate / propagate of the group of bits [lo .. lo+m]. *)
Fixpoint gen (s p : Z -> bool) (lo : Z) (m : nat) : bool :=
  match m with O => s lo | S m' => xorb (s (lo + Z.of_nat m)) (p (lo + Z.of_nat m) && gen s p lo m') end.
Fixpoint prop (p : Z -> bool) (lo : Z) (m : nat) : bool :=
  match m with O => p lo | S m' => p (lo + Z.of_nat m) && prop p lo m' end.

Lemma gen_join s p lo m m' : gen s p lo (m + S m') = xorb (gen s p (lo + Z.of_nat (S m)) m') (prop p (lo + Z.of_nat (S m)) m' && gen s p lo m).
Proof.
  induction m' as [|m' IH].
  - replace (m + 1)%nat with (S m) by lia. reflexivity.
  - replace (m + S (S m'))%nat with (S (m + S m')) by lia.
    change (gen s p lo (S (m + S m'))) with (xorb (s (lo + Z.of_nat (S (m + S m')))) (p (lo + Z.of_nat (S (m + S m'))) && gen s p lo (m + S m'))). rewrite IH. cbn [gen prop].
    replace (lo + Z.of_nat (S m) + Z.of_nat (S m')) with (lo + Z.of_nat (S (m + S m'))) by lia.
    destruct (s (lo + Z.of_nat (S (m + S m')))), (p (lo + Z.of_nat (S (m + S m')))), (gen s p (lo + Z.of_nat (S m)) m'), (prop p (lo + Z.of_nat (S m)) m'), (gen s p lo m); reflexivity.
Qed.
Lemma prop_join p lo m m' : prop p lo (m + S m') = prop p (lo + Z.of_nat (S m)) m' && prop p lo m.
Proof.
  induction m' as [|m' IH].
  - replace (m + 1)%nat with (S m) by lia. reflexivity.
  - replace (m + S (S m'))%nat with (S (m + S m')) by lia. change (prop p lo (S (m + S m'))) with (p (lo + Z.of_nat (S (m + S m'))) && prop p lo (m + S m')). rewrite IH. cbn [prop].
    replace (lo + Z.of_nat (S m) + Z.of_nat (S m')) with (lo + Z.of_nat (S (m + S m'))) by lia. apply andb_assoc.
Qed.

(** ** One stage on plain values *)
Definition pstage (SP : Z * Z) (i : nat) : Z * Z :=
  let '(Sv, P) := SP in let P0 := Z.land P (sout i) in
  (Z.lxor Sv (Z.land P0 (fan (smask i) (smul i) Sv)),
   Z.lxor (Z.land P (Z.lxor (sout i) (-1))) (Z.land P0 (fan (smask i) (smul i) P))).

Definition grp (w k : Z) : Z := k / w * w.
Definition inv (s p : Z -> bool) (w : Z) (SP : Z * Z) : Prop :=
  forall k, 0 <= k < 64 -> Z.testbit (fst SP) k = gen s p (grp w k) (Z.to_nat (k mod w)) /\ Z.testbit (snd SP) k = prop p (grp w k) (Z.to_nat (k mod w)).

Lemma inv_step s p i SP : (i < 6)%nat -> inv s p (2 ^ Z.of_nat i) SP -> inv s p (2 ^ Z.of_nat (S i)) (pstage SP i).
Proof.
  intros Hi HI k Hk. destruct SP as [Sv P]. cbn [fst snd] in HI. unfold pstage.
  assert (E2 : 2 ^ Z.of_nat (S i) = 2 * 2 ^ Z.of_nat i) by (rewrite Nat2Z.inj_succ, Z.pow_succ_r by lia; reflexivity).
  rewrite E2. destruct (consts i Hi) as (_ & _ & C). destruct (C k Hk) as [_ Co].
  cbn [fst snd]. rewrite !Z.lxor_spec, !Z.land_spec, !Z.lxor_spec. rewrite (fan_spec i Sv k Hi Hk), (fan_spec i P k Hi Hk), Co. rewrite Z.bits_m1 by lia.
  pose proof (src_range i k Hi Hk) as Hs. set (w := 2 ^ Z.of_nat i) in *. assert (Hw : 0 < w) by (apply Z.pow_pos_nonneg; lia).
  destruct (HI k Hk) as [Ks Kp]. destruct (HI _ Hs) as [Ss Sp]. cbn [fst snd] in Ks, Kp, Ss, Sp. rewrite Ks, Kp, Ss, Sp. clear Ks Kp Ss Sp HI C Co.
  pose proof (Z.mod_pos_bound k (2 * w) ltac:(lia)) as Hr. pose proof (Z.div_mod k (2 * w) ltac:(lia)) as Hdm.
  set (q := k / (2 * w)) in *. set (r := k mod (2 * w)) in *.
  assert (G2 : grp (2 * w) k = 2 * w * q) by (unfold grp; fold q; ring). rewrite G2.
  destruct (Z.leb_spec w r) as [Hge|Hlt].
  - assert (D1 : k / w = 2 * q + 1) by (symmetry; apply (Z.div_unique k w (2 * q + 1) (r - w)); lia).
    assert (M1 : k mod w = r - w) by (symmetry; apply (Z.mod_unique k w (2 * q + 1) (r - w)); lia).
    assert (D2 : src w k / w = 2 * q) by (symmetry; unfold src; fold q; apply (Z.div_unique _ w (2 * q) (w - 1)); lia).
    assert (M2 : src w k mod w = w - 1) by (symmetry; unfold src; fold q; apply (Z.mod_unique _ w (2 * q) (w - 1)); lia).
    unfold grp. rewrite D1, M1, D2, M2.
    replace (Z.to_nat r) with (Z.to_nat (w - 1) + S (Z.to_nat (r - w)))%nat by lia.
    rewrite gen_join, prop_join. replace (Z.of_nat (S (Z.to_nat (w - 1)))) with w by lia.
    replace ((2 * q + 1) * w) with (2 * w * q + w) by ring. replace (2 * q * w) with (2 * w * q) by ring.
    split; rewrite ?andb_true_r, ?andb_true_l, ?andb_false_r, ?xorb_false_l; cbn [xorb negb]; rewrite ?andb_false_r, ?xorb_false_l; reflexivity.
  - assert (D1 : k / w = 2 * q) by (symmetry; apply (Z.div_unique k w (2 * q) r); lia).
    assert (M1 : k mod w = r) by (symmetry; apply (Z.mod_unique k w (2 * q) r); lia).
    unfold grp. rewrite D1, M1. replace (2 * q * w) with (2 * w * q) by ring.
    split; cbn [xorb negb andb]; rewrite ?andb_false_r, ?andb_true_r, ?xorb_false_r; reflexivity.
Qed.

Definition pspk (Sv P : Z) : Z * Z := fold_left pstage (seq 0 6) (Sv, P).
Lemma pspk_ok Sv P k : 0 <= k < 64 ->
  Z.testbit (fst (pspk Sv P)) k = gen (Z.testbit Sv) (Z.testbit P) 0 (Z.to_nat k) /\ Z.testbit (snd (pspk Sv P)) k = prop (Z.testbit P) 0 (Z.to_nat k).
Proof.
  intros Hk. assert (I : inv (Z.testbit Sv) (Z.testbit P) (2 ^ Z.of_nat 6) (pspk Sv P)).
  { unfold pspk. cbn [seq fold_left]. do 6 (apply inv_step; [lia|]). intros j Hj. cbn [fst snd]. unfold grp. change (2 ^ Z.of_nat 0) with 1. rewrite Z.div_1_r, Z.mod_1_r, Z.mul_1_r. split; reflexivity. }
  specialize (I k Hk). change (2 ^ Z.of_nat 6) with 64 in I. unfold grp in I. rewrite Z.div_small, Z.mod_small in I by lia. exact I.
Qed.

(** ** Addition *)
Lemma add_bits x y k : 0 <= k -> Z.testbit (x + y) k = xorb (xorb (Z.testbit x k) (Z.testbit y k))
  (if 0 <? k then gen (fun j => Z.testbit x j && Z.testbit y j) (fun j => xorb (Z.testbit x j) (Z.testbit y j)) 0 (Z.to_nat (k - 1)) else false).
Proof.
  intros Hk. destruct (Z.add_carry_bits x y false) as (c & E & Hc & H0). cbn [Z.b2z] in E. rewrite Z.add_0_r in E. rewrite E.
  assert (HS : forall j, 0 <= j -> Z.testbit c (Z.succ j) = (Z.testbit x j && Z.testbit y j) || (Z.testbit c j && (Z.testbit x j || Z.testbit y j))).
  { intros j Hj. rewrite <- Z.div2_bits, Hc by assumption. rewrite ?Z.lor_spec, ?Z.land_spec, ?Z.lor_spec. destruct (Z.testbit x j), (Z.testbit y j), (Z.testbit c j); reflexivity. }
  rewrite !Z.lxor_spec. f_equal. destruct (Z.ltb_spec 0 k) as [Hp|Hp]; [|replace k with 0 by lia; exact H0].
  assert (G : forall m, Z.testbit c (Z.of_nat (S m)) = gen (fun j => Z.testbit x j && Z.testbit y j) (fun j => xorb (Z.testbit x j) (Z.testbit y j)) 0 m).
  { induction m as [|m IH].
    - change (Z.of_nat 1) with (Z.succ 0). rewrite HS by lia. rewrite H0. cbn [gen]. rewrite andb_false_l, orb_false_r. reflexivity.
    - rewrite Nat2Z.inj_succ, HS by lia. rewrite IH. cbn [gen]. rewrite Z.add_0_l.
      destruct (Z.testbit x (Z.of_nat (S m))), (Z.testbit y (Z.of_nat (S m))), (gen (fun j => Z.testbit x j && Z.testbit y j) (fun j => xorb (Z.testbit x j) (Z.testbit y j)) 0 m); reflexivity. }
  rewrite <- G. f_equal. lia.
Qed.

Lemma gen_ext s s' p p' lo m : (forall j, lo <= j <= lo + Z.of_nat m -> s j = s' j /\ p j = p' j) -> gen s p lo m = gen s' p' lo m.
Proof.
  induction m as [|m IH]; intros H; cbn [gen]; [apply H; lia|].
  destruct (H (lo + Z.of_nat (S m)) ltac:(lia)) as [-> ->]. rewrite IH; [reflexivity|]. intros; apply H; lia.
Qed.
Lemma prop_ext p p' lo m : (forall j, lo <= j <= lo + Z.of_nat m -> p j = p' j) -> prop p lo m = prop p' lo m.
Proof.
  induction m as [|m IH]; intros H; cbn [prop]; [apply H; lia|]. rewrite (H (lo + Z.of_nat (S m))) by lia. rewrite IH; [reflexivity|]. intros; apply H; lia.
Qed.

Lemma wshl_testbit v j k : 0 <= j -> 0 <= k < 64 -> Z.testbit (wshl v j) k = if k <? j then false else Z.testbit v (k - j).
Proof.
  intros Hj Hk. unfold wshl. rewrite wrap_testbit by assumption. destruct (Z.ltb_spec k j).
  - apply Z.shiftl_spec_low. lia.
  - apply Z.shiftl_spec. lia.
Qed.

Lemma padd_ok x y : in64 x -> in64 y -> Z.lxor (Z.lxor x y) (wshl (fst (pspk (Z.land x y) (Z.lxor x y))) 1) = wadd x y.
Proof.
  intros Hx Hy. apply in64_bits_eq.
  - apply in64_lxor; [now apply in64_lxor|apply wrap_in64].
  - apply wadd_in64.
  - intros k Hk. unfold wadd. rewrite wrap_testbit by assumption. rewrite add_bits by lia. rewrite !Z.lxor_spec. f_equal.
    rewrite wshl_testbit by lia. destruct (Z.ltb_spec k 1), (Z.ltb_spec 0 k); try lia; try reflexivity.
    rewrite (proj1 (pspk_ok (Z.land x y) (Z.lxor x y) (k - 1) ltac:(lia))). apply gen_ext. intros j Hj. rewrite Z.land_spec, Z.lxor_spec. split; reflexivity.
Qed.

(** ** Comparison *)
Lemma mod_pow2_succ x m : 0 <= m -> x mod 2 ^ (m + 1) = x mod 2 ^ m + 2 ^ m * Z.b2z (Z.testbit x m).
Proof.
  intros Hm. pose proof (Z.pow_pos_nonneg 2 m ltac:(lia) ltac:(lia)). rewrite Z.pow_add_r by lia. change (2 ^ 1) with 2. rewrite Z.rem_mul_r by lia. now rewrite <- Z.testbit_spec' by lia.
Qed.

Lemma gen_lt x y m : gen (fun j => Z.testbit y j && negb (Z.testbit x j)) (fun j => negb (xorb (Z.testbit x j) (Z.testbit y j))) 0 m =
  (x mod 2 ^ (Z.of_nat m + 1) <? y mod 2 ^ (Z.of_nat m + 1)) /\
  prop (fun j => negb (xorb (Z.testbit x j) (Z.testbit y j))) 0 m = (x mod 2 ^ (Z.of_nat m + 1) =? y mod 2 ^ (Z.of_nat m + 1)).
Proof.
  induction m as [|m [IG IP]].
  - cbn [gen prop Z.of_nat]. rewrite !mod_pow2_succ by lia. rewrite !Z.mod_1_r. change (2 ^ 0) with 1. destruct (Z.testbit x 0), (Z.testbit y 0); split; reflexivity.
  - cbn [gen prop]. rewrite IG, IP, !Z.add_0_l. rewrite !(mod_pow2_succ _ (Z.of_nat (S m))) by lia. replace (Z.of_nat m + 1) with (Z.of_nat (S m)) by lia.
    pose proof (Z.mod_pos_bound x (2 ^ Z.of_nat (S m)) ltac:(apply Z.pow_pos_nonneg; lia)). pose proof (Z.mod_pos_bound y (2 ^ Z.of_nat (S m)) ltac:(apply Z.pow_pos_nonneg; lia)).
    set (W := 2 ^ Z.of_nat (S m)) in *. set (a := x mod W) in *. set (b := y mod W) in *.
    destruct (Z.testbit x (Z.of_nat (S m))), (Z.testbit y (Z.of_nat (S m))); cbn [Z.b2z andb negb xorb];
    split; destruct (Z.ltb_spec a b), (Z.eqb_spec a b); cbn [xorb andb negb]; symmetry; rewrite ?Z.ltb_lt, ?Z.ltb_ge, ?Z.eqb_eq, ?Z.eqb_neq; lia.
Qed.

Lemma land_high v : 0 <= v < H63 -> Z.land v (- H63) = 0.
Proof.
  intros Hv. apply Z.bits_inj'. intros k Hk. rewrite Z.land_spec, Z.bits_0. assert (I1 : in64 v) by (unfold in64; unfold H63 in *; lia).
  destruct (Z.ltb_spec k 63).
  - replace (Z.testbit (- H63) k) with false; [apply andb_false_r|]. symmetry. change (- H63) with (-1 * 2 ^ 63). apply Z.mul_pow2_bits_low. lia.
  - rewrite in64_high_bits by assumption. replace (v <? 0) with false by (symmetry; apply Z.ltb_ge; lia). reflexivity.
Qed.

Lemma flip_mod x : in64 x -> Z.lxor x (- H63) mod M64 = x + H63.
Proof.
  intros Hx. destruct (Z.ltb_spec x 0).
  - assert (E : Z.lxor (x + H63) (- H63) = x) by (rewrite <- Z.add_nocarry_lxor; [ring|apply land_high; unfold in64 in Hx; lia]).
    rewrite <- E at 1. rewrite Z.lxor_assoc, Z.lxor_nilpotent, Z.lxor_0_r. apply Z.mod_small. unfold in64, M64, H63 in *; lia.
  - rewrite <- Z.add_nocarry_lxor by (apply land_high; unfold in64 in Hx; lia). symmetry. apply (Z.mod_unique _ _ (-1)); [|unfold M64, H63; ring]. left. unfold in64, M64, H63 in *; lia.
Qed.

Definition fl x := Z.lxor x (- H63).
Lemma plt_ok x y : in64 x -> in64 y -> let SP := pspk (Z.land (fl y) (Z.lnot (fl x))) (Z.lnot (Z.lxor (fl x) (fl y))) in
  Z.testbit (fst SP) 63 = (x <? y) /\ Z.testbit (snd SP) 63 = (x =? y).
Proof.
  intros Hx Hy SP. destruct (pspk_ok (Z.land (fl y) (Z.lnot (fl x))) (Z.lnot (Z.lxor (fl x) (fl y))) 63 ltac:(lia)) as [G P]. fold SP in G, P. rewrite G, P.
  change (Z.to_nat 63) with 63%nat.
  destruct (gen_lt (fl x) (fl y) 63) as [GL PL]. rewrite <- (gen_ext (Z.testbit (Z.land (fl y) (Z.lnot (fl x)))) _ (Z.testbit (Z.lnot (Z.lxor (fl x) (fl y)))) _ 0 63) in GL.
  - rewrite <- (prop_ext (Z.testbit (Z.lnot (Z.lxor (fl x) (fl y)))) _ 0 63) in PL.
    + rewrite GL, PL. change (2 ^ (Z.of_nat 63 + 1)) with M64. unfold fl. rewrite !flip_mod by assumption.
      split; [destruct (Z.ltb_spec x y)|destruct (Z.eqb_spec x y)]; rewrite ?Z.ltb_lt, ?Z.ltb_ge, ?Z.eqb_eq, ?Z.eqb_neq; lia.
    + intros j Hj. rewrite Z.lnot_spec, Z.lxor_spec by lia. reflexivity.
  - intros j Hj. rewrite Z.land_spec, !Z.lnot_spec, Z.lxor_spec by lia. split; reflexivity.
Qed.

(** ** Propagate circuit *)
Definition pp_step (P shift : Z) : Z := Z.land P (wshl P shift).
Definition ones_from (lo P : Z) : Prop := forall k, lo <= k < 64 -> Z.testbit P k = true.
Lemma pp_step_ok P w : 0 < w -> 2 * w <= 64 -> ones_from (64 - w) (pp_step P w) <-> ones_from (64 - 2 * w) P.
Proof.
  intros Hw H64. unfold ones_from, pp_step. split; intros H k Hk.
  - destruct (Z.ltb_spec k (64 - w)).
    + specialize (H (k + w) ltac:(lia)). rewrite Z.land_spec, wshl_testbit, andb_true_iff in H by lia. destruct H as [_ H].
      replace (k + w <? w) with false in H by (symmetry; apply Z.ltb_ge; lia). now replace (k + w - w) with k in H by lia.
    + specialize (H k ltac:(lia)). rewrite Z.land_spec, andb_true_iff in H. apply H.
  - rewrite Z.land_spec, wshl_testbit by lia. replace (k <? w) with false by (symmetry; apply Z.ltb_ge; lia). rewrite !H by lia. reflexivity.
Qed.
Definition pp (P : Z) : Z := fold_left pp_step [32; 16; 8; 4; 2; 1] P.
Lemma pp_ok P : in64 P -> Z.testbit (pp P) 63 = (P =? -1).
Proof.
  intros HP. assert (E : ones_from 63 (pp P) <-> ones_from 0 P).
  { unfold pp. cbn [fold_left]. change 63 with (64 - 1). rewrite pp_step_ok by lia. change (64 - 2 * 1) with (64 - 2). rewrite pp_step_ok by lia. change (64 - 2 * 2) with (64 - 4).
    rewrite pp_step_ok by lia. change (64 - 2 * 4) with (64 - 8). rewrite pp_step_ok by lia. change (64 - 2 * 8) with (64 - 16). rewrite pp_step_ok by lia. change (64 - 2 * 16) with (64 - 32). rewrite pp_step_ok by lia. reflexivity. }
  assert (E1 : ones_from 0 P <-> P = -1).
  { split.
    - intros H. apply in64_bits_eq; [assumption|apply in64_m1|]. intros k Hk. rewrite H, Z.bits_m1 by lia. reflexivity.
    - intros -> k Hk. apply Z.bits_m1. lia. }
  assert (E2 : ones_from 63 (pp P) <-> Z.testbit (pp P) 63 = true).
  { split; intros H; [apply H; lia|]. intros k Hk. now replace k with 63 by lia. }
  destruct (Z.eqb_spec P (-1)) as [Ep|Ep]; destruct (Z.testbit (pp P) 63) eqn:T; try reflexivity; exfalso.
  - enough (false = true) by discriminate. tauto.
  - tauto.
Qed.

Lemma lnot_lxor_m1 x y : (Z.lnot (Z.lxor x y) =? -1) = (x =? y).
Proof.
  destruct (Z.eqb_spec x y) as [->|N]; [now rewrite Z.lxor_nilpotent|]. apply Z.eqb_neq. intros E. apply N. apply Z.lxor_eq. 
  rewrite <- (Z.lnot_involutive (Z.lxor x y)), E. reflexivity.
Qed.

(** ** Sharings *)
Section Circuits.
  Variable n : nat.
  Variable pr : provider.
  Hypothesis Hn : (0 < n)%nat.
  Hypothesis HV : valid n pr.

  Lemma fan_ok i x v : (i < 6)%nat -> bshare n v x -> bshare n (fan (smask i) (smul i) v) (map (fan (smask i) (smul i)) x).
  Proof.
    intros Hi. apply (bshare_map n).
    - intros. apply wmul_in64.
    - reflexivity.
    - intros a b Ha Hb. apply in64_bits_eq; [apply wmul_in64|apply in64_lxor; apply wmul_in64|].
      intros k Hk. rewrite Z.lxor_spec, !fan_spec, Z.lxor_spec by assumption.
      destruct (2 ^ Z.of_nat i <=? k mod (2 * 2 ^ Z.of_nat i)), (Z.testbit a (src (2 ^ Z.of_nat i) k)), (Z.testbit b (src (2 ^ Z.of_nat i) k)); reflexivity.
  Qed.
  Lemma bshl_ok x v k : 0 <= k -> bshare n v x -> bshare n (wshl v k) (bshl x k).
  Proof.
    intros Hk. apply (bshare_map n (fun s => wshl s k)).
    - intros. apply wrap_in64.
    - unfold wshl. rewrite Z.shiftl_0_l. reflexivity.
    - intros a b Ha Hb. apply in64_bits_eq; [apply wrap_in64|apply in64_lxor; apply wrap_in64|].
      intros j Hj. rewrite Z.lxor_spec, !wshl_testbit, Z.lxor_spec by assumption. destruct (j <? k); reflexivity.
  Qed.
  Lemma bshr_ok x v k : 0 <= k -> bshare n v x -> bshare n (wshr v k) (bshr x k).
  Proof.
    intros Hk. apply (bshare_map n (fun s => wshr s k)).
    - intros. now apply in64_shiftr.
    - apply Z.shiftr_0_l.
    - intros a b _ _. apply Z.shiftr_lxor.
  Qed.
  Lemma sign_bit_eq s : in64 s -> (if wshr s 63 =? -1 then 1 else 0) = Z.b2z (Z.testbit s 63).
  Proof.
    intros Hs. unfold wshr. rewrite Z.shiftr_div_pow2 by lia. change (2 ^ 63) with H63. rewrite in64_high_bits by (assumption || lia). unfold in64, H63 in *.
    destruct (Z.ltb_spec s 0).
    - replace (s / 9223372036854775808) with (-1); [reflexivity|]. apply (Z.div_unique _ _ _ (s + 9223372036854775808)); lia.
    - rewrite Z.div_small by lia. reflexivity.
  Qed.
  Lemma sign_bit_ok x v : bshare n v x -> bshare n (Z.b2z (Z.testbit v 63)) (sign_bit x).
  Proof.
    intros H. rewrite <- sign_bit_eq by (eapply bshare_in64; eassumption). revert H. apply (bshare_map n (fun s => if wshr s 63 =? -1 then 1 else 0)).
    - intros a _. destruct (wshr a 63 =? -1); unfold in64, H63; lia.
    - reflexivity.
    - intros a b Ha Hb. rewrite !sign_bit_eq by auto using in64_lxor. rewrite Z.lxor_spec. destruct (Z.testbit a 63), (Z.testbit b 63); reflexivity.
  Qed.

  Lemma const_in64 i : (i < 6)%nat -> in64 (sout i) /\ in64 (Z.lxor (sout i) (-1)).
  Proof.
    intros Hi. assert (in64 (sout i)) by (do 6 (destruct i as [|i]; [vm_compute; split; congruence|]); lia).
    split; [assumption|]. apply in64_lxor; [assumption|apply in64_m1].
  Qed.

  Definition bshare2 (v : Z * Z) (p : list Z * list Z) : Prop := bshare n (fst v) (fst p) /\ bshare n (snd v) (snd p).
  Lemma spk_stage_ok i SP v : (i < 6)%nat -> bshare2 v SP -> yields (spk_stage (pr := pr) SP (smask i, sout i, smul i)) (bshare2 (pstage v i)).
  Proof.
    intros Hi [H1 H2]. destruct SP as [Sv P], v as [vS vP]. cbn [fst snd] in *. unfold spk_stage. destruct (const_in64 i Hi) as [I1 I2].
    eapply yields_bind; [eapply (band_ok n pr Hn HV); [exact H2|split; [exact I1|reflexivity]]|]. intros P0 HP0. cbv zeta.
    eapply yields_bind; [eapply (band_ok n pr Hn HV); [exact HP0|exact (fan_ok i Sv vS Hi H1)]|]. intros uS HuS.
    eapply yields_bind; [eapply (band_ok n pr Hn HV); [exact HP0|exact (fan_ok i P vP Hi H2)]|]. intros uP HuP.
    eapply yields_bind; [eapply (band_ok n pr Hn HV); [exact H2|split; [exact I2|reflexivity]]|]. intros P' HP'.
    apply yields_ret. split; cbn [fst snd pstage]; now apply bxor_priv_ok.
  Qed.

  Lemma yields_foldM {A B C} (f : A -> B -> run pr A) (g : C -> B -> C) (R : C -> A -> Prop) l a c :
    (forall a c b, In b l -> R c a -> yields (f a b) (R (g c b))) -> R c a -> yields (foldM f l a) (R (fold_left g l c)).
  Proof.
    revert a c. induction l as [|b l IH]; intros a c H H0; cbn [foldM fold_left]; [now apply yields_ret|].
    eapply yields_bind; [apply H; [now left|exact H0]|]. intros a' Ha'. apply IH; [intros; apply H; [now right|assumption]|assumption].
  Qed.

  Lemma spk_ok Sv P vS vP : bshare n vS Sv -> bshare n vP P -> yields (spk (pr := pr) Sv P) (bshare2 (pspk vS vP)).
  Proof.
    intros H1 H2. unfold spk, pspk. rewrite stages_eq. cbn [seq map foldM fold_left].
    assert (H0 : bshare2 (vS, vP) (Sv, P)) by (split; assumption).
    do 6 (eapply yields_bind; [eapply spk_stage_ok; [lia|eassumption]|]; clear H0; intros ? H0). now apply yields_ret.
  Qed.

  Lemma p_circuit_ok P v : bshare n v P -> yields (p_circuit (pr := pr) P) (bshare n (pp v)).
  Proof.
    intros H. unfold p_circuit, pp. apply (yields_foldM _ pp_step (bshare n)); [|assumption]. intros a c b Hb Ha.
    eapply band_ok; eauto. cbn [opval]. apply bshl_ok; [|assumption]. cbn [In] in Hb. lia.
  Qed.

  Lemma badd_ok x vx y vy : bshare n vx x -> opval n y vy -> yields (badd (pr := pr) x y) (bshare n (wadd vx vy)).
  Proof.
    intros Hx Hy. unfold badd. eapply yields_bind; [eapply (band_ok n pr Hn HV); eassumption|]. intros S HS. cbv zeta.
    pose proof (bxor_ok n Hn x vx y vy Hx Hy) as HP. eapply yields_bind; [eapply spk_ok; [exact HS|exact HP]|]. intros CP [HC _]. apply yields_ret.
    rewrite <- padd_ok by (eauto using bshare_in64, opval_in64). apply bxor_priv_ok; auto. apply bshl_ok; [lia|assumption].
  Qed.

  Lemma beq_ok x vx y vy : bshare n vx x -> opval n y vy -> yields (beq (pr := pr) x y) (bshare n (Z.b2z (vx =? vy))).
  Proof.
    intros Hx Hy. unfold beq. pose proof (binv_ok n Hn _ _ (bxor_ok n Hn x vx y vy Hx Hy)) as HP.
    eapply yields_bind; [apply p_circuit_ok; exact HP|]. intros P HPc. apply yields_ret. apply sign_bit_ok in HPc.
    rewrite pp_ok, lnot_lxor_m1 in HPc by (eapply bshare_in64; exact HP). exact HPc.
  Qed.
  Lemma bne_ok x vx y vy : bshare n vx x -> opval n y vy -> yields (bne (pr := pr) x y) (bshare n (Z.b2z (negb (vx =? vy)))).
  Proof.
    intros Hx Hy. unfold bne. eapply yields_bind; [eapply beq_ok; eassumption|]. intros e He. apply yields_ret.
    replace (Z.b2z (negb (vx =? vy))) with (Z.lxor (Z.b2z (vx =? vy)) 1) by (destruct (vx =? vy); reflexivity). apply bxor_ok; auto. split; [unfold in64, H63; lia|reflexivity].
  Qed.

  Lemma mH63_in64 : in64 (- H63). Proof. unfold in64, H63; lia. Qed.
  Lemma flip_ok x v : bshare n v x -> bshare n (fl v) (flip_sign x).
  Proof. intros H. apply (bxor_ok n Hn x v (Pub (- H63))); [assumption|]. split; [apply mH63_in64|reflexivity]. Qed.
  Lemma op_flip_ok y v : opval n y v -> opval n (op_flip y) (fl v).
  Proof. apply op_xor_ok; [assumption|apply mH63_in64]. Qed.

  Lemma lt_parts x vx y vy : bshare n vx x -> opval n y vy ->
    yields (S <- op_and (pr := pr) (op_flip y) (binv (flip_sign x)) ;; spk S (binv (bxor (flip_sign x) (op_flip y))))
     (fun SP => exists vS vP, bshare n vS (fst SP) /\ bshare n vP (snd SP) /\ Z.testbit vS 63 = (vx <? vy) /\ Z.testbit vP 63 = (vx =? vy)).
  Proof.
    intros Hx Hy. pose proof (flip_ok x vx Hx) as Fx. pose proof (op_flip_ok y vy Hy) as Fy.
    eapply yields_bind; [eapply (op_and_ok n pr Hn HV); [exact Fy|apply binv_ok; [assumption|exact Fx]]|]. intros S HS.
    eapply yields_weaken; [eapply spk_ok; [exact HS|apply binv_ok; [assumption|apply bxor_ok; [assumption|exact Fx|exact Fy]]]|].
    intros SP [H1 H2]. destruct (plt_ok vx vy) as [E1 E2]; [eapply bshare_in64; exact Hx|eapply opval_in64; exact Hy|].
    do 2 eexists. split; [exact H1|split; [exact H2|split; [exact E1|exact E2]]].
  Qed.
  Lemma gt_parts x vx y vy : bshare n vx x -> opval n y vy ->
    yields (S <- band (pr := pr) (flip_sign x) (op_inv (op_flip y)) ;; spk S (binv (bxor (flip_sign x) (op_flip y))))
     (fun SP => exists vS vP, bshare n vS (fst SP) /\ bshare n vP (snd SP) /\ Z.testbit vS 63 = (vy <? vx) /\ Z.testbit vP 63 = (vx =? vy)).
  Proof.
    intros Hx Hy. pose proof (flip_ok x vx Hx) as Fx. pose proof (op_flip_ok y vy Hy) as Fy.
    eapply yields_bind; [eapply (band_ok n pr Hn HV); [exact Fx|apply op_inv_ok; [assumption|exact Fy]]|]. intros S HS.
    eapply yields_weaken; [eapply spk_ok; [exact HS|apply binv_ok; [assumption|apply bxor_ok; [assumption|exact Fx|exact Fy]]]|].
    intros SP [H1 H2]. destruct (plt_ok vy vx) as [E1 E2]; [eapply opval_in64; exact Hy|eapply bshare_in64; exact Hx|]. cbv zeta in E1, E2. rewrite (Z.lxor_comm (fl vy) (fl vx)) in E1, E2.
    do 2 eexists. split; [exact H1|split; [exact H2|split; [exact E1|rewrite Z.eqb_sym; exact E2]]].
  Qed.

  Lemma bind_assoc {A B C} (m : run pr A) (f : A -> run pr B) (g : B -> run pr C) (Q : C -> Prop) :
    yields (b <- (a <- m ;; f a) ;; g b) Q -> yields (a <- m ;; b <- f a ;; g b) Q.
  Proof. intros H s. specialize (H s). unfold bind in *. destruct (m s). exact H. Qed.

  Lemma blt_ok x vx y vy : bshare n vx x -> opval n y vy -> yields (blt (pr := pr) x y) (bshare n (Z.b2z (vx <? vy))).
  Proof.
    intros Hx Hy. unfold blt. cbv zeta. apply bind_assoc. eapply yields_bind; [eapply lt_parts; eassumption|].
    intros SP (vS & vP & H1 & H2 & E1 & E2). apply yields_ret. rewrite <- E1. now apply sign_bit_ok.
  Qed.
  Lemma ble_ok x vx y vy : bshare n vx x -> opval n y vy -> yields (ble (pr := pr) x y) (bshare n (Z.b2z (vx <=? vy))).
  Proof.
    intros Hx Hy. unfold ble. cbv zeta. apply bind_assoc. eapply yields_bind; [eapply lt_parts; eassumption|].
    intros SP (vS & vP & H1 & H2 & E1 & E2). apply yields_ret. replace (vx <=? vy) with (Z.testbit (Z.lxor vS vP) 63); [apply sign_bit_ok; now apply bxor_priv_ok|].
    rewrite Z.lxor_spec, E1, E2. destruct (Z.ltb_spec vx vy), (Z.eqb_spec vx vy), (Z.leb_spec vx vy); try lia; reflexivity.
  Qed.
  Lemma bgt_ok x vx y vy : bshare n vx x -> opval n y vy -> yields (bgt (pr := pr) x y) (bshare n (Z.b2z (vy <? vx))).
  Proof.
    intros Hx Hy. unfold bgt. cbv zeta. apply bind_assoc. eapply yields_bind; [eapply gt_parts; eassumption|].
    intros SP (vS & vP & H1 & H2 & E1 & E2). apply yields_ret. rewrite <- E1. now apply sign_bit_ok.
  Qed.
  Lemma bge_ok x vx y vy : bshare n vx x -> opval n y vy -> yields (bge (pr := pr) x y) (bshare n (Z.b2z (vy <=? vx))).
  Proof.
    intros Hx Hy. unfold bge. cbv zeta. apply bind_assoc. eapply yields_bind; [eapply gt_parts; eassumption|].
    intros SP (vS & vP & H1 & H2 & E1 & E2). apply yields_ret. replace (vy <=? vx) with (Z.testbit (Z.lxor vS vP) 63); [apply sign_bit_ok; now apply bxor_priv_ok|].
    rewrite Z.lxor_spec, E1, E2. destruct (Z.ltb_spec vy vx), (Z.eqb_spec vx vy), (Z.leb_spec vy vx); try lia; reflexivity.
  Qed.
End Circuits.

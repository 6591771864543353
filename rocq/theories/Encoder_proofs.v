Require Import ZArith QArith Qround List Lia Lqa.
From Verif Require Import Ring64 Encoder.
Import ListNotations.
Open Scope Z_scope.

Lemma rem_neg_bound t k : 0 < k -> t < 0 -> - k < Z.rem t k <= 0.
Proof.
  intros. pose proof (Z.rem_bound_pos (- t) k). rewrite Z.rem_opp_l in * by lia. lia.
Qed.

Lemma nid_spec t k : 0 < k -> in64 t -> (t < 0 -> k - t < H63) -> 2 * k <= H63 ->
  exists r, nearest_integer_division t k = Some r /\
    2 * Z.abs (k * r - t) <= k /\ (2 * Z.abs (k * r - t) = k -> Z.abs (k * r) <= Z.abs t).
Proof.
  intros Hk Ht Hov H2. unfold nearest_integer_division.
  replace (0 <? k) with true by (symmetry; apply Z.ltb_lt; lia).
  unfold in64 in Ht.
  pose proof (Z.quot_rem' t k) as Hqr.
  assert (Hq : in64 (Z.quot t k)).
  { unfold in64. destruct (Z_lt_le_dec t 0).
    - pose proof (Z.quot_le_mono t 0 k). rewrite Z.quot_0_l in * by lia.
      pose proof (rem_neg_bound t k). assert (t <= Z.quot t k) by nia. unfold H63 in *; lia.
    - pose proof (Z.quot_pos t k). pose proof (Z.rem_bound_pos t k). assert (Z.quot t k <= t) by nia. unfold H63 in *; lia. }
  assert (Hkq : (t < 0 -> k * Z.quot t k <= 0) /\ (0 <= t -> 0 <= k * Z.quot t k)).
  { split; intros.
    - pose proof (rem_neg_bound t k). assert (Z.quot t k <= 0) by (rewrite <- (Z.quot_0_l k) by lia; apply Z.quot_le_mono; lia). nia.
    - pose proof (Z.quot_pos t k). nia. }
  unfold tdiv. rewrite (wrap_id _ Hq).
  destruct (t <? 0) eqn:E.
  - apply Z.ltb_lt in E. specialize (Hov E). cbv zeta.
    assert (HR : wadd ((wmul (1 - 1) t) mod k) (wmul 1 ((wsub k t) mod k)) = - Z.rem t k).
    { replace (1 - 1) with 0 by ring. unfold wmul at 1. rewrite Z.mul_0_l. rewrite (wrap_id 0 in64_0). rewrite Z.mod_0_l by lia.
      unfold wsub. rewrite (wrap_id (k - t)) by (unfold in64; lia).
      assert (Hm : (k - t) mod k = - Z.rem t k).
      { symmetry. pose proof (rem_neg_bound t k). apply Z.mod_unique_pos with (q := 1 - Z.quot t k); [lia|nia]. }
      rewrite Hm. pose proof (rem_neg_bound t k). unfold wmul. rewrite Z.mul_1_l.
      unfold wadd. rewrite Z.add_0_l. rewrite !wrap_id; try reflexivity; unfold in64, H63 in *; try lia.
      rewrite wrap_id; unfold in64, H63 in *; lia. }
    rewrite HR. pose proof (rem_neg_bound t k) as Hb. specialize (Hb ltac:(lia) ltac:(lia)).
    assert (H2r : wmul 2 (- Z.rem t k) = 2 * - Z.rem t k) by (unfold wmul; apply wrap_id; unfold in64, H63 in *; lia).
    rewrite H2r. replace (Z.sgn t) with (-1) by (symmetry; apply Z.sgn_neg; lia).
    eexists. split; [reflexivity|].
    destruct (k <? 2 * - Z.rem t k) eqn:E2.
    + apply Z.ltb_lt in E2.
      assert (Hr : wadd (Z.quot t k) (wmul (-1) 1) = Z.quot t k - 1).
      { unfold wmul. rewrite (wrap_id (-1 * 1)) by (unfold in64, H63; lia). unfold wadd.
        apply wrap_id. unfold in64 in *. assert (Z.quot t k <= 0) by (rewrite <- (Z.quot_0_l k) by lia; apply Z.quot_le_mono; lia).
        assert (k * Z.quot t k <= Z.quot t k) by (clear - Hk H; nia). clear - Hqr H0 E2 Ht Hb Hk H. unfold H63 in *. lia. }
      rewrite Hr. split; lia.
    + apply Z.ltb_ge in E2.
      assert (Hr : wadd (Z.quot t k) (wmul (-1) 0) = Z.quot t k).
      { unfold wmul. rewrite Z.mul_0_r, (wrap_id 0 in64_0). unfold wadd. rewrite Z.add_0_r. now apply wrap_id. }
      rewrite Hr. split; lia.
  - apply Z.ltb_ge in E. cbv zeta.
    assert (HR : wadd ((wmul (1 - 0) t) mod k) (wmul 0 ((wsub k t) mod k)) = Z.rem t k).
    { unfold wmul. rewrite Z.mul_0_l, (wrap_id 0 in64_0). replace ((1 - 0) * t) with t by ring.
      rewrite (wrap_id t) by exact Ht. unfold wadd. rewrite Z.add_0_r. rewrite <- Z.rem_mod_nonneg by lia.
      apply wrap_id. pose proof (Z.rem_bound_pos t k). unfold in64, H63 in *; lia. }
    rewrite HR. pose proof (Z.rem_bound_pos t k) as Hb. specialize (Hb ltac:(lia) ltac:(lia)).
    assert (H2r : wmul 2 (Z.rem t k) = 2 * Z.rem t k) by (unfold wmul; apply wrap_id; unfold in64, H63 in *; lia).
    rewrite H2r. eexists. split; [reflexivity|].
    destruct (k <? 2 * Z.rem t k) eqn:E2.
    + apply Z.ltb_lt in E2. assert (0 < t) by lia.
      replace (Z.sgn t) with 1 by (symmetry; apply Z.sgn_pos; lia).
      assert (Hr : wadd (Z.quot t k) (wmul 1 1) = Z.quot t k + 1).
      { unfold wmul. rewrite (wrap_id (1 * 1)) by (unfold in64, H63; lia). unfold wadd.
        apply wrap_id. unfold in64 in *. assert (0 <= Z.quot t k) by (apply Z.quot_pos; lia).
        assert (Z.quot t k <= k * Z.quot t k) by (clear - Hk H0; nia). clear - Hqr H1 E2 Ht Hb Hk H0. unfold H63 in *. lia. }
      rewrite Hr. split; lia.
    + apply Z.ltb_ge in E2.
      assert (Hr : wadd (Z.quot t k) (wmul (Z.sgn t) 0) = Z.quot t k).
      { unfold wmul. rewrite Z.mul_0_r, (wrap_id 0 in64_0). unfold wadd. rewrite Z.add_0_r. now apply wrap_id. }
      rewrite Hr. split; lia.
Qed.

(** ** decode *)
Lemma decode_nonneg s t : 1 < s -> 0 <= t -> exists v, decode s t = Some v /\ (v == t # Z.to_pos s)%Q.
Proof.
  intros Hs Ht. unfold decode. replace (1 <? s) with true by (symmetry; apply Z.ltb_lt; lia).
  replace (t <? 0) with false by (symmetry; apply Z.ltb_ge; lia). cbv zeta.
  eexists. split; [reflexivity|]. rewrite Z.sub_0_r. rewrite Z.mul_0_r, Z.add_0_r.
  unfold Qeq, Qplus, inject_Z. cbn [Qnum Qden]. rewrite Pos.mul_1_l, !Z2Pos.id by lia.
  pose proof (Z.div_mod t s). nia.
Qed.

(** Ceiling division. *)
Definition cdiv (a b : Z) : Z := - ((- a) / b).

Lemma decode_neg s q r : 1 < s -> 0 <= q -> 0 <= r < s -> 0 < q * s + r ->
  exists v, decode s (- (q * s + r)) = Some v /\ (v == (- (q * s + r) # Z.to_pos s) - inject_Z (cdiv (q + r) (s - 1) - 1))%Q.
Proof.
  intros Hs Hq Hr Hp. unfold decode. replace (1 <? s) with true by (symmetry; apply Z.ltb_lt; lia).
  replace (- (q * s + r) <? 0) with true by (symmetry; apply Z.ltb_lt; lia). cbv zeta.
  eexists. split; [reflexivity|].
  assert (Hd : - (q * s + r) / (s - 1) = - q - cdiv (q + r) (s - 1)).
  { unfold cdiv. replace (- (q * s + r)) with (- (q + r) + (- q) * (s - 1)) by ring.
    rewrite Z.div_add by lia. lia. }
  rewrite Hd.
  assert (Hrem : (- (q * s + r)) mod s + (if (- (q * s + r)) mod s =? 0 then 1 else 0) * s * 1 = s - r).
  { destruct (Z.eq_dec r 0) as [->|Hn].
    - replace (- (q * s + 0)) with ((- q) * s) by ring. rewrite Z.mod_mul by lia. cbn [Z.eqb]. lia.
    - assert (Hm : (- (q * s + r)) mod s = s - r).
      { symmetry. apply Z.mod_unique_pos with (q := - q - 1); [lia|nia]. }
      rewrite Hm. replace (s - r =? 0) with false by (symmetry; apply Z.eqb_neq; lia). lia. }
  rewrite Hrem. unfold Qeq, Qplus, Qminus, Qopp, inject_Z. cbn [Qnum Qden].
  unfold Qplus; cbn [Qnum Qden]. rewrite ?Pos.mul_1_r, ?Z2Pos.id by lia. rewrite ?Pos.mul_1_l, ?Z2Pos.id by lia. ring.
Qed.

Lemma cdiv_one a b : 0 < b -> 0 < a -> cdiv a b = 1 <-> a <= b.
Proof.
  intros Hb Ha. unfold cdiv. pose proof (Z.div_mod (- a) b). pose proof (Z.mod_pos_bound (- a) b). split; intros; nia.
Qed.

Lemma decode_neg_iff s q r v : 1 < s -> 0 <= q -> 0 <= r < s -> 0 < q * s + r ->
  decode s (- (q * s + r)) = Some v ->
  ((v == (- (q * s + r) # Z.to_pos s))%Q <-> q + r <= s - 1).
Proof.
  intros Hs Hq Hr Hp Hd. destruct (decode_neg s q r) as (v' & Hv & Hval); auto. rewrite Hd in Hv. injection Hv as <-.
  rewrite Hval. rewrite <- cdiv_one by (try lia; nia). generalize (cdiv (q + r) (s - 1)). intros c.
  unfold Qeq, Qminus, Qopp, inject_Z. cbn [Qnum Qden]. unfold Qplus; cbn [Qnum Qden].
  rewrite ?Pos.mul_1_r, ?Pos.mul_1_l, ?Z2Pos.id by lia. split; intros H; [nia|subst; ring].
Qed.

Lemma encode_nonneg s x : 0 < s -> (0 <= x)%Q -> encodeQ s x = Qfloor (inject_Z s * x).
Proof.
  intros Hs Hx. destruct x as [n d]. unfold encodeQ, Qfloor, Qle, Qmult, inject_Z in *. cbn in *. rewrite Z.mul_1_r in Hx.
  rewrite Pos2Z.inj_mul || idtac. apply Z.quot_div_nonneg; nia.
Qed.

Lemma encode_opp s x : encodeQ s (- x)%Q = - encodeQ s x.
Proof. destruct x as [n d]. unfold encodeQ, Qopp; cbn [Qnum Qden]. replace (s * - n) with (- (s * n)) by ring. apply Z.quot_opp_l. lia. Qed.

Lemma encode_error_nonneg s x : 0 < s -> (0 <= x)%Q -> 0 <= encodeQ s x /\
  (0 <= x - (encodeQ s x # Z.to_pos s) /\ x - (encodeQ s x # Z.to_pos s) < 1 # Z.to_pos s)%Q.
Proof.
  intros Hs Hx. destruct x as [n d]. unfold encodeQ, Qle, Qlt, Qminus, Qplus, Qopp in *. cbn [Qnum Qden] in *.
  rewrite Z.mul_1_r in Hx. rewrite ?Pos2Z.inj_mul, ?Z2Pos.id by lia.
  assert (Hn : 0 <= s * n) by nia.
  pose proof (Z.quot_rem' (s * n) (Zpos d)) as Hq. pose proof (Z.rem_bound_pos (s * n) (Zpos d) Hn ltac:(lia)) as Hr.
  pose proof (Z.quot_pos (s * n) (Zpos d) Hn ltac:(lia)) as Hp.
  set (q := Z.quot (s * n) (Zpos d)) in *. set (r := Z.rem (s * n) (Zpos d)) in *.
  split; [assumption|]. split; nia.
Qed.

(** ** Encoder attributes *)
Definition enc_ok (e : enc) : Prop := 0 <= e_prec e /\ e_scale e = 2 ^ e_prec e.
Definition assign_ok (a : assign) : Prop :=
  match a with APrecision v => 0 <= v | AScale v => v <= 0 \/ exists p, 0 <= p /\ v = 2 ^ p end.

Lemma set_scale_pow2 p e : 0 <= p -> set_scale (2 ^ p) e = Some (mkEnc (2 ^ p) p).
Proof.
  intros Hp. unfold set_scale. assert (0 < 2 ^ p) by (apply Z.pow_pos_nonneg; lia).
  replace (0 <? 2 ^ p) with true by (symmetry; apply Z.ltb_lt; lia). now rewrite Z.log2_pow2.
Qed.

Lemma enc_new_ok p : 0 <= p -> enc_new p = Some (mkEnc (2 ^ p) p).
Proof.
  intros Hp. unfold enc_new, set_precision. cbn. replace (p <? 0) with false by (symmetry; apply Z.ltb_ge; lia). now apply set_scale_pow2.
Qed.

Lemma do_assign_ok e a : enc_ok e -> assign_ok a -> enc_ok (do_assign e a).
Proof.
  intros He Ha. destruct a as [v|v]; cbn in *.
  - unfold set_precision, enc_ok; cbn. replace (v <? 0) with false by (symmetry; apply Z.ltb_ge; lia). auto.
  - destruct Ha as [Hv|(p & Hp & ->)].
    + unfold set_scale. replace (0 <? v) with false by (symmetry; apply Z.ltb_ge; lia). assumption.
    + rewrite set_scale_pow2 by assumption. split; [assumption|reflexivity].
Qed.

Lemma assigns_ok l e : enc_ok e -> Forall assign_ok l -> enc_ok (fold_left do_assign l e).
Proof. intros He Hl. revert e He. induction Hl; intros e He; cbn; [assumption|]. apply IHHl. now apply do_assign_ok. Qed.

(** ** IgnoreEncodings *)
Lemma ig_exit_spec h0 refs : forall h, (forall r, enc_ok (h0 r)) ->
  forall r, ig_exit h refs (ig_cache h0 refs) r = if in_dec Nat.eq_dec r refs then h0 r else h r.
Proof.
  intros h Hok. unfold ig_exit, ig_cache. revert h.
  induction refs as [|a refs IH]; intros h r; [reflexivity|].
  cbn [map combine fold_left fst snd]. rewrite IH.
  destruct (Hok a) as [Hp Hs].
  assert (Hset : hset_scale h a (e_scale (h0 a)) = hset h a (h0 a)).
  { unfold hset_scale. rewrite Hs, set_scale_pow2 by assumption. destruct (h0 a); cbn in *; subst. reflexivity. }
  rewrite Hset. destruct (in_dec Nat.eq_dec r refs) as [Hin|Hnin]; destruct (in_dec Nat.eq_dec r (a :: refs)) as [Hin'|Hnin']; cbn in *; try tauto.
  - unfold hset. destruct (Nat.eqb r a) eqn:E; [now apply Nat.eqb_eq in E; subst|].
    apply Nat.eqb_neq in E. destruct Hin' as [->|]; [congruence|tauto].
  - unfold hset. destruct (Nat.eqb r a) eqn:E; [|reflexivity]. apply Nat.eqb_eq in E. subst. tauto.
Qed.

Lemma ig_enter_spec h refs : forall r, ig_enter h refs r = if in_dec Nat.eq_dec r refs then mkEnc 1 0 else h r.
Proof.
  unfold ig_enter. revert h. induction refs as [|a refs IH]; intros h r; [reflexivity|].
  cbn [fold_left]. rewrite IH.
  assert (Hset : hset_scale h a 1 = hset h a (mkEnc 1 0)) by reflexivity.
  rewrite Hset. destruct (in_dec Nat.eq_dec r refs) as [Hin|Hnin]; destruct (in_dec Nat.eq_dec r (a :: refs)) as [Hin'|Hnin']; cbn in *; try tauto.
  - unfold hset. destruct (Nat.eqb r a) eqn:E; [reflexivity|].
    apply Nat.eqb_neq in E. destruct Hin' as [->|]; [congruence|tauto].
  - unfold hset. destruct (Nat.eqb r a) eqn:E; [|reflexivity]. apply Nat.eqb_eq in E. subst. tauto.
Qed.

Lemma roundtrip_nonneg s x : 1 < s -> (0 <= x)%Q -> exists v, decode s (encodeQ s x) = Some v /\
  (0 <= x - v /\ x - v < 1 # Z.to_pos s)%Q.
Proof.
  intros Hs Hx. destruct (encode_error_nonneg s x) as (Hn & H1 & H2); [lia|assumption|].
  destruct (decode_nonneg s (encodeQ s x)) as (v & Hv & He); auto. exists v. split; [assumption|]. rewrite He. auto.
Qed.

Lemma roundtrip_neg s x : 1 < s -> (0 <= x)%Q ->
  (encodeQ s x) / s + (encodeQ s x) mod s <= s - 1 ->
  exists v, decode s (encodeQ s (- x)%Q) = Some v /\ (0 <= v - - x /\ v - - x < 1 # Z.to_pos s)%Q.
Proof.
  intros Hs Hx Hd. destruct (encode_error_nonneg s x) as (Hn & H1 & H2); [lia|assumption|].
  rewrite encode_opp. set (t := encodeQ s x) in *.
  pose proof (Z.div_mod t s ltac:(lia)) as Hdm. pose proof (Z.mod_pos_bound t s ltac:(lia)) as Hm.
  assert (Hq : 0 <= t / s) by (apply Z.div_pos; lia).
  destruct (Z.eq_dec t 0) as [Ez|Hnz].
  - rewrite Ez in *. cbn [Z.opp]. destruct (decode_nonneg s 0) as (v & Hv & He); [lia|lia|]. exists v. split; [assumption|].
    rewrite He. rewrite !Qmake_Qdiv in *. change (inject_Z 0) with 0%Q in *.
    unfold Qdiv in *. rewrite !Qmult_0_l in *. split; [lra|]. lra.
  - destruct (decode_neg s (t / s) (t mod s)) as (v & Hv & He); auto; try lia.
    replace (- (t / s * s + t mod s)) with (- t) in * by lia.
    assert (Hc : cdiv (t / s + t mod s) (s - 1) = 1) by (apply cdiv_one; nia).
    rewrite Hc in He. exists v. split; [assumption|]. rewrite He. rewrite !Qmake_Qdiv in *.
    rewrite inject_Z_opp. change (inject_Z (1 - 1)) with 0%Q. unfold Qdiv in *.
    setoid_replace (- inject_Z t * / inject_Z (Z.pos (Z.to_pos s)))%Q with (- (inject_Z t * / inject_Z (Z.pos (Z.to_pos s))))%Q by ring.
    split; lra.
Qed.

Lemma decode_large_negative s t : 1 < s -> t <= - (s * s) -> exists v, decode s t = Some v /\ (v <= (t # Z.to_pos s) - 1)%Q.
Proof.
  intros Hs Ht. pose proof (Z.div_mod (- t) s ltac:(lia)) as Hdm. pose proof (Z.mod_pos_bound (- t) s ltac:(lia)) as Hm.
  assert (Hq : s <= (- t) / s) by (apply Z.div_le_lower_bound; nia).
  destruct (decode_neg s ((- t) / s) ((- t) mod s)) as (v & Hv & He); try lia; try nia.
  replace (- (- t / s * s + - t mod s)) with t in * by lia. exists v. split; [assumption|]. rewrite He.
  assert (Hc : 2 <= cdiv (- t / s + - t mod s) (s - 1)).
  { unfold cdiv. pose proof (Z.div_mod (- (- t / s + - t mod s)) (s - 1) ltac:(lia)).
    pose proof (Z.mod_pos_bound (- (- t / s + - t mod s)) (s - 1) ltac:(lia)). nia. }
  generalize dependent (cdiv (- t / s + - t mod s) (s - 1)). intros c _ Hc.
  assert (inject_Z 1 <= inject_Z (c - 1))%Q by (rewrite <- Zle_Qle; lia). change (inject_Z 1) with 1%Q in *. lra.
Qed.

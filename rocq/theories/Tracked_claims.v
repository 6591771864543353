(** Proofs of C96: what operations compute when an argument requires a gradient. *)
Require Import ZArith QArith Qabs Qpower List Lia Lqa Bool.
From Verif Require Import Ring64 Encoder Arith Arith_proofs Beaver Trunc Trunc_proofs Provider Binary Binary_proofs Convert_proofs Compare Compare_proofs Compare_claims Maximum Maximum_proofs Maximum_claims Regular Regular_proofs Regular_num_proofs Regular_claims Tracked.
Import ListNotations.
Local Open Scope Z_scope.

(** A bound given as a Python number, encoded at scale [s]; its integer part. *)
Definition bound (s : Z) (y : arg) : Z := match y with AInt k => k * s | AFloat q => encodeQ s q | AEnc _ => 0 end.
Definition part (y : arg) : Z := match y with AInt k => k | AFloat q => Z.quot (Qnum q) (Zpos (Qden q)) | AEnc _ => 0 end.
Definition plain (y : arg) : Prop := match y with AEnc _ => False | _ => True end.

(** ** Lemmas *)
Lemma encode_one q : encodeQ 1 q = Z.quot (Qnum q) (Zpos (Qden q)).
Proof. unfold encodeQ. now rewrite Z.mul_1_l. Qed.
Lemma bound_integral s y a : plain y -> (number y == inject_Z a)%Q -> part y = a /\ bound s y = a * s.
Proof.
  intros P E. destruct y as [k|q|]; [| |contradiction]; cbn [number part bound] in *.
  - unfold Qeq in E. cbn in E. rewrite !Z.mul_1_r in E. now subst.
  - unfold Qeq in E. cbn [Qnum Qden inject_Z] in E. rewrite Z.mul_1_r in E. rewrite E. rewrite Z.quot_mul by lia. split; [reflexivity|].
    unfold encodeQ. rewrite E, Z.mul_assoc, Z.quot_mul by lia. ring.
Qed.

Section L.
  Variable n : nat.
  Hypothesis Hn : (0 < n)%nat.
  Variable pr : provider.
  Hypothesis HV : valid n pr.
  Variable D : Z.

  Lemma add_up v w s x y : 0 < s -> nshare n v s x -> nshare n w 1 y -> nshare n (v + w * s) s (add_num x (AEnc y)).
  Proof.
    intros Hs Hx Hy. destruct (Z.eq_dec s 1) as [->|Hs1]; [rewrite Z.mul_1_r; now apply add_enc_ok|]. destruct Hx as [Hx Sx]. cbn [add_num]. rewrite Sx, (proj2 Hy).
    replace (1 <? s) with true by (symmetry; apply Z.ltb_lt; lia). split; [|reflexivity]. cbn [n_sh]. apply add_priv_ok; [exact Hx|]. pose proof (upscale_ok n w 1 s y Hy) as U. rewrite Z.div_1_r in U. apply U.
  Qed.
  (** x > 0 for a number of any scale for which comparisons work *)
  Lemma gt0_ok v s x y : 0 < s -> ratio D s = 1 -> - H63 < v < H63 -> nshare n v s x -> plain y -> aval y s = 0 -> yields (n_gt (pr := pr) D x y) (nshare n (if 0 <? v then 1 else 0) 1).
  Proof.
    intros Hs R I Hx P Y. unfold n_gt. assert (P' : public y) by (destruct y; assumption). pose proof (add_public n Hn _ _ _ y P' (neg_num_ok n _ _ _ Hx)) as H. rewrite Y, Z.add_0_r in H.
    apply (ltz_ok n Hn pr HV D) in H. rewrite R, Z.mul_1_r, wrap_id in H by (unfold in64; lia). eapply yields_weaken; [exact H|]. intros r. apply nshare_eqm, eqm_refl_eq.
    destruct (Z.ltb_spec (- v) 0), (Z.ltb_spec 0 v); lia.
  Qed.
  Lemma scalar_ok c b y : nshare n c 1 b -> plain y -> yields (mul_scalar (pr := pr) b y) (nshare n (c * part y) 1).
  Proof.
    intros H P. destruct y as [k|q|]; [| |contradiction]; cbn [mul_scalar part].
    - apply yields_ret. now apply muli_num_ok.
    - unfold mulf_num. rewrite (proj2 H). change (mul_pub_rescale 1) with (@None Z, 1). apply yields_ret. split; [|reflexivity]. cbn [n_sh]. rewrite encode_one.
      eapply ashare_eqm; [apply mul_int_ok, H|]. apply eqm_refl_eq. ring.
  Qed.
  Lemma encode_0 s : encodeQ s 0 = 0.
  Proof. unfold encodeQ. cbn [Qnum Qden]. rewrite Z.mul_0_r. reflexivity. Qed.

  Lemma relu_tracked_ok v s x : 0 < s -> ratio D s = 1 -> - H63 < v < H63 -> nshare n v s x -> yields (relu_tracked (pr := pr) D x) (nshare n (Z.max v 0) s).
  Proof.
    intros Hs R I Hx. unfold relu_tracked. eapply yields_bind; [exact (gt0_ok v s x (AFloat 0%Q) Hs R I Hx Logic.I (encode_0 s))|]. intros m Hm.
    eapply yields_weaken; [eapply (mul_num_r1 n Hn pr HV); eassumption|]. intros r. apply nshare_eqm, eqm_refl_eq. destruct (Z.ltb_spec 0 v); lia.
  Qed.
  Lemma relu_tracked_corner s x : 0 < s -> ratio D s = 1 -> nshare n (- H63) s x -> yields (relu_tracked (pr := pr) D x) (nshare n (- H63) s).
  Proof.
    intros Hs R Hx. unfold relu_tracked. apply (yields_bind _ _ (nshare n 1 1)).
    - unfold n_gt. pose proof (add_public n Hn _ _ _ (AFloat 0%Q) Logic.I (neg_num_ok n _ _ _ Hx)) as H. cbn [aval] in H. rewrite encode_0, Z.add_0_r in H. apply (ltz_ok n Hn pr HV D) in H. rewrite R in H.
      replace (wrap (- - H63)) with (- H63) in H by reflexivity. exact H.
    - intros m Hm. eapply yields_weaken; [eapply (mul_num_r1 n Hn pr HV); eassumption|]. intros r. apply nshare_eqm, eqm_refl_eq. ring.
  Qed.

  (** the two indicators and what is computed from them *)
  Lemma tail_ok va vb v s above below x : 0 < s -> nshare n va 1 above -> nshare n vb 1 below -> nshare n v s x ->
    yields (mul_num (pr := pr) (sub_num (add_num above (AEnc below)) (AInt 1)) x) (nshare n ((va + vb - 1) * v) s).
  Proof.
    intros Hs Ha Hb Hx. eapply (mul_num_l1 n Hn pr HV); [exact Hs| |exact Hx]. pose proof (sub_int_ok n Hn _ _ 1 _ (add_enc_ok n _ _ _ _ _ Ha Hb)) as H. exact H.
  Qed.
  Lemma hardtanh_tracked_ok v s x lo hi : 0 < s -> ratio D s = 1 -> nshare n v s x -> plain lo -> plain hi -> ~ (number lo == number hi)%Q ->
    - H63 < v - bound s lo < H63 -> - H63 < bound s hi - v < H63 ->
    let a := if bound s lo <? v then 1 else 0 in let b := if v <? bound s hi then 1 else 0 in
    yields (hardtanh_tracked (pr := pr) D x lo hi) (nshare n ((a + b - 1) * v + (1 - a) * (part lo * s) + (1 - b) * (part hi * s)) s).
  Proof.
    intros Hs R Hx Plo Phi Ne I1 I2 a b. unfold hardtanh_tracked. replace (Qeq_bool (number lo) (number hi)) with false by (symmetry; apply not_true_iff_false; rewrite Qeq_bool_iff; exact Ne).
    assert (Plo' : public lo) by (destruct lo; assumption). assert (Phi' : public hi) by (destruct hi; assumption).
    assert (Elo : aval lo s = bound s lo) by (destruct lo; [reflexivity|reflexivity|contradiction]). assert (Ehi : aval hi s = bound s hi) by (destruct hi; [reflexivity|reflexivity|contradiction]).
    pose proof (sub_public n Hn _ _ _ lo Plo' Hx) as H1. rewrite Elo in H1. pose proof (add_public n Hn _ _ _ hi Phi' (neg_num_ok n _ _ _ Hx)) as H2. rewrite Ehi in H2.
    apply (yields_bind _ _ (nshare n a 1)).
    { eapply yields_weaken; [exact (gt0_ok _ s _ (AInt 0) Hs R I1 H1 Logic.I eq_refl)|]. intros r. apply nshare_eqm, eqm_refl_eq. unfold a. destruct (Z.ltb_spec 0 (v - bound s lo)), (Z.ltb_spec (bound s lo) v); lia. }
    intros above Ha. apply (yields_bind _ _ (nshare n b 1)).
    { assert (I2' : - H63 < - v + bound s hi < H63) by lia. eapply yields_weaken; [exact (gt0_ok _ s _ (AInt 0) Hs R I2' H2 Logic.I eq_refl)|]. intros r. apply nshare_eqm, eqm_refl_eq. unfold b. destruct (Z.ltb_spec 0 (- v + bound s hi)), (Z.ltb_spec v (bound s hi)); lia. }
    intros below Hb. cbv zeta. eapply yields_bind; [exact (tail_ok a b v s above below x Hs Ha Hb Hx)|]. intros res Hr.
    eapply yields_bind; [exact (scalar_ok (1 - a) _ lo (one_minus_ok n Hn _ _ _ Ha) Plo)|]. intros l Hl. eapply yields_bind; [exact (scalar_ok (1 - b) _ hi (one_minus_ok n Hn _ _ _ Hb) Phi)|]. intros h Hh.
    apply yields_ret. eapply nshare_eqm; [|exact (add_up _ _ s _ _ Hs (add_up _ _ s _ _ Hs Hr Hl) Hh)]. apply eqm_refl_eq. ring.
  Qed.
  Lemma relu6_tracked_ok v s x : 0 < s -> ratio D s = 1 -> nshare n v s x -> - H63 < v < H63 -> - H63 < 6 * s - v < H63 ->
    yields (relu6_tracked (pr := pr) D x) (nshare n (Z.min (Z.max v 0) (6 * s)) s).
  Proof.
    intros Hs R Hx I1 I2. unfold relu6_tracked. set (a := if 0 <? v then 1 else 0). set (b := if v <? 6 * s then 1 else 0).
    eapply yields_bind; [exact (gt0_ok v s x (AInt 0) Hs R I1 Hx Logic.I eq_refl)|]. fold a. intros above Ha.
    pose proof (add_public n Hn _ _ _ (AInt 6) Logic.I (neg_num_ok n _ _ _ Hx)) as H2. cbn [aval] in H2.
    apply (yields_bind _ _ (nshare n b 1)).
    { assert (I2' : - H63 < - v + 6 * s < H63) by lia. eapply yields_weaken; [exact (gt0_ok _ s _ (AInt 0) Hs R I2' H2 Logic.I eq_refl)|]. intros r. apply nshare_eqm, eqm_refl_eq. unfold b. destruct (Z.ltb_spec 0 (- v + 6 * s)), (Z.ltb_spec v (6 * s)); lia. }
    intros below Hb. cbv zeta. eapply yields_bind; [exact (tail_ok a b v s above below x Hs Ha Hb Hx)|]. intros res Hr.
    eapply yields_bind; [exact (scalar_ok (1 - b) _ (AInt 6) (one_minus_ok n Hn _ _ _ Hb) Logic.I)|]. intros h Hh. apply yields_ret.
    eapply nshare_eqm; [|exact (add_up _ _ s _ _ Hs Hr Hh)]. apply eqm_refl_eq. cbn [part]. unfold a, b. destruct (Z.ltb_spec 0 v), (Z.ltb_spec v (6 * s)); lia.
  Qed.

  Lemma mul_tracked_1 v s k x : n = 1%nat -> 1 < s -> s < H63 -> nshare n v s x -> in64 (v * k) ->
    yo true (mul_int_tracked (pr := pr) no_check x k) (fun z => n_sc z = s /\ (open_a (n_sh z) = v * k <-> in64 (v * k * s))).
  Proof.
    intros H1 Hs Hs2 [Hx Sx] I. unfold mul_int_tracked, mulpv, mul_pub_rescale. rewrite Sx. replace (1 <? s) with true by (symmetry; apply Z.ltb_lt; lia).
    unfold divv. cbn [n_sh n_sc]. destruct Hx as (L & F & E). rewrite H1 in L. destruct (n_sh x) as [|a [|? ?]]; try discriminate L. unfold divi_num. cbn [mul_int map length]. cbn [Nat.leb].
    intros st. unfold bind, ret, no_check, okr. cbn [fst res]. split; [reflexivity|]. cbn [n_sh n_sc].
    set (raw := wmul a (encodeZ s k)). assert (Eraw : raw = wrap (v * k * s)).
    { unfold raw, encodeZ. apply eqm_wrap_eq. rewrite wmul_eqm. cbn [zsum fold_right] in E. rewrite Z.add_0_r in E. rewrite E. apply eqm_refl_eq. ring. }
    rewrite div_local_one; [|lia|rewrite Eraw; apply wrap_in64]. rewrite Eraw. split; intros H.
    - destruct (Z.eq_dec (wrap (v * k * s)) (v * k * s)) as [Ew|Ew]; [rewrite <- Ew; apply wrap_in64|exfalso].
      pose proof (wrap_in64 (v * k * s)) as W. set (w := wrap (v * k * s)) in *. assert (Z.abs (w - v * k * s) < s). { pose proof (Z.quot_rem' w s). pose proof (Z.rem_bound_abs w s ltac:(lia)). rewrite H in *. nia. }
      assert (eqm w (v * k * s)) by apply wrap_eqm. destruct (proj1 (eqm_iff _ _) H2) as [q Hq]. unfold H63, M64 in *. destruct (Z.eq_dec q 0); [subst; lia|]. nia.
    - rewrite wrap_id by exact H. apply Z.quot_mul. lia.
  Qed.
End L.

(** the exponents: pow_exp does not depend on the fuel, and doubles or triples *)
Lemma pow_exp_fuel f g p : 0 <= p < Z.of_nat f -> 0 <= p < Z.of_nat g -> pow_exp f p = pow_exp g p.
Proof.
  revert g p. induction f as [|f IH]; intros g p Hf Hg; [lia|]. destruct g as [|g]; [lia|]. cbn [pow_exp].
  destruct (Z.eqb_spec p 0); [reflexivity|]. destruct (Z.eqb_spec p 1); [reflexivity|]. destruct (Z.eqb_spec p 2); [reflexivity|].
  pose proof (Z.div_mod p 2 ltac:(lia)). pose proof (Z.mod_pos_bound p 2 ltac:(lia)). pose proof (Z.div_mod (p - 1) 2 ltac:(lia)). pose proof (Z.mod_pos_bound (p - 1) 2 ltac:(lia)).
  destruct (p mod 2 =? 0); (rewrite (IH g); [reflexivity|lia|lia]).
Qed.
Definition texp (p : Z) : Z := pow_exp (Z.to_nat (p + 1)) p.
Lemma texp_even m : 1 <= m -> texp (2 * m) = 2 * texp m.
Proof.
  intros Hm. unfold texp. destruct (Z.to_nat (2 * m + 1)) as [|f] eqn:Ef; [lia|]. cbn [pow_exp].
  replace (2 * m =? 0) with false by (symmetry; apply Z.eqb_neq; lia). replace (2 * m =? 1) with false by (symmetry; apply Z.eqb_neq; lia). destruct (Z.eqb_spec (2 * m) 2).
  - replace m with 1 by lia. reflexivity.
  - replace ((2 * m) mod 2) with 0 by (symmetry; rewrite Z.mul_comm; apply Z.mod_mul; lia). cbn [Z.eqb]. replace (2 * m) with (m * 2) by ring. rewrite Z.div_mul by lia. f_equal. apply pow_exp_fuel; lia.
Qed.
Lemma texp_odd m : 1 <= m -> texp (2 * m + 1) = 3 * texp m.
Proof.
  intros Hm. unfold texp. destruct (Z.to_nat (2 * m + 1 + 1)) as [|f] eqn:Ef; [lia|]. cbn [pow_exp].
  replace (2 * m + 1 =? 0) with false by (symmetry; apply Z.eqb_neq; lia). replace (2 * m + 1 =? 1) with false by (symmetry; apply Z.eqb_neq; lia). replace (2 * m + 1 =? 2) with false by (symmetry; apply Z.eqb_neq; lia).
  replace ((2 * m + 1) mod 2) with 1 by (rewrite Z.add_comm, Z.mul_comm, Z.mod_add by lia; reflexivity). cbn [Z.eqb]. replace (2 * m + 1 - 1) with (m * 2) by ring. rewrite Z.div_mul by lia. f_equal. apply pow_exp_fuel; lia.
Qed.
Lemma texp_ge p : 1 <= p -> p <= texp p. Proof. intros H. unfold texp. apply pow_exp_spec. lia. Qed.
Lemma parity p : 1 <= p -> p = 1 \/ (exists m, 1 <= m < p /\ p = 2 * m) \/ exists m, 1 <= m < p /\ p = 2 * m + 1.
Proof.
  intros H. pose proof (Z.div_mod p 2 ltac:(lia)). pose proof (Z.mod_pos_bound p 2 ltac:(lia)). assert (C : p mod 2 = 0 \/ p mod 2 = 1) by lia.
  destruct (Z.eq_dec p 1); [auto|right]. destruct C; [left|right]; exists (p / 2); lia.
Qed.
(** texp (p + 1) <= 2 * texp p; 1 only at 1 *)
Lemma texp_step p : 1 <= p -> texp (p + 1) <= 2 * texp p.
Proof.
  intros H. assert (H0 : 0 <= p) by lia. revert H. pattern p. apply Z_lt_induction; [|exact H0]. clear p H0. intros p IH H.
  destruct (parity p H) as [->|[(m & Hm & ->)|(m & Hm & ->)]]; [vm_compute; discriminate| |].
  - rewrite texp_odd, texp_even by lia. pose proof (texp_ge m). lia.
  - replace (2 * m + 1 + 1) with (2 * (m + 1)) by ring. rewrite texp_even, texp_odd by lia. specialize (IH m ltac:(lia) ltac:(lia)). pose proof (texp_ge m). lia.
Qed.
Lemma texp_eq p : 2 <= p -> (texp (p - 1) + 1 = texp p <-> p <= 4).
Proof.
  intros H. split; [|intros H'; assert (C : p = 2 \/ p = 3 \/ p = 4) by lia; destruct C as [->|[->| ->]]; reflexivity].
  intros E. destruct (parity p ltac:(lia)) as [->|[(m & Hm & ->)|(m & Hm & ->)]]; [lia| |].
  - destruct (parity m ltac:(lia)) as [->|[(j & Hj & ->)|(j & Hj & ->)]]; [lia| |].
    + destruct (Z.eq_dec j 1) as [->|Hj1]; [lia|]. replace (2 * (2 * j) - 1) with (2 * (2 * (j - 1) + 1) + 1) in E by ring. rewrite texp_odd, texp_odd, texp_even, texp_even in E by lia.
      pose proof (texp_step (j - 1) ltac:(lia)) as S. replace (j - 1 + 1) with j in S by ring. pose proof (texp_ge (j - 1)). lia.
    + replace (2 * (2 * j + 1) - 1) with (2 * (2 * j) + 1) in E by ring. rewrite texp_odd, !texp_even, texp_odd in E by lia. lia.
  - replace (2 * m + 1 - 1) with (2 * m) in E by ring. rewrite texp_odd, texp_even in E by lia. pose proof (texp_ge m). lia.
Qed.

(** ** Claims *)
Section Claims.
  Variables (n : nat) (pr : provider) (D : Z).
  Hypothesis Hn : (0 < n)%nat.
  Hypothesis HV : valid n pr.
  Hypothesis HD : 0 < D < H63.

  Lemma ratio_of s : s = 1 \/ s = D -> 0 < s /\ ratio D s = 1.
  Proof using Hn HD. intros [->| ->]; split; try lia; [reflexivity|]. apply (ratio_D n); [exact Hn|lia]. Qed.
  Lemma opens v s x : in64 v -> nshare n v s x -> open_a (n_sh x) = v /\ n_sc x = s.
  Proof. intros I [H S]. split; [|exact S]. rewrite (ashare_open _ _ _ H). now apply wrap_id. Qed.

  (** C96: relu of a tensor that requires a gradient is max(x, 0), as without one, except for the least 64-bit integer, which it leaves as it is. *)
  Lemma k_C96_relu : forall x st, sharing n x -> n_sc x = 1 \/ n_sc x = D ->
    let v := open_a (n_sh x) in let r := fst (relu_tracked (pr := pr) D x st) in
    n_sc r = n_sc x /\ (- H63 < v -> open_a (n_sh r) = Z.max v 0) /\ (v = - H63 -> open_a (n_sh r) = v).
  Proof using Hn HV HD.
    intros x st Hx Hs v r. destruct (ratio_of _ Hs) as [S0 R]. pose proof (nshare_of n x Hx) as Hv. fold v in Hv. pose proof (open_a_in64 (n_sh x)) as I. fold v in I. destruct (Z.eq_dec v (- H63)) as [E|E].
    - rewrite E in Hv. pose proof (relu_tracked_corner n Hn pr HV D _ x S0 R Hv st) as H. fold r in H. destruct (opens (- H63) _ r ltac:(unfold in64; lia) H) as [A B]. split; [exact B|]. split; [lia|]. intros _. congruence.
    - assert (I' : - H63 < v < H63) by (unfold in64 in I; lia). pose proof (relu_tracked_ok n Hn pr HV D v _ x S0 R I' Hv st) as H. fold r in H. destruct (opens (Z.max v 0) _ r ltac:(unfold in64; lia) H) as [A B].
      split; [exact B|]. split; [intros _; exact A|lia].
  Qed.

  (** C96: hardtanh of a tensor that requires a gradient keeps the numbers inside the interval and gives the integer part of a bound, cut off towards zero, outside. *)
  Lemma k_C96_hardtanh : forall x lo hi st, sharing n x -> n_sc x = 1 \/ n_sc x = D -> plain lo -> plain hi -> ~ (number lo == number hi)%Q ->
    let s := n_sc x in let v := open_a (n_sh x) in bound s lo < bound s hi -> - H63 < v - bound s lo < H63 -> - H63 < bound s hi - v < H63 ->
    let r := fst (hardtanh_tracked (pr := pr) D x lo hi st) in
    n_sc r = s /\ open_a (n_sh r) = if v <=? bound s lo then wrap (part lo * s) else if bound s hi <=? v then wrap (part hi * s) else v.
  Proof using Hn HV HD.
    intros x lo hi st Hx Hs Plo Phi Ne s v Hb I1 I2 r. destruct (ratio_of _ Hs) as [S0 R]. pose proof (nshare_of n x Hx) as Hv. fold v s in Hv. pose proof (open_a_in64 (n_sh x)) as I. fold v in I.
    pose proof (hardtanh_tracked_ok n Hn pr HV D v s x lo hi S0 R Hv Plo Phi Ne I1 I2 st) as H. cbv zeta in H. fold r in H. destruct H as [Ha Hs']. split; [exact Hs'|]. rewrite (ashare_open _ _ _ Ha).
    destruct (Z.leb_spec v (bound s lo)), (Z.leb_spec (bound s hi) v), (Z.ltb_spec (bound s lo) v), (Z.ltb_spec v (bound s hi)); try lia.
    - f_equal. ring.
    - f_equal. ring.
    - rewrite <- (wrap_id v I) at 2. f_equal. ring.
  Qed.
  (** C96: with integral bounds this is the clamp that hardtanh computes without a gradient. *)
  Lemma k_C96_hardtanh_integral : forall x lo hi a b st st', sharing n x -> n_sc x = 1 \/ n_sc x = D -> plain lo -> plain hi -> (number lo == inject_Z a)%Q -> (number hi == inject_Z b)%Q -> a < b ->
    let s := n_sc x in let v := open_a (n_sh x) in in64 (a * s) -> in64 (b * s) -> - H63 < v - a * s < H63 -> - H63 < b * s - v < H63 ->
    let r := fst (hardtanh_tracked (pr := pr) D x lo hi st) in let r' := fst (hardtanh (pr := pr) D x lo hi st') in
    n_sc r = s /\ n_sc r' = s /\ open_a (n_sh r) = Z.min (Z.max v (a * s)) (b * s) /\ open_a (n_sh r') = Z.min (Z.max v (a * s)) (b * s).
  Proof using Hn HV HD.
    intros x lo hi a b st st' Hx Hs Plo Phi Ea Eb Hab s v Ia Ib I1 I2 r r'. destruct (ratio_of _ Hs) as [S0 R]. fold s in S0.
    destruct (bound_integral s lo a Plo Ea) as [Pa Ba]. destruct (bound_integral s hi b Phi Eb) as [Pb Bb]. assert (Hab' : a * s < b * s) by nia.
    assert (Ne : ~ (number lo == number hi)%Q). { rewrite Ea, Eb. unfold Qeq. cbn. lia. }
    pose proof (k_C96_hardtanh x lo hi st Hx Hs Plo Phi Ne) as H. cbv zeta in H. fold s v r in H. rewrite Ba, Bb, Pa, Pb in H. destruct (H Hab' I1 I2) as [H1 H2]. split; [exact H1|].
    assert (PP : match lo, hi with AEnc _, _ | _, AEnc _ => False | _, _ => True end) by (destruct lo, hi; tauto).
    pose proof (k_C30_hardtanh n pr D Hn HV (proj1 HD) x lo hi st' Hx Hs PP) as HH. cbv beta zeta in HH. fold s v r' in HH. fold (bound s lo) (bound s hi) in HH. rewrite Ba, Bb in HH.
    destruct (HH Ia Ib ltac:(unfold in64; lia) ltac:(unfold in64; lia) ltac:(lia)) as [E1 E2]. split; [exact E2|]. split; [|exact E1]. rewrite H2.
    destruct (Z.leb_spec v (a * s)), (Z.leb_spec (b * s) v); rewrite ?wrap_id by assumption; lia.
  Qed.
  (** C96: with an upper bound that has a fraction the two disagree on every number that is too large. *)
  Lemma k_C96_hardtanh_refuted : forall x lo hi st st', sharing n x -> n_sc x = 1 \/ n_sc x = D -> plain lo -> plain hi -> ~ (number lo == number hi)%Q ->
    let s := n_sc x in let v := open_a (n_sh x) in in64 (bound s lo) -> in64 (bound s hi) -> bound s lo < bound s hi -> - H63 < v - bound s lo < H63 -> - H63 < bound s hi - v < H63 ->
    bound s hi <= v -> in64 (part hi * s) -> part hi * s <> bound s hi ->
    open_a (n_sh (fst (hardtanh_tracked (pr := pr) D x lo hi st))) <> open_a (n_sh (fst (hardtanh (pr := pr) D x lo hi st'))).
  Proof using Hn HV HD.
    intros x lo hi st st' Hx Hs Plo Phi Ne s v Ilo Ihi Hb I1 I2 Hv Ip Np. destruct (k_C96_hardtanh x lo hi st Hx Hs Plo Phi Ne Hb I1 I2) as [_ E]. fold s v in E.
    assert (PP : match lo, hi with AEnc _, _ | _, AEnc _ => False | _, _ => True end) by (destruct lo, hi; tauto).
    pose proof (k_C30_hardtanh n pr D Hn HV (proj1 HD) x lo hi st' Hx Hs PP) as HH. cbv beta zeta in HH. fold s v in HH. fold (bound s lo) (bound s hi) in HH.
    destruct (HH Ilo Ihi ltac:(unfold in64; lia) ltac:(unfold in64; lia) ltac:(lia)) as [E1 _]. rewrite E, E1. clear E E1 HH.
    replace (v <=? bound s lo) with false by (symmetry; apply Z.leb_gt; lia). replace (bound s hi <=? v) with true by (symmetry; apply Z.leb_le; lia). rewrite wrap_id by exact Ip. lia.
  Qed.
  (** C96: with equal bounds it is the bound, at the default scale. *)
  Lemma k_C96_hardtanh_equal : forall x lo hi st, plain lo -> (number lo == number hi)%Q ->
    let r := fst (hardtanh_tracked (pr := pr) D x lo hi st) in n_sc r = D /\ open_a (n_sh r) = wrap (bound D lo).
  Proof using Hn HV HD.
    intros x lo hi st P E r. assert (H : nshare n (bound D lo) D r); [|destruct H as [Ha Hs]; split; [exact Hs|apply (ashare_open _ _ _ Ha)]]. unfold r, hardtanh_tracked. rewrite (proj2 (Qeq_bool_iff _ _) E).
    assert (Y : yields (z <- next_zero pr ;; ret (add_num (mkNum z D) lo)) (nshare n (bound D lo) D)); [|apply Y].
    apply (yields_bind _ _ (fun z => length z = n /\ Forall in64 z /\ open_a z = 0)); [exact (v_zero n pr HV)|]. intros z Hz. apply yields_ret. assert (P' : public lo) by (destruct lo; assumption). replace (bound D lo) with (0 + aval lo D) by (destruct lo; [reflexivity|reflexivity|contradiction]).
    apply add_public; [exact Hn|exact P'|]. split; [|reflexivity]. destruct Hz as (L & F & EO). split; [exact L|]. split; [exact F|]. rewrite open_a_eq in EO. cbn [n_sh]. rewrite <- (wrap_eqm (zsum z)), EO. reflexivity.
  Qed.
  (** C96: relu6 is the clamp to the interval from 0 to 6. *)
  Lemma k_C96_relu6 : forall x st, sharing n x -> n_sc x = 1 \/ n_sc x = D -> let s := n_sc x in let v := open_a (n_sh x) in - H63 < v -> - H63 < 6 * s - v < H63 -> in64 (6 * s) ->
    let r := fst (relu6_tracked (pr := pr) D x st) in n_sc r = s /\ open_a (n_sh r) = Z.min (Z.max v 0) (6 * s).
  Proof using Hn HV HD.
    intros x st Hx Hs s v I1 I2 I6 r. destruct (ratio_of _ Hs) as [S0 R]. fold s in S0, R. pose proof (nshare_of n x Hx) as Hv. fold v s in Hv. pose proof (open_a_in64 (n_sh x)) as I. fold v in I. unfold in64 in I.
    pose proof (relu6_tracked_ok n Hn pr HV D v s x S0 R Hv ltac:(lia) I2 st) as H. fold r in H. destruct (opens (Z.min (Z.max v 0) (6 * s)) s r ltac:(unfold in64 in *; lia) H) as [A B]. now split.
  Qed.

  (** C96: multiplying by a Python int is no longer exact: it is a fixed-point multiplication, accurate when the truncations are ... *)
  Lemma k_C96_mul_int : forall s E x k st z, 1 <= E -> 4 * E <= s -> sharing n x -> n_sc x = s -> in64 (open_a (n_sh x) * (s * k)) ->
    fst (mul_int_tracked (pr := pr) (within E) x k st) = Some z ->
    fst (mul_int_tracked (pr := pr) no_check x k st) = Some z /\ n_sc z = s /\ exists v, open_a (n_sh z) = wrap v /\ Z.abs (v - open_a (n_sh x) * k) < E.
  Proof using Hn HV.
    intros s E x k st z HE Hs Hx Sx I Hz. split; [eapply weaker_fst; [apply mulpv_weak|exact Hz]|]. pose proof (sharing_nshare n s x Hx Sx) as Hv.
    assert (HF : false = true -> n = 1%nat) by discriminate. unfold mul_int_tracked, encodeZ in Hz. rewrite Sx in Hz. destruct (yo_some false _ _ st z (mulpv_acc n Hn pr HV s E false HE Hs HF _ x (s * k) Hv I) Hz) as (r & [Hr Sr] & B).
    split; [exact Sr|]. exists r. split; [exact (ashare_open _ _ _ Hr)|]. nia.
  Qed.
  (** C96: ... and with a single party it gives the product exactly when the product encoded twice still fits, while without a gradient it is enough that the product fits. *)
  Lemma k_C96_mul_int_one : forall s x k st, n = 1%nat -> 1 < s -> s < H63 -> sharing n x -> n_sc x = s -> in64 (open_a (n_sh x) * k) ->
    (exists z, fst (mul_int_tracked (pr := pr) no_check x k st) = Some z /\ n_sc z = s /\ (open_a (n_sh z) = open_a (n_sh x) * k <-> in64 (open_a (n_sh x) * k * s))) /\
    open_a (n_sh (muli_num k x)) = open_a (n_sh x) * k.
  Proof using Hn HV.
    intros s x k st H1 Hs Hs2 Hx Sx I. pose proof (sharing_nshare n s x Hx Sx) as Hv. split.
    - destruct (yo_true _ _ st (mul_tracked_1 n Hn pr HV _ s k x H1 Hs Hs2 Hv I)) as (z & Ez & Hz). exists z. now split.
    - destruct (muli_num_ok n k _ _ _ Hv) as [Ha _]. rewrite (ashare_open _ _ _ Ha). now apply wrap_id.
  Qed.
  (** C96: with two parties even multiplying an encryption of 0 by 1 may give something else: here -2^48 units. *)
  Lemma k_C96_mul_int_refuted : n = 2%nat -> exists x, sharing n x /\ n_sc x = 65536 /\ open_a (n_sh x) = 0 /\ open_a (n_sh (muli_num 1 x)) = 0 /\
    forall st, exists z, fst (mul_int_tracked (pr := pr) no_check x 1 st) = Some z /\ open_a (n_sh z) = - 2 ^ 48.
  Proof using Hn HV.
    intros ->. exists (mkNum [2 ^ 47; - 2 ^ 47] 65536). split; [split; [reflexivity|split; [repeat apply Forall_cons; try apply Forall_nil; unfold in64, H63; cbn; lia|reflexivity]]|]. split; [reflexivity|]. split; [reflexivity|]. split; [reflexivity|].
    intros st. eexists. split; [reflexivity|]. reflexivity.
  Qed.

  (** C96: pow with an integer power of at least 2 computes x^q where q >= p, and q = p just when p - 1 is of the form 2^k or 3 * 2^k. *)
  Lemma k_C96_pow : forall p, 2 <= p -> exists q, p <= q /\ (q = p <-> exists k, 0 <= k /\ (p - 1 = 2 ^ k \/ p - 1 = 3 * 2 ^ k)) /\
    (forall x st, sharing n x -> n_sc x = 1 -> exists z, fst (pow_tracked (pr := pr) D no_check x p st) = Some z /\ open_a (n_sh z) = wrap (open_a (n_sh x) ^ q) /\ n_sc z = 1) /\
    (forall s E x st z, 1 <= E -> 4 * E <= s -> s <= 2 ^ 31 -> sharing n x -> n_sc x = s -> (Qabs (qval x) <= 1 - ulps (2 * E) s)%Q ->
      fst (pow_tracked (pr := pr) D (within E) x p st) = Some z ->
      fst (pow_tracked (pr := pr) D no_check x p st) = Some z /\ n_sc z = s /\ (Qabs (qval z - qval x ^ q) <= ulps ((q - 1) * E) s)%Q) /\
    (forall s x st, n = 1%nat -> 4 <= s -> s <= 2 ^ 31 -> sharing n x -> n_sc x = s -> (Qabs (qval x) <= 1 - ulps 2 s)%Q ->
      exists z, fst (pow_tracked (pr := pr) D no_check x p st) = Some z /\ n_sc z = s /\ (Qabs (qval z - qval x ^ q) <= ulps (q - 1) s)%Q).
  Proof using Hn HV HD.
    intros p Hp. set (f := Z.to_nat (p - 1 + 1)). assert (Hf : 1 <= p - 1 < Z.of_nat f) by (unfold f; lia). destruct (pow_exp_spec f (p - 1) Hf) as [Q1 Q2]. exists (pow_exp f (p - 1) + 1).
    split; [lia|]. split; [rewrite <- (Q2 : _ <-> exists k, _); lia|].
    assert (FX : forall s E T x, 1 <= E -> 4 * E <= s -> s <= 2 ^ 31 -> sharing n x -> n_sc x = s -> (Qabs (qval x) <= 1 - ulps (2 * E) s)%Q -> (T = true -> n = 1%nat) ->
      yo T (pow_tracked (pr := pr) D (within E) x p) (fun z => n_sc z = s /\ (Qabs (qval z - qval x ^ (pow_exp f (p - 1) + 1)) <= ulps ((pow_exp f (p - 1) + 1 - 1) * E) s)%Q)).
    { intros s E T x HE Hs Hs2 Hx Sx Bx HT. assert (S0 : 0 < s) by lia. pose proof (small_abs x s E S0 Sx Bx) as Ba. pose proof (sharing_nshare n s x Hx Sx) as Hv. pose proof (approx_1 n Hn s E T HE HT _ x Hv Ba) as A1.
      apply (yo_weaken _ _ (approx n s E (pow_exp f (p - 1) * 1 + 1) (open_a (n_sh x) ^ pow_exp f (p - 1) * open_a (n_sh x)))).
      - unfold pow_tracked, pow_num. fold f. eapply yo_bind; [apply (powv_approx n Hn pr HV D s E T HE Hs Hs2 HT f (p - 1) 1 _ x Hf A1)|]. intros g Hg. exact (mulv_approx n Hn pr HV s E T HE Hs Hs2 HT _ _ _ _ _ _ Hg A1).
      - intros z Hz. split; [destruct Hz as (_ & a & Ha & _); exact (proj2 Ha)|]. pose proof (approx_qval n s E _ _ z Hn HE Hs Hs2 Hz) as A. rewrite Z.mul_1_r in A.
        replace (open_a (n_sh x) ^ pow_exp f (p - 1) * open_a (n_sh x)) with (open_a (n_sh x) ^ (pow_exp f (p - 1) + 1)) in A by (rewrite Z.pow_add_r by lia; ring). rewrite qpow_div in A by lia. unfold qval in *. rewrite Sx. exact A. }
    split; [|split].
    - intros x st Hx Sx. pose proof (sharing_nshare n 1 x Hx Sx) as Hv.
      assert (Y : yo true (pow_tracked (pr := pr) D no_check x p) (nshare n (open_a (n_sh x) ^ pow_exp f (p - 1) * open_a (n_sh x)) 1)).
      { unfold pow_tracked, pow_num. fold f. eapply yo_bind; [apply (powv_1 n Hn pr HV D no_check (fun _ => eq_refl) f (p - 1) _ x Hf Hv)|]. intros g Hg. exact (mulv_1 n Hn pr HV no_check _ _ g x Hg Hv). }
      destruct (yo_true _ _ st Y) as (z & Ez & Hz & Sz). exists z. split; [exact Ez|]. split; [|exact Sz]. rewrite (ashare_open _ _ _ Hz), Z.pow_add_r by lia. f_equal. ring.
    - intros s E x st z HE Hs Hs2 Hx Sx Bx Hz. split; [eapply weaker_fst; [|exact Hz]|]. { unfold pow_tracked. apply weaker_bind; [apply powv_weak|]. intros g. apply mulv_weak. }
      assert (HF : false = true -> n = 1%nat) by discriminate. exact (yo_some false _ _ st z (FX s E false x HE Hs Hs2 Hx Sx Bx HF) Hz).
    - intros s x st H1 Hs Hs2 Hx Sx Bx. destruct (yo_true _ _ st (FX s 1 true x ltac:(lia) ltac:(lia) Hs2 Hx Sx Bx (fun _ => H1))) as (z & Ez & Hz). exists z.
      split; [eapply weaker_fst; [|exact Ez]|rewrite Z.mul_1_r in Hz; exact Hz]. unfold pow_tracked. apply weaker_bind; [apply powv_weak|]. intros g. apply mulv_weak.
  Qed.
  (** C96: without a gradient pow computes another power of x from 5 on: the exponents of the two are the same up to 4 and never again. *)
  Lemma k_C96_pow_differs : forall p, 2 <= p -> exists q q', (q = q' <-> p <= 4) /\
    forall x st st', sharing n x -> n_sc x = 1 -> exists z z', fst (pow_tracked (pr := pr) D no_check x p st) = Some z /\ fst (pow_num (pr := pr) D no_check x p st') = Some z' /\
      open_a (n_sh z) = wrap (open_a (n_sh x) ^ q) /\ open_a (n_sh z') = wrap (open_a (n_sh x) ^ q').
  Proof using Hn HV HD.
    intros p Hp. exists (texp (p - 1) + 1), (texp p). split; [now apply texp_eq|]. intros x st st' Hx Sx. pose proof (sharing_nshare n 1 x Hx Sx) as Hv.
    assert (Y : yo true (pow_tracked (pr := pr) D no_check x p) (nshare n (open_a (n_sh x) ^ texp (p - 1) * open_a (n_sh x)) 1)).
    { unfold pow_tracked, pow_num, texp. eapply yo_bind; [apply (powv_1 n Hn pr HV D no_check (fun _ => eq_refl) (Z.to_nat (p - 1 + 1)) (p - 1) _ x ltac:(lia) Hv)|]. intros g Hg. exact (mulv_1 n Hn pr HV no_check _ _ g x Hg Hv). }
    pose proof (powv_1 n Hn pr HV D no_check (fun _ => eq_refl) (Z.to_nat (p + 1)) p _ x ltac:(lia) Hv) as Y'.
    destruct (yo_true _ _ st Y) as (z & Ez & Hz & _). destruct (yo_true _ _ st' Y') as (z' & Ez' & Hz' & _). exists z, z'. split; [exact Ez|]. split; [exact Ez'|]. pose proof (texp_ge (p - 1) ltac:(lia)).
    split; [rewrite (ashare_open _ _ _ Hz), Z.pow_add_r by lia; f_equal; ring|apply (ashare_open _ _ _ Hz')].
  Qed.
End Claims.

Section Extremes.
  Variables (n : nat) (pr : provider) (D : Z) (p : nat) (local_bits : run pr (list Z)) (log_steps cascade_steps isqrt : nat -> nat).
  Hypothesis Hn : (0 < n)%nat.
  Hypothesis HV : valid n pr.
  Hypothesis Hp : (1 <= p <= 62)%nat.
  Hypothesis HD : D = 2 ^ Z.of_nat p.
  (** every party's local draw is one of the 2^p values *)
  Hypothesis Hlocal : forall st, let u := fst (local_bits st) in length u = n /\ Forall (fun z => 0 <= z < D) u.
  (** int(math.sqrt(m)) lies strictly between 0 and m for m >= 2 (nothing else is assumed of it) *)
  Hypothesis Hsqrt : forall m, (2 <= m)%nat -> (1 <= isqrt m < m)%nat.
  Local Notation min_tracked' := (min_tracked D p local_bits log_steps cascade_steps isqrt).
  Local Notation max_tracked' := (max_tracked D p local_bits log_steps cascade_steps isqrt).

  Lemma argmin_positions me xs s : s = 1 \/ s = D -> vector n s xs -> differences_fit xs -> short n D s xs ->
    yields (argmin D p local_bits log_steps cascade_steps isqrt me xs) (fun a => exists k, (k < length xs)%nat /\ least (nth k (reveals xs) 0) (reveals xs) /\ Forall2 (fun v x => nshare n v 1 x) (one_hot (length xs) k) a).
  Proof using All.
    intros Hs [N F] HF B.
    assert (N' : map Z.opp (reveals xs) <> []) by (destruct xs; [contradiction|discriminate]).
    assert (LL : length (map Z.opp (reveals xs)) = length xs) by (unfold reveals; now rewrite !map_length). unfold short in B. rewrite <- LL in B.
    pose proof (D_pos n D p Hn Hp HD) as D0. pose proof (Hloc n pr D local_bits Hlocal) as HL.
    intros st. pose proof (argmax_ok n Hn pr HV D D0 p Hp HD local_bits (fun _ => True) HL s Hs _ (neg_fit xs HF) isqrt Hsqrt log_steps cascade_steps me _ _ (neg_reps n s xs F _ (incl_refl _)) N' B st) as H.
    destruct H as (k & Hk & M & Ha). rewrite LL in *. exists k. split; [assumption|]. split; [apply (least_of n p Hn Hp); [unfold reveals; now rewrite map_length|exact M]|]. exact Ha.
  Qed.
  Lemma vector_rep xs s : vector n s xs -> Forall2 (fun v x => nshare n v s x) (reveals xs) xs.
  Proof. intros [_ F]. induction F as [|x l [Hx Sx] F IH]; [constructor|]. cbn [reveals map]. constructor; [exact (sharing_nshare n s x Hx Sx)|exact IH]. Qed.

  (** C96: min without a dimension of a tensor that requires a gradient is the least element. *)
  Lemma k_C96_min : forall me xs s st, s = 1 \/ s = D -> vector n s xs -> differences_fit xs -> short n D s xs ->
    let r := fst (min_tracked' true me xs st) in least (open_a (n_sh r)) (reveals xs) /\ n_sc r = s.
  Proof using All.
    intros me xs s st Hs V HF B r.
    assert (Y : yields (min_tracked' true me xs) (fun r => exists v, least v (reveals xs) /\ nshare n v s r)).
    { unfold min_tracked. eapply yields_bind; [exact (argmin_positions me xs s Hs V HF B)|]. intros a (k & Hk & M & Ha).
      eapply yields_weaken; [apply (select_ok n Hn pr HV D p Hp HD s Hs (reveals xs) xs a k); [unfold reveals; now rewrite map_length|exact (vector_rep xs s V)|]|].
      - unfold reveals. rewrite map_length. exact Ha.
      - intros z Hz. exists (nth k (reveals xs) 0). split; assumption. }
    destruct (Y st) as (v & M & [Hv Sv]). fold r in Hv, Sv. split; [|exact Sv]. rewrite (ashare_open _ _ _ Hv), wrap_id; [exact M|]. destruct M as [I _]. apply in_map_iff in I. destruct I as (x & <- & _). apply open_a_in64.
  Qed.
  (** C96: asked for an index instead of indicators, it returns the sum of all elements times the index. *)
  Lemma k_C96_min_index : forall me xs s st, s = 1 \/ s = D -> vector n s xs -> differences_fit xs -> short n D s xs ->
    let r := fst (min_tracked' false me xs st) in
    exists k, (k < length xs)%nat /\ least (nth k (reveals xs) 0) (reveals xs) /\ open_a (n_sh r) = wrap (Z.of_nat k * zsum (reveals xs)) /\ n_sc r = s.
  Proof using All.
    intros me xs s st Hs V HF B r. pose proof (D_pos n D p Hn Hp HD) as D0. assert (S0 : 0 < s) by lia.
    assert (Y : yields (min_tracked' false me xs) (fun r => exists k, (k < length xs)%nat /\ least (nth k (reveals xs) 0) (reveals xs) /\ nshare n (Z.of_nat k * zsum (reveals xs)) s r)).
    { unfold min_tracked. eapply yields_bind; [exact (argmin_positions me xs s Hs V HF B)|]. intros a (k & Hk & M & Ha).
      eapply yields_bind; [exact (one_hot_to_index_ok n Hn pr p Hp _ k a Hk Ha)|]. intros i Hi.
      apply (yields_bind _ _ (fun zs => Forall2 (fun v z => nshare n v s z) (map (fun v => v * Z.of_nat k) (reveals xs)) zs)).
      - pose proof (vector_rep xs s V) as W. clear - W Hi Hn HV S0. induction W as [|v x vs xs Hx W IH]; [apply yields_ret; constructor|]. cbn [mapM map]. eapply yields_bind; [exact (mul_num_r1 n Hn pr HV x i v (Z.of_nat k) s S0 Hx Hi)|]. intros z Hz.
        eapply yields_bind; [exact IH|]. intros zs Hzs. apply yields_ret. now constructor.
      - intros zs Hzs. apply yields_ret. exists k. split; [exact Hk|]. split; [exact M|]. eapply nshare_eqm; [|apply (sum_num_ok n s (map (fun v => v * Z.of_nat k) (reveals xs)) zs); [|exact Hzs]].
        + apply eqm_refl_eq. clear. induction (reveals xs) as [|v l IH]; [cbn; ring|]. cbn [map zsum fold_right] in *. fold (zsum (map (fun v => v * Z.of_nat k) l)) in *. fold (zsum l) in *. rewrite IH. ring.
        + destruct V as [V _]. destruct xs; [contradiction|discriminate]. }
    destruct (Y st) as (k & Hk & M & [Hv Sv]). fold r in Hv, Sv. exists k. split; [exact Hk|]. split; [exact M|]. split; [exact (ashare_open _ _ _ Hv)|exact Sv].
  Qed.
  (** C96: max without a dimension is the greatest element; asked for an index it raises, unless there is only one element. *)
  Lemma k_C96_max : forall me xs s st one, s = 1 \/ s = D -> vector n s xs -> differences_fit xs -> short n D s xs ->
    match fst (max_tracked' one me xs st) with Some r => greatest (open_a (n_sh r)) (reveals xs) /\ n_sc r = s /\ (one = true \/ length xs = 1%nat) | None => one = false /\ (2 <= length xs)%nat end.
  Proof using All.
    intros me xs s st one Hs V HF B. pose proof (k_C31_max n pr D p local_bits log_steps cascade_steps isqrt Hn HV Hp HD Hlocal Hsqrt me xs s st Hs V HF B) as H. unfold max_tracked, bindo, lift, bind, okr, raise, ret.
    destruct (max_dim D p local_bits log_steps cascade_steps isqrt me xs st) as [r st1]. cbn [fst snd] in *. destruct H as (G & S & _). destruct one; cbn [orb]; [cbn [fst]; auto|]. destruct (Nat.eqb_spec (length xs) 1); [cbn [fst]; auto|].
    destruct (one_hot_to_index (snd r) st1) as [i st2]. cbn [fst]. split; [reflexivity|]. destruct V as [V _]. destruct xs as [|? [|? ?]]; [contradiction|cbn in *; lia|cbn; lia].
  Qed.
End Extremes.

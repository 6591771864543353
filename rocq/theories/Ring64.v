(** Signed 64-bit ring arithmetic: the behaviour of torch.long (int64) tensors.
    Model of the ring used everywhere in crypten (e.g. crypten/common/rng.py:12-30,
    crypten/mpc/primitives/arithmetic.py). *)
Require Import ZArith List Lia Setoid Morphisms.
Import ListNotations.
Open Scope Z_scope.

(** Modulus of torch.long arithmetic. *)
Definition M64 : Z := 18446744073709551616.
Definition H63 : Z := 9223372036854775808.

(** Two's complement reduction performed by every torch.long operation. *)
Definition wrap (z : Z) : Z := (z + H63) mod M64 - H63.

(** Representable as torch.long. *)
Definition in64 (z : Z) : Prop := - H63 <= z < H63.
Definition in64b (z : Z) : bool := (- H63 <=? z) && (z <? H63).

(** Congruence modulo 2^64. *)
Definition eqm (a b : Z) : Prop := a mod M64 = b mod M64.
Infix "==" := eqm (at level 70, no associativity).

Definition zsum (l : list Z) : Z := fold_right Z.add 0 l.
Definition zxor (l : list Z) : Z := fold_right Z.lxor 0 l.

(** The wrapping operations on torch.long elements. *)
Definition wadd (a b : Z) : Z := wrap (a + b).
Definition wsub (a b : Z) : Z := wrap (a - b).
Definition wmul (a b : Z) : Z := wrap (a * b).
Definition wneg (a : Z) : Z := wrap (- a).
(** torch [<<] (wraps) and [>>] (arithmetic). *)
Definition wshl (a k : Z) : Z := wrap (Z.shiftl a k).
Definition wshr (a k : Z) : Z := Z.shiftr a k.

(** torch.div(..., rounding_mode="trunc"), wrapping ([-2^63 / -1]). *)
Definition tdiv (a b : Z) : Z := wrap (Z.quot a b).

Lemma M64_eq : M64 = 2 ^ 64. Proof. reflexivity. Qed.
Lemma H63_eq : H63 = 2 ^ 63. Proof. reflexivity. Qed.
Lemma M64_H63 : M64 = 2 * H63. Proof. reflexivity. Qed.

Lemma in64b_iff z : in64b z = true <-> in64 z.
Proof. unfold in64b, in64. rewrite Bool.andb_true_iff, Z.leb_le, Z.ltb_lt. tauto. Qed.

Lemma wrap_in64 z : in64 (wrap z).
Proof. unfold wrap, in64. pose proof (Z.mod_pos_bound (z + H63) M64). unfold M64, H63 in *; lia. Qed.

Lemma wrap_id z : in64 z -> wrap z = z.
Proof. unfold wrap, in64. intros. rewrite Z.mod_small; unfold M64, H63 in *; lia. Qed.

Lemma eqm_iff a b : a == b <-> exists k, a = b + k * M64.
Proof.
  unfold eqm. split.
  - intros H. exists (a / M64 - b / M64).
    pose proof (Z.div_mod a M64). pose proof (Z.div_mod b M64). unfold M64 in *. lia.
  - intros [k ->]. now rewrite Z.mod_add by (unfold M64; lia).
Qed.

Lemma wrap_spec z : exists k, wrap z = z + k * M64.
Proof.
  exists (- ((z + H63) / M64)). unfold wrap.
  rewrite Z.mod_eq by (unfold M64; lia). lia.
Qed.

Lemma wrap_eqm z : wrap z == z.
Proof. apply eqm_iff, wrap_spec. Qed.

Global Instance eqm_equiv : Equivalence eqm.
Proof. split; red; unfold eqm; congruence. Qed.

Global Instance eqm_add : Proper (eqm ==> eqm ==> eqm) Z.add.
Proof.
  intros a b H c d H'. apply eqm_iff in H, H'. destruct H as [k ->], H' as [j ->].
  apply eqm_iff. exists (k + j). ring.
Qed.
Global Instance eqm_opp : Proper (eqm ==> eqm) Z.opp.
Proof. intros a b H. apply eqm_iff in H. destruct H as [k ->]. apply eqm_iff. exists (- k). ring. Qed.
Global Instance eqm_sub : Proper (eqm ==> eqm ==> eqm) Z.sub.
Proof. intros a b H c d H'. unfold Z.sub. now rewrite H, H'. Qed.
Global Instance eqm_mul : Proper (eqm ==> eqm ==> eqm) Z.mul.
Proof.
  intros a b H c d H'. apply eqm_iff in H, H'. destruct H as [k ->], H' as [j ->].
  apply eqm_iff. exists (b * j + k * d + k * j * M64). ring.
Qed.

Lemma eqm_refl_eq a b : a = b -> a == b.
Proof. intros ->. reflexivity. Qed.

Lemma eqm_wrap_eq a b : a == b -> wrap a = wrap b.
Proof.
  intros H. apply eqm_iff in H as [k ->]. unfold wrap.
  replace (b + k * M64 + H63) with (b + H63 + k * M64) by ring.
  now rewrite Z.mod_add by (unfold M64; lia).
Qed.

Lemma wrap_eq_eqm a b : wrap a = wrap b -> a == b.
Proof. intros H. rewrite <- (wrap_eqm a), <- (wrap_eqm b), H. reflexivity. Qed.

Lemma wrap_wrap z : wrap (wrap z) = wrap z.
Proof. apply wrap_id, wrap_in64. Qed.

Lemma eqm_in64_eq a b : in64 a -> in64 b -> a == b -> a = b.
Proof. intros Ha Hb H. rewrite <- (wrap_id a), <- (wrap_id b) by assumption. now apply eqm_wrap_eq. Qed.

Lemma wrap_unique a b : in64 b -> a == b -> wrap a = b.
Proof. intros. rewrite <- (wrap_id b) by assumption. now apply eqm_wrap_eq. Qed.

Global Instance wrap_proper : Proper (eqm ==> eq) wrap.
Proof. intros a b. apply eqm_wrap_eq. Qed.

Lemma wadd_eqm a b : wadd a b == a + b. Proof. apply wrap_eqm. Qed.
Lemma wsub_eqm a b : wsub a b == a - b. Proof. apply wrap_eqm. Qed.
Lemma wmul_eqm a b : wmul a b == a * b. Proof. apply wrap_eqm. Qed.
Lemma wneg_eqm a : wneg a == - a. Proof. apply wrap_eqm. Qed.

Lemma wadd_in64 a b : in64 (wadd a b). Proof. apply wrap_in64. Qed.
Lemma wsub_in64 a b : in64 (wsub a b). Proof. apply wrap_in64. Qed.
Lemma wmul_in64 a b : in64 (wmul a b). Proof. apply wrap_in64. Qed.

Global Instance wadd_proper : Proper (eqm ==> eqm ==> eq) wadd.
Proof. intros a b H c d H'. unfold wadd. now rewrite H, H'. Qed.
Global Instance wsub_proper : Proper (eqm ==> eqm ==> eq) wsub.
Proof. intros a b H c d H'. unfold wsub. now rewrite H, H'. Qed.
Global Instance wmul_proper : Proper (eqm ==> eqm ==> eq) wmul.
Proof. intros a b H c d H'. unfold wmul. now rewrite H, H'. Qed.

(** Simplify wraps below a congruence and close by ring. *)
Ltac mring :=
  unfold wadd, wsub, wmul, wneg in *;
  repeat first [ rewrite wrap_eqm | progress (setoid_rewrite wrap_eqm) ];
  apply eqm_refl_eq; ring.

(** ** Sums *)
Lemma zsum_app a b : zsum (a ++ b) = zsum a + zsum b.
Proof. induction a; cbn [zsum app fold_right] in *; [reflexivity|]. unfold zsum in *; cbn. rewrite IHa. ring. Qed.
Lemma zsum_cons a l : zsum (a :: l) = a + zsum l. Proof. reflexivity. Qed.
Lemma zxor_cons a l : zxor (a :: l) = Z.lxor a (zxor l). Proof. reflexivity. Qed.
Lemma zxor_app a b : zxor (a ++ b) = Z.lxor (zxor a) (zxor b).
Proof. induction a as [|x a IH]; [now cbn; rewrite ?Z.lxor_0_l|]. cbn [app]. rewrite !zxor_cons, IH. now rewrite Z.lxor_assoc. Qed.

Lemma zsum_map_wrap l : zsum (map wrap l) == zsum l.
Proof. induction l as [|a l IH]; [reflexivity|]. cbn [map]. rewrite !zsum_cons, wrap_eqm, IH. reflexivity. Qed.

Lemma zsum_map_eqm {A} (f g : A -> Z) l : (forall a, In a l -> f a == g a) -> zsum (map f l) == zsum (map g l).
Proof.
  induction l as [|a l IH]; intros H; [reflexivity|]. cbn [map]. rewrite !zsum_cons.
  rewrite (H a (or_introl eq_refl)), IH; [reflexivity|]. intros; apply H; now right.
Qed.

Lemma zsum_map_mul c l : zsum (map (fun x => c * x) l) = c * zsum l.
Proof. induction l as [|a l IH]; cbn [map]; [cbn; ring|]. rewrite !zsum_cons, IH. ring. Qed.
Lemma zsum_map_opp l : zsum (map Z.opp l) = - zsum l.
Proof. induction l as [|a l IH]; cbn [map]; [reflexivity|]. rewrite !zsum_cons, IH. ring. Qed.

(** Pointwise combination of two share lists of the same length. *)
Definition zipw {A B C} (f : A -> B -> C) (l : list A) (m : list B) : list C :=
  map (fun p => f (fst p) (snd p)) (combine l m).

Lemma zipw_cons {A B C} (f : A -> B -> C) a l b m : zipw f (a :: l) (b :: m) = f a b :: zipw f l m.
Proof. reflexivity. Qed.
Lemma zipw_length {A B C} (f : A -> B -> C) l m : length l = length m -> length (zipw f l m) = length l.
Proof. intros H. unfold zipw. rewrite map_length, combine_length. lia. Qed.

Lemma zsum_zipw_eqm (f g1 g2 : Z -> Z -> Z) l m :
  length l = length m -> (forall a b, f a b == g1 a b + g2 a b) ->
  zsum (zipw f l m) == zsum (zipw g1 l m) + zsum (zipw g2 l m).
Proof.
  revert m. induction l as [|a l IH]; intros [|b m] HL H; cbn in HL; try discriminate; [reflexivity|].
  rewrite !zipw_cons, !zsum_cons, H, IH by (auto; lia). apply eqm_refl_eq; ring.
Qed.

Lemma zsum_zipw_add l m : length l = length m -> zsum (zipw Z.add l m) = zsum l + zsum m.
Proof.
  revert m. induction l as [|a l IH]; intros [|b m] HL; cbn in HL; try discriminate; [reflexivity|].
  rewrite zipw_cons, !zsum_cons, IH by lia. ring.
Qed.
Lemma zsum_zipw_wadd l m : length l = length m -> zsum (zipw wadd l m) == zsum l + zsum m.
Proof.
  revert m. induction l as [|a l IH]; intros [|b m] HL; cbn in HL; try discriminate; [reflexivity|].
  rewrite zipw_cons, !zsum_cons, IH, wadd_eqm by lia. apply eqm_refl_eq; ring.
Qed.
Lemma zsum_zipw_wsub l m : length l = length m -> zsum (zipw wsub l m) == zsum l - zsum m.
Proof.
  revert m. induction l as [|a l IH]; intros [|b m] HL; cbn in HL; try discriminate; [reflexivity|].
  rewrite zipw_cons, !zsum_cons, IH, wsub_eqm by lia. apply eqm_refl_eq; ring.
Qed.

(** ** Bits of 64-bit words *)
Lemma mod_M64_bits z k : 0 <= k -> Z.testbit (z mod M64) k = (if k <? 64 then Z.testbit z k else false).
Proof.
  intros Hk. rewrite M64_eq. destruct (k <? 64) eqn:E.
  - apply Z.ltb_lt in E. now rewrite Z.mod_pow2_bits_low by lia.
  - apply Z.ltb_ge in E. now rewrite Z.mod_pow2_bits_high by lia.
Qed.

Lemma eqm_bits a b : a == b <-> (forall k, 0 <= k < 64 -> Z.testbit a k = Z.testbit b k).
Proof.
  unfold eqm. split.
  - intros H k Hk. pose proof (f_equal (fun z => Z.testbit z k) H) as E. cbn beta in E.
    rewrite !mod_M64_bits in E by lia. replace (k <? 64) with true in E by (symmetry; apply Z.ltb_lt; lia). exact E.
  - intros H. apply Z.bits_inj'. intros k Hk. rewrite !mod_M64_bits by lia.
    destruct (k <? 64) eqn:E; [|reflexivity]. apply Z.ltb_lt in E. apply H; lia.
Qed.

Lemma wrap_testbit z k : 0 <= k < 64 -> Z.testbit (wrap z) k = Z.testbit z k.
Proof. apply (proj1 (eqm_bits _ _) (wrap_eqm z)). Qed.

Lemma in64_bits_eq a b : in64 a -> in64 b -> (forall k, 0 <= k < 64 -> Z.testbit a k = Z.testbit b k) -> a = b.
Proof. intros. apply eqm_in64_eq; auto. now apply eqm_bits. Qed.

(** The sign is bit 63 and all higher bits. *)
Lemma in64_high_bits a k : in64 a -> 63 <= k -> Z.testbit a k = (a <? 0).
Proof.
  intros Ha Hk. unfold in64 in Ha. destruct (a <? 0) eqn:E.
  - apply Z.ltb_lt in E.
    replace a with (Z.lnot (- a - 1)) at 1 by (unfold Z.lnot; lia).
    rewrite Z.lnot_spec by lia.
    destruct (Z.eq_dec (- a - 1) 0) as [->|Hn]; [now rewrite Z.bits_0|].
    rewrite Z.bits_above_log2; [reflexivity|lia|].
    apply Z.log2_lt_pow2; [lia|]. apply Z.lt_le_trans with (2 ^ 63); [unfold H63 in Ha; lia|].
    apply Z.pow_le_mono_r; lia.
  - apply Z.ltb_ge in E. destruct (Z.eq_dec a 0) as [->|Hn]; [now rewrite Z.bits_0|].
    rewrite Z.bits_above_log2; [reflexivity|lia|].
    apply Z.log2_lt_pow2; [lia|]. apply Z.lt_le_trans with (2 ^ 63); [unfold H63 in Ha; lia|].
    apply Z.pow_le_mono_r; lia.
Qed.

Lemma in64_of_bits a : (forall k, 63 <= k -> Z.testbit a k = Z.testbit a 63) -> in64 a.
Proof.
  intros H. destruct (Z.testbit a 63) eqn:E.
  - assert (Hd : Z.shiftr a 63 = -1).
    { apply Z.bits_inj'. intros k Hk. rewrite Z.shiftr_spec by lia. rewrite H by lia. now rewrite Z.bits_m1. }
    rewrite Z.shiftr_div_pow2 in Hd by lia. pose proof (Z.div_mod a (2^63)). pose proof (Z.mod_pos_bound a (2^63)).
    unfold in64. rewrite H63_eq. lia.
  - assert (Hd : Z.shiftr a 63 = 0).
    { apply Z.bits_inj'. intros k Hk. rewrite Z.shiftr_spec by lia. rewrite H by lia. now rewrite Z.bits_0. }
    rewrite Z.shiftr_div_pow2 in Hd by lia. pose proof (Z.div_mod a (2^63)). pose proof (Z.mod_pos_bound a (2^63)).
    unfold in64. rewrite H63_eq. lia.
Qed.

Lemma in64_0 : in64 0. Proof. unfold in64, H63; lia. Qed.
Lemma in64_m1 : in64 (-1). Proof. unfold in64, H63; lia. Qed.

Lemma in64_bit63 a k : in64 a -> 63 <= k -> Z.testbit a k = Z.testbit a 63.
Proof. intros. rewrite !in64_high_bits by (auto; lia). reflexivity. Qed.

Lemma in64_lxor a b : in64 a -> in64 b -> in64 (Z.lxor a b).
Proof. intros Ha Hb. apply in64_of_bits. intros k Hk. rewrite !Z.lxor_spec, (in64_bit63 a k), (in64_bit63 b k) by auto. reflexivity. Qed.
Lemma in64_land a b : in64 a -> in64 b -> in64 (Z.land a b).
Proof. intros Ha Hb. apply in64_of_bits. intros k Hk. rewrite !Z.land_spec, (in64_bit63 a k), (in64_bit63 b k) by auto. reflexivity. Qed.
Lemma in64_lor a b : in64 a -> in64 b -> in64 (Z.lor a b).
Proof. intros Ha Hb. apply in64_of_bits. intros k Hk. rewrite !Z.lor_spec, (in64_bit63 a k), (in64_bit63 b k) by auto. reflexivity. Qed.
Lemma in64_lnot a : in64 a -> in64 (Z.lnot a).
Proof. unfold in64, Z.lnot. unfold H63. lia. Qed.
Lemma in64_shiftr a k : in64 a -> 0 <= k -> in64 (Z.shiftr a k).
Proof.
  intros Ha Hk. rewrite Z.shiftr_div_pow2 by lia. unfold in64 in *.
  assert (0 < 2 ^ k) by (apply Z.pow_pos_nonneg; lia).
  split; [apply Z.div_le_lower_bound; nia|apply Z.div_lt_upper_bound; nia].
Qed.

Lemma in64_zxor l : Forall in64 l -> in64 (zxor l).
Proof. induction 1; [exact in64_0|]. rewrite zxor_cons. now apply in64_lxor. Qed.

Global Instance lxor_proper : Proper (eqm ==> eqm ==> eqm) Z.lxor.
Proof. intros a b H c d H'. rewrite eqm_bits in *. intros k Hk. rewrite !Z.lxor_spec, H, H' by lia. reflexivity. Qed.
Global Instance land_proper : Proper (eqm ==> eqm ==> eqm) Z.land.
Proof. intros a b H c d H'. rewrite eqm_bits in *. intros k Hk. rewrite !Z.land_spec, H, H' by lia. reflexivity. Qed.

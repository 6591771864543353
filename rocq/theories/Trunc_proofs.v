Require Import ZArith List Lia Bool Zquot QArith Qabs.
From Verif Require Import Ring64 Sharing Sharing_proofs Arith Arith_proofs Beaver Beaver_proofs Trunc.
Import ListNotations.
Open Scope Z_scope.
Ltac Zify.zify_post_hook ::= idtac.

(** ** Specification: exact number of wraps of a list of ring elements *)
Definition wraps_of (l : list Z) : Z := (zsum l - wrap (zsum l)) / M64.

Lemma wraps_of_eq l : zsum l = wrap (zsum l) + wraps_of l * M64.
Proof.
  unfold wraps_of. destruct (wrap_spec (zsum l)) as [k Hk].
  replace (zsum l - wrap (zsum l)) with ((- k) * M64) by lia. rewrite Z.div_mul by (unfold M64; lia). lia.
Qed.
Lemma wraps_of_unique l w v : in64 v -> zsum l = v + w * M64 -> wraps_of l = w.
Proof.
  intros Hv H. assert (E : wrap (zsum l) = v). { apply wrap_unique; [assumption|]. apply eqm_iff. exists w. assumption. }
  pose proof (wraps_of_eq l). rewrite E in H0. unfold M64 in *. lia.
Qed.

(** Steps of the scan that add -2^63 to a running value -2^63. *)
Fixpoint corners_from (prev : Z) (l : list Z) : Z :=
  match l with [] => 0 | cur :: l' => b2z ((prev =? - H63) && (cur =? - H63)) + corners_from (wadd cur prev) l' end.
Definition corners (l : list Z) : Z := match l with [] => 0 | a :: r => corners_from a r end.

Lemma wadd_case a b : in64 a -> in64 b ->
  (a + b < - H63 /\ wadd a b = a + b + M64) \/ (- H63 <= a + b < H63 /\ wadd a b = a + b) \/ (H63 <= a + b /\ wadd a b = a + b - M64).
Proof.
  intros Ha Hb. unfold in64 in *. pose proof (wadd_in64 a b) as Hw. unfold in64 in Hw.
  destruct (wrap_spec (a + b)) as [k Hk]. fold (wadd a b) in Hk. unfold M64, H63 in *.
  assert (k = 1 \/ k = 0 \/ k = -1) by lia. lia.
Qed.

Lemma count_wraps_from_ok l : forall prev res, in64 prev -> Forall in64 l ->
  exists w, count_wraps_from prev res l == res + w + corners_from prev l /\
            prev + zsum l = fold_left (fun p c => wadd c p) l prev + w * M64.
Proof.
  induction l as [|cur l IH]; intros prev res Hp Hl; cbn [count_wraps_from corners_from fold_left].
  - exists 0. split; [apply eqm_refl_eq; ring|cbn; ring].
  - inversion Hl; subst. set (next := wadd cur prev).
    match goal with |- context [count_wraps_from next ?r l] => set (res' := r) end.
    destruct (IH next res' (wadd_in64 _ _) H2) as (w & E1 & E2).
    rewrite zsum_cons.
    destruct (wadd_case cur prev H1 Hp) as [[C N]|[[C N]|[C N]]]; fold next in N.
    + (* underflow *)
      exists (w - 1). split; [|lia]. rewrite E1. unfold res'.
      rewrite wadd_eqm, wsub_eqm.
      assert (Hc : b2z ((prev <? 0) && (cur <? 0) && (0 <? next)) = 1 - b2z ((prev =? - H63) && (cur =? - H63)) /\ b2z ((0 <? prev) && (0 <? cur) && (next <? 0)) = 0).
      { unfold in64 in *. unfold b2z. split.
        - replace (prev <? 0) with true by (symmetry; apply Z.ltb_lt; unfold H63 in *; lia).
          replace (cur <? 0) with true by (symmetry; apply Z.ltb_lt; unfold H63 in *; lia). cbn [andb].
          destruct (0 <? next) eqn:E; [apply Z.ltb_lt in E|apply Z.ltb_ge in E];
          destruct (prev =? - H63) eqn:E3; destruct (cur =? - H63) eqn:E4; cbn [andb]; try reflexivity;
          rewrite ?Z.eqb_eq, ?Z.eqb_neq in *; unfold H63, M64 in *; lia.
        - replace (0 <? prev) with false by (symmetry; apply Z.ltb_ge; unfold H63 in *; lia). reflexivity. }
      destruct Hc as [-> ->]. apply eqm_refl_eq. ring.
    + exists w. split; [|lia]. rewrite E1. unfold res'. rewrite wadd_eqm, wsub_eqm.
      assert (Hc : b2z ((prev <? 0) && (cur <? 0) && (0 <? next)) = 0 /\ b2z ((0 <? prev) && (0 <? cur) && (next <? 0)) = 0 /\ b2z ((prev =? - H63) && (cur =? - H63)) = 0).
      { unfold in64 in *. unfold b2z. repeat split.
        - destruct (prev <? 0) eqn:A; destruct (cur <? 0) eqn:B0; destruct (0 <? next) eqn:C0; cbn; try reflexivity; rewrite ?Z.ltb_lt in *; lia.
        - destruct (0 <? prev) eqn:A; destruct (0 <? cur) eqn:B0; destruct (next <? 0) eqn:C0; cbn; try reflexivity; rewrite ?Z.ltb_lt in *; lia.
        - destruct (prev =? - H63) eqn:A; destruct (cur =? - H63) eqn:B0; cbn; try reflexivity; rewrite ?Z.eqb_eq in *; unfold H63 in *; lia. }
      destruct Hc as (-> & -> & ->). apply eqm_refl_eq. ring.
    + exists (w + 1). split; [|lia]. rewrite E1. unfold res'. rewrite wadd_eqm, wsub_eqm.
      assert (Hc : b2z ((prev <? 0) && (cur <? 0) && (0 <? next)) = 0 /\ b2z ((0 <? prev) && (0 <? cur) && (next <? 0)) = 1 /\ b2z ((prev =? - H63) && (cur =? - H63)) = 0).
      { unfold in64 in *. unfold b2z. repeat split.
        - replace (prev <? 0) with false by (symmetry; apply Z.ltb_ge; unfold H63 in *; lia). reflexivity.
        - replace (0 <? prev) with true by (symmetry; apply Z.ltb_lt; unfold H63 in *; lia).
          replace (0 <? cur) with true by (symmetry; apply Z.ltb_lt; unfold H63 in *; lia).
          replace (next <? 0) with true by (symmetry; apply Z.ltb_lt; unfold H63, M64 in *; lia). reflexivity.
        - replace (prev =? - H63) with false by (symmetry; apply Z.eqb_neq; unfold H63 in *; lia). reflexivity. }
      destruct Hc as (-> & -> & ->). apply eqm_refl_eq. ring.
Qed.

Lemma fold_wadd_swap l : forall a, in64 a -> in64 (fold_left (fun p c => wadd c p) l a).
Proof. induction l; intros; cbn; auto. apply IHl, wadd_in64. Qed.

Lemma count_wraps_eqm l : l <> [] -> Forall in64 l -> count_wraps l == wraps_of l + corners l.
Proof.
  destruct l as [|a l]; [congruence|]. intros _ H. inversion H; subst. cbn [count_wraps corners].
  destruct (count_wraps_from_ok l a 0 H2 H3) as (w & E1 & E2). rewrite E1.
  rewrite (wraps_of_unique (a :: l) w (fold_left (fun p c => wadd c p) l a)).
  - apply eqm_refl_eq; ring.
  - now apply fold_wadd_swap.
  - now rewrite zsum_cons.
Qed.

(** Exact (no modulus) version: the number of wraps is small. *)
Lemma count_wraps_from_exact l : forall prev res, in64 prev -> Forall in64 l -> Z.abs res + 4 * Z.of_nat (length l) < H63 ->
  exists w, count_wraps_from prev res l = res + w + corners_from prev l /\
            prev + zsum l = fold_left (fun p c => wadd c p) l prev + w * M64.
Proof.
  intros prev res Hp Hl Hb.
  destruct (count_wraps_from_ok l prev res Hp Hl) as (w & E1 & E2). exists w. split; [|assumption].
  assert (Habs : forall l prev res, Z.abs res + Z.of_nat (length l) < H63 -> Z.abs (count_wraps_from prev res l - res) <= Z.of_nat (length l)).
  { clear. induction l as [|cur l IH]; intros prev res Hb; cbn [count_wraps_from length] in *; [lia|].
    set (next := wadd cur prev). match goal with |- context [count_wraps_from next ?r l] => set (res' := r) end.
    assert (Hr : Z.abs (res' - res) <= 1).
    { assert (G : exists d1 d2, (d1 = 0 \/ d1 = 1) /\ (d2 = 0 \/ d2 = 1) /\ d1 * d2 = 0 /\ res' = wadd (wsub res d1) d2).
      { exists (b2z ((prev <? 0) && (cur <? 0) && (0 <? next))), (b2z ((0 <? prev) && (0 <? cur) && (next <? 0))).
        repeat split; try (unfold b2z; match goal with |- context [if ?b then _ else _] => destruct b end; auto; fail).
        unfold b2z. destruct (0 <? prev) eqn:A; destruct (prev <? 0) eqn:A'; rewrite ?Z.ltb_lt, ?Z.ltb_ge in *; try lia; cbn [andb];
        repeat match goal with |- context [if ?b then _ else _] => destruct b end; lia. }
      destruct G as (d1 & d2 & G1 & G2 & G3 & ->). unfold wadd, wsub. rewrite (wrap_id (res - d1)) by (unfold in64, H63 in *; lia).
      rewrite wrap_id by (unfold in64, H63 in *; lia). nia. }
    clearbody res' next. specialize (IH next res' ltac:(lia)). lia. }
  specialize (Habs l prev res ltac:(lia)).
  assert (Hc : forall l prev, 0 <= corners_from prev l <= Z.of_nat (length l)).
  { clear. induction l as [|cur l IH]; intros prev; cbn [corners_from length]; [lia|]. specialize (IH (wadd cur prev)). unfold b2z. destruct (_ && _); lia. }
  specialize (Hc l prev).
  assert (Hw : Z.abs w <= Z.of_nat (length l)).
  { clear - E2 Hl Hp. revert prev w Hp E2. induction Hl as [|cur l Hc Hl IH]; intros prev w Hp E2; cbn [fold_left length] in *.
    - cbn in E2. unfold M64 in *. lia.
    - rewrite zsum_cons in E2. destruct (wadd_case cur prev Hc Hp) as [[C N]|[[C N]|[C N]]].
      + specialize (IH (wadd cur prev) (w + 1) (wadd_in64 _ _) ltac:(lia)). lia.
      + specialize (IH (wadd cur prev) w (wadd_in64 _ _) ltac:(lia)). lia.
      + specialize (IH (wadd cur prev) (w - 1) (wadd_in64 _ _) ltac:(lia)). lia. }
  apply eqm_iff in E1 as [k Hk]. unfold M64, H63 in *. lia.
Qed.

Lemma count_wraps_exact l : l <> [] -> Forall in64 l -> 4 * Z.of_nat (length l) < H63 -> count_wraps l = wraps_of l + corners l.
Proof.
  destruct l as [|a l]; [congruence|]. intros _ H HL. inversion H; subst. cbn [count_wraps corners length] in *.
  destruct (count_wraps_from_exact l a 0 H2 H3) as (w & E1 & E2); [lia|]. rewrite E1.
  rewrite (wraps_of_unique (a :: l) w (fold_left (fun p c => wadd c p) l a)); [ring|now apply fold_wadd_swap|now rewrite zsum_cons].
Qed.

(** ** The wrap protocol *)
Lemma zipw_Forall_wadd (l m : list Z) : Forall in64 (zipw wadd l m).
Proof. apply Forall_forall. intros z Hz. apply in_map_iff in Hz as (p & <- & _). apply wadd_in64. Qed.

Definition pair_corners (x r : list Z) : Z := zsum (zipw (fun a b => corners [a; b]) x r).

Lemma zipw_wraps_sum x : forall r, length x = length r -> 
  zsum x + zsum r = zsum (zipw wadd x r) + zsum (zipw (fun a b => wraps_of [a; b]) x r) * M64.
Proof.
  induction x as [|a x IH]; intros [|b r] HL; cbn [length] in HL; try discriminate; [reflexivity|].
  rewrite !zipw_cons, !zsum_cons. specialize (IH r ltac:(lia)). pose proof (wraps_of_eq [a; b]) as E. cbn [zsum fold_right] in E. fold (zsum x) (zsum r) in *.
  replace (a + (b + 0)) with (a + b) in E by ring. fold (wadd a b) in E. lia.
Qed.

Lemma zsum_beta x : forall r, length x = length r -> Forall in64 x -> Forall in64 r ->
  zsum (zipw (fun xp rp => count_wraps [xp; rp]) x r) == zsum (zipw (fun a b => wraps_of [a; b]) x r) + pair_corners x r.
Proof.
  unfold pair_corners. induction x as [|a x IH]; intros [|b r] HL Hx Hr; cbn [length] in HL; try discriminate; [reflexivity|].
  inversion Hx; inversion Hr; subst. rewrite !zipw_cons, !zsum_cons. rewrite IH by (auto; lia).
  rewrite count_wraps_eqm by (auto; congruence). apply eqm_refl_eq; ring.
Qed.

Lemma wraps_ok r theta_r x : x <> [] -> length r = length x -> length theta_r = length x -> Forall in64 x -> Forall in64 r ->
  open_a theta_r == count_wraps r ->
  length (wraps r theta_r x) = length x /\
  zsum (wraps r theta_r x) == wraps_of x + wraps_of [open_a x; open_a r] + (corners (zipw wadd x r) + pair_corners x r - corners r).
Proof.
  intros Hne Lr Lt Hx Hr Hth. assert (Hrne : r <> []) by (destruct x, r; cbn in *; congruence).
  assert (Hz : zipw wadd x r <> []) by (destruct x, r; cbn in *; congruence).
  unfold wraps. set (beta := zipw (fun xp rp => count_wraps [xp; rp]) x r).
  assert (Lb : length beta = length x) by (unfold beta; rewrite zipw_length; congruence).
  split; [rewrite on_rank0_length; unfold sub_priv; rewrite zipw_length; congruence|].
  change (zsum (add_pub (count_wraps (zipw wadd x r)) (sub_priv beta theta_r)) ==
    wraps_of x + wraps_of [open_a x; open_a r] + (corners (zipw wadd x r) + pair_corners x r - corners r)).
  rewrite zsum_add_pub. 2:{ unfold sub_priv. intros E. apply (f_equal (@length _)) in E. rewrite zipw_length in E by congruence. destruct x; cbn in *; congruence. }
  rewrite zsum_sub_priv by congruence. rewrite <- (open_a_eqm theta_r), Hth. unfold beta. rewrite zsum_beta by (auto; congruence).
  rewrite !count_wraps_eqm by (auto using zipw_Forall_wadd).
  pose proof (zipw_wraps_sum x r ltac:(congruence)) as E.
  pose proof (wraps_of_eq x) as E1. pose proof (wraps_of_eq r) as E2. pose proof (wraps_of_eq (zipw wadd x r)) as E3.
  pose proof (wraps_of_eq [open_a x; open_a r]) as E4. cbn [zsum fold_right] in E4. fold (zsum x) (zsum r) in *. rewrite Z.add_0_r in E4.
  assert (E5 : wrap (zsum (zipw wadd x r)) = wrap (open_a x + open_a r)).
  { apply eqm_wrap_eq. rewrite zsum_zipw_wadd by congruence. now rewrite <- !open_a_eqm. }
  rewrite E5 in E3. rewrite <- open_a_eq in E1, E2. apply eqm_refl_eq.
  set (W := zsum (zipw (fun a b => wraps_of [a; b]) x r)) in *.
  assert (wraps_of x + wraps_of r + wraps_of [open_a x; open_a r] = wraps_of (zipw wadd x r) + W) by (unfold M64 in *; lia). lia.
Qed.

Lemma eta_zero x r : in64 (x + r) <-> wraps_of [x; r] = 0.
Proof.
  pose proof (wraps_of_eq [x; r]) as E. cbn [zsum fold_right] in E. rewrite Z.add_0_r in E. split; intros H.
  - rewrite (wrap_id _ H) in E. unfold M64 in *. lia.
  - rewrite H in E. rewrite E, Z.mul_0_l, Z.add_0_r. apply wrap_in64.
Qed.

(** ** Truncation *)
Lemma quot_bound a y : 0 < y -> exists e, a = y * Z.quot a y + e /\ Z.abs e <= y - 1 /\ (0 <= a -> 0 <= e) /\ (a <= 0 -> e <= 0).
Proof.
  intros Hy. exists (Z.rem a y). pose proof (Z.quot_rem' a y). pose proof (Z.rem_bound_abs a y ltac:(lia)).
  repeat split; try lia.
  - intros Ha. pose proof (Z.rem_nonneg a y ltac:(lia) Ha). lia.
  - intros Ha. pose proof (Z.rem_nonpos a y ltac:(lia) Ha). lia.
Qed.

Lemma quot_in64 a y : 0 < y -> in64 a -> in64 (Z.quot a y).
Proof.
  intros Hy Ha. unfold in64 in *. destruct (Z.le_gt_cases 0 a).
  - pose proof (Z.quot_pos a y ltac:(lia) Hy). pose proof (Z.quot_le_upper_bound a y a ltac:(lia) ltac:(nia)). lia.
  - pose proof (Z.quot_opp_l a y ltac:(lia)). pose proof (Z.quot_pos (- a) y ltac:(lia) Hy).
    pose proof (Z.quot_le_upper_bound (- a) y (- a) ltac:(lia) ltac:(nia)). lia.
Qed.
Lemma tdiv_quot a y : 0 < y -> in64 a -> tdiv a y = Z.quot a y.
Proof. intros. apply wrap_id. now apply quot_in64. Qed.

Lemma zsum_quot_bound y l : 0 < y -> Z.abs (zsum l - y * zsum (map (fun s => Z.quot s y) l)) <= Z.of_nat (length l) * (y - 1).
Proof.
  intros Hy. induction l as [|a l IH]; [cbn; lia|]. cbn [map length]. rewrite !zsum_cons.
  destruct (quot_bound a y Hy) as (e & E1 & E2 & _). rewrite Nat2Z.inj_succ. nia.
Qed.

(** What [truncate] computes, exactly: an integer [D] with a bounded deviation, up to wrapping. *)
Lemma truncate_ok r theta_r x y : x <> [] -> length r = length x -> length theta_r = length x -> Forall in64 x -> Forall in64 r ->
  open_a theta_r == count_wraps r -> 0 < y ->
  let eta := wraps_of [open_a x; open_a r] + (corners (zipw wadd x r) + pair_corners x r - corners r) in
  exists D, length (truncate r theta_r x y) = length x /\ open_a (truncate r theta_r x y) = wrap (D - eta * (4 * (2 ^ 62 / y))) /\
    Z.abs (y * D - open_a x) <= Z.of_nat (length x) * (y - 1) + 4 * Z.abs (wraps_of x) * (2 ^ 62 mod y).
Proof.
  intros Hne Lr Lt Hx Hr Hth Hy eta.
  destruct (wraps_ok r theta_r x Hne Lr Lt Hx Hr Hth) as [Lw Ew].
  exists (zsum (map (fun s => Z.quot s y) x) - wraps_of x * (4 * (2 ^ 62 / y))).
  unfold truncate. split; [|split].
  - rewrite zipw_length; rewrite ?mul_int_length, !map_length; congruence.
  - rewrite open_a_eq. apply eqm_wrap_eq. rewrite zsum_zipw_wsub by (rewrite ?mul_int_length, ?map_length; congruence).
    rewrite !zsum_mul_int, Ew.
    rewrite (zsum_map_eqm (fun s => tdiv s y) (fun s => Z.quot s y)) by (intros; apply wrap_eqm).
    apply eqm_refl_eq. fold eta. set (q := 2 ^ 62 / y). unfold eta. ring.
  - pose proof (zsum_quot_bound y x Hy) as B. pose proof (wraps_of_eq x) as E. rewrite <- open_a_eq in E.
    pose proof (Z.div_mod (2 ^ 62) y ltac:(lia)) as DM. pose proof (Z.mod_pos_bound (2 ^ 62) y Hy) as MB.
    set (q := 2 ^ 62 / y) in *. set (rho := 2 ^ 62 mod y) in *. set (S := zsum (map _ x)) in *. set (w := wraps_of x) in *.
    assert (M4 : M64 = 4 * (y * q + rho)) by (rewrite <- DM; reflexivity).
    replace (y * (S - w * (4 * q)) - open_a x) with (- (zsum x - y * S) + 4 * w * rho) by (rewrite E, M4; ring).
    assert (Z.abs (4 * w * rho) = 4 * Z.abs w * rho) by (rewrite !Z.abs_mul; rewrite (Z.abs_eq rho) by lia; lia). lia.
Qed.

Lemma wraps_of_bound x : Forall in64 x -> 2 * Z.abs (wraps_of x) <= Z.of_nat (length x) + 1.
Proof.
  intros H. pose proof (wraps_of_eq x) as E. pose proof (wrap_in64 (zsum x)) as W.
  assert (B : - (Z.of_nat (length x) * H63) <= zsum x <= Z.of_nat (length x) * H63).
  { clear E W. induction H as [|a x Ha Hx IH]; [cbn; lia|]. cbn [length]. rewrite zsum_cons, Nat2Z.inj_succ. unfold in64 in Ha. lia. }
  unfold in64, M64, H63 in *. lia.
Qed.

(** Final bound, when the plaintext mask addition does not overflow and no corner occurs. *)
Lemma truncate_close r theta_r x y : x <> [] -> length r = length x -> length theta_r = length x -> Forall in64 x -> Forall in64 r ->
  open_a theta_r == count_wraps r -> 0 < y -> in64 (open_a x + open_a r) ->
  corners (zipw wadd x r) = 0 -> pair_corners x r = 0 -> corners r = 0 -> Z.of_nat (length x) <= 2 ^ 32 ->
  Z.abs (y * open_a (truncate r theta_r x y) - open_a x) <= Z.of_nat (length x) * (y - 1) + 4 * Z.abs (wraps_of x) * (2 ^ 62 mod y).
Proof.
  intros Hne Lr Lt Hx Hr Hth Hy Heta C1 C2 C3 Hn.
  destruct (truncate_ok r theta_r x y Hne Lr Lt Hx Hr Hth Hy) as (D & _ & E & B).
  apply eta_zero in Heta. rewrite Heta, C1, C2, C3 in E. replace (D - _) with D in E by ring.
  pose proof (wraps_of_bound x Hx) as WB. pose proof (open_a_in64 x) as X. unfold in64 in X.
  pose proof (Z.mod_pos_bound (2 ^ 62) y Hy) as MB.
  destruct (Z.eq_dec y 1) as [->|Hy1].
  - rewrite Z.mod_1_r in *. rewrite E. replace (Z.of_nat (length x) * (1 - 1) + 4 * Z.abs (wraps_of x) * 0) with 0 in * by ring.
    assert (D = open_a x) by lia. subst D. rewrite wrap_id by apply open_a_in64. lia.
  - rewrite E, wrap_id; [assumption|]. set (nn := Z.of_nat (length x)) in *. set (w := Z.abs (wraps_of x)) in *.
    set (rho := 2 ^ 62 mod y) in *.
    assert (Hw : 0 <= w) by (unfold w; lia). assert (Hnn : 0 <= nn) by (unfold nn; lia).
    assert (R : 4 * w * rho <= 4 * w * y) by nia.
    assert (y * Z.abs D <= Z.abs (open_a x) + nn * y + 4 * w * y) by (pose proof (Z.abs_triangle (y * D - open_a x) (open_a x)); replace (y * D - open_a x + open_a x) with (y * D) in * by ring; rewrite Z.abs_mul, (Z.abs_eq y) in * by lia; nia).
    assert (Z.abs (open_a x) <= H63) by (unfold H63 in *; lia).
    assert (Z.abs D < H63); [|unfold in64; lia].
    destruct (Z.lt_ge_cases (Z.abs D) H63) as [|G]; [assumption|exfalso].
    change (2 ^ 32) with 4294967296 in *. unfold H63 in *. nia.
Qed.

(** ** Local division *)
Lemma div_local_one x y : 0 < y -> in64 x -> open_a (div_local [x] y) = Z.quot x y.
Proof.
  intros Hy Hx. rewrite open_a_eq. cbn [div_local map zsum fold_right]. rewrite Z.add_0_r, tdiv_quot by assumption.
  apply wrap_id. now apply quot_in64.
Qed.

Lemma quot_sum_near a b y : 0 < y -> Z.abs (Z.quot a y + Z.quot b y - Z.quot (a + b) y) <= 1.
Proof.
  intros Hy. destruct (quot_bound a y Hy) as (ea & A1 & A2 & A3 & A4). destruct (quot_bound b y Hy) as (eb & B1 & B2 & B3 & B4).
  destruct (quot_bound (a + b) y Hy) as (ec & C1 & C2 & C3 & C4).
  set (qa := Z.quot a y) in *. set (qb := Z.quot b y) in *. set (qc := Z.quot (a + b) y) in *.
  assert (E : y * (qa + qb - qc) = ec - ea - eb) by lia.
  destruct (Z.le_gt_cases 0 a); destruct (Z.le_gt_cases 0 b); destruct (Z.le_gt_cases 0 (a + b)); nia.
Qed.

Lemma quot_half a y : 2 <= y -> in64 a -> - (H63 / 2) <= Z.quot a y < H63 / 2.
Proof.
  intros Hy Ha. unfold in64 in Ha. change (H63 / 2) with 4611686018427387904. unfold H63 in *.
  destruct (quot_bound a y ltac:(lia)) as (e & E1 & E2 & E3 & E4). set (q := Z.quot a y) in *. nia.
Qed.

Lemma div_local_two a b y : 0 < y -> in64 a -> in64 b ->
  let x := open_a [a; b] in let w := wraps_of [a; b] in
  Z.abs (open_a (div_local [a; b] y) - Z.quot (x + w * M64) y) <= 1 \/ y = 1.
Proof.
  intros Hy Ha Hb x w. destruct (Z.eq_dec y 1) as [|Hy1]; [now right|left].
  rewrite open_a_eq. cbn [div_local map zsum fold_right]. rewrite Z.add_0_r, !tdiv_quot by assumption.
  rewrite wrap_id. 2:{ pose proof (quot_half a y ltac:(lia) Ha). pose proof (quot_half b y ltac:(lia) Hb). unfold in64. change (H63/2) with 4611686018427387904 in *. unfold H63. lia. }
  pose proof (wraps_of_eq [a; b]) as E. rewrite <- open_a_eq in E. fold x w in E. rewrite <- E. cbn [zsum fold_right]. rewrite Z.add_0_r.
  now apply quot_sum_near.
Qed.

Lemma div_local_two_nowrap a b y : 0 < y -> in64 a -> in64 b -> in64 (a + b) ->
  Z.abs (open_a (div_local [a; b] y) - Z.quot (open_a [a; b]) y) <= 1.
Proof.
  intros Hy Ha Hb Hab. assert (E : open_a [a; b] = a + b) by (rewrite open_a_eq; cbn [zsum fold_right]; rewrite Z.add_0_r; now apply wrap_id).
  destruct (div_local_two a b y Hy Ha Hb) as [H|H]; cbv zeta in *.
  - rewrite (proj1 (eta_zero a b) Hab) in H. now rewrite Z.mul_0_l, Z.add_0_r in H.
  - subst y. rewrite Z.quot_1_r. replace (open_a (div_local [a; b] 1)) with (open_a [a; b]); [lia|].
    rewrite !open_a_eq. cbn [div_local map zsum fold_right]. rewrite !tdiv_quot, !Z.quot_1_r by (auto; lia). reflexivity.
Qed.

Lemma div_local_two_wrapped a b y : 2 <= y -> in64 a -> in64 b -> ~ in64 (a + b) ->
  exists w, (w = 1 \/ w = -1) /\ a + b = open_a [a; b] + w * M64 /\
  Z.abs (open_a (div_local [a; b] y) - Z.quot (open_a [a; b] + w * M64) y) <= 1.
Proof.
  intros Hy Ha Hb Hab. exists (wraps_of [a; b]).
  pose proof (wraps_of_eq [a; b]) as E. rewrite <- open_a_eq in E. cbn [zsum fold_right] in E. rewrite Z.add_0_r in E.
  pose proof (open_a_in64 [a; b]) as I. split; [|split; [assumption|]].
  - rewrite eta_zero in Hab. unfold in64, M64, H63 in *. lia.
  - destruct (div_local_two a b y ltac:(lia) Ha Hb) as [H|H]; [exact H|lia].
Qed.

(** ** Products *)
Lemma mul1_ok n a b c x y : (0 < n)%nat -> length a = n -> length b = n -> length c = n -> length x = n -> length y = n ->
  open_a c == open_a a * open_a b -> length (mul1 a b c x y) = n /\ open_a (mul1 a b c x y) = wmul (open_a x) (open_a y).
Proof.
  intros Hn La Lb Lc Lx Ly Hv. unfold mul1. set (eps := open_a (sub_priv x a)). set (del := open_a (sub_priv y b)).
  assert (L1 : length (add_priv c (mul_int eps b)) = n) by (unfold add_priv; rewrite zipw_length; rewrite ?mul_int_length; congruence).
  assert (L2 : length (add_priv (add_priv c (mul_int eps b)) (mul_int del a)) = n) by (unfold add_priv at 1; rewrite zipw_length; rewrite ?mul_int_length; congruence).
  split; [unfold add_pub; rewrite on_rank0_length; assumption|].
  rewrite open_a_eq. unfold wmul at 2. apply eqm_wrap_eq. rewrite zsum_add_pub by (eapply length_ne; eauto).
  unfold add_priv. rewrite zsum_zipw_wadd by (rewrite ?mul_int_length; unfold add_priv in L1; congruence).
  rewrite zsum_zipw_wadd by (rewrite ?mul_int_length; congruence). rewrite !zsum_mul_int, wmul_eqm.
  assert (E1 : eps == open_a x - open_a a) by (unfold eps; rewrite open_a_eqm, zsum_sub_priv by congruence; now rewrite <- !open_a_eqm).
  assert (E2 : del == open_a y - open_a b) by (unfold del; rewrite open_a_eqm, zsum_sub_priv by congruence; now rewrite <- !open_a_eqm).
  rewrite E1, E2, <- (open_a_eqm c), <- (open_a_eqm b), <- (open_a_eqm a), Hv. apply eqm_refl_eq; ring.
Qed.

Lemma mul1_in64 a b c x y : Forall in64 (mul1 a b c x y).
Proof.
  unfold mul1. set (l := add_priv _ (mul_int _ a)). assert (H : Forall in64 l) by apply zipw_Forall_wadd.
  destruct l; cbn; [constructor|]. inversion H; subst. constructor; [apply wadd_in64|assumption].
Qed.

(** Error of a fixed-point product in terms of numbers. *)
Lemma number_product s res x y E : 0 < s -> Z.abs (s * res - x * y) <= E ->
  (Qabs.Qabs (number res s - number x s * number y s) <= number E (s * s))%Q.
Proof.
  intros Hs H. pose proof (inject_Z_nz s Hs) as NZ.
  assert (Eq : (number res s - number x s * number y s == inject_Z (s * res - x * y) * / (inject_Z (s * s)))%Q).
  { unfold number, Z.sub. rewrite inject_Z_plus, inject_Z_opp, !inject_Z_mult. field. exact NZ. }
  rewrite Eq, Qabs.Qabs_Qmult. unfold number, Qdiv.
  rewrite (Qabs.Qabs_pos (/ inject_Z (s * s))). 2:{ apply Qinv_le_0_compat. change 0%Q with (inject_Z 0). rewrite <- Zle_Qle. nia. }
  apply Qmult_le_compat_r. 2:{ apply Qinv_le_0_compat. change 0%Q with (inject_Z 0). rewrite <- Zle_Qle. nia. }
  unfold Qabs.Qabs, inject_Z, Qle. cbn [Qnum Qden]. lia.
Qed.

Lemma number_product_scales sx sy res x y E : 0 < sx -> 0 < sy -> Z.abs (sx * res - x * y) <= E ->
  (Qabs.Qabs (number res sx - number x sx * number y sy * (inject_Z sy / inject_Z sx)) <= number E (sx * sx))%Q.
Proof.
  intros Hx Hy H. pose proof (inject_Z_nz sx Hx). pose proof (inject_Z_nz sy Hy).
  setoid_replace (number x sx * number y sy * (inject_Z sy / inject_Z sx))%Q with (number x sx * number y sx)%Q.
  - now apply number_product.
  - unfold number. field. split; assumption.
Qed.

Lemma quot_err v s : 0 < s -> Z.abs (s * Z.quot v s - v) <= s - 1.
Proof. intros Hs. destruct (quot_bound v s Hs) as (e & E1 & E2 & _). lia. Qed.

Section Products.
  Variables (n : nat) (a b c r th x y : list Z) (sx sy : Z).
  Hypothesis Hn : (0 < n)%nat.
  Hypotheses (La : length a = n) (Lb : length b = n) (Lc : length c = n) (Lx : length x = n) (Ly : length y = n).
  Hypothesis Hv : open_a c == open_a a * open_a b.
  Hypothesis Hfit : in64 (open_a x * open_a y).
  Let raw := mul1 a b c x y.

  Lemma raw_open : open_a raw = open_a x * open_a y.
  Proof. destruct (mul1_ok n a b c x y) as [_ E]; auto. unfold raw. rewrite E. now apply wrap_id. Qed.
  Lemma raw_len : length raw = n.
  Proof. destruct (mul1_ok n a b c x y) as [L _]; auto. Qed.


  (** One party. *)
  Lemma fixed_one : n = 1%nat -> 1 < sx -> 1 < sy ->
    exists res, mul_fixed a b c r th x y sx sy = (res, sx) /\ Z.abs (sx * open_a res - open_a x * open_a y) <= sx - 1.
  Proof.
    intros Hn1 H1 H2. unfold mul_fixed, mul_rescale. replace (1 <? sx) with true by (symmetry; apply Z.ltb_lt; lia).
    replace (1 <? sy) with true by (symmetry; apply Z.ltb_lt; lia). cbn [andb]. fold raw. eexists. split; [reflexivity|].
    unfold div_. pose proof raw_len as L. pose proof raw_open as O. pose proof (mul1_in64 a b c x y) as I. fold raw in I. destruct raw as [|p [|? ?]]; cbn [length] in L; try lia.
    cbn [length Z.of_nat Z.ltb Z.compare Pos.of_succ_nat Pos.compare Pos.compare_cont]. inversion I; subst. rewrite div_local_one by (auto; lia).
    assert (p = open_a x * open_a y) by (rewrite <- O, open_a_eq; cbn [zsum fold_right]; rewrite Z.add_0_r; symmetry; now apply wrap_id).
    rewrite <- H. apply quot_err. lia.
  Qed.

  (** Two parties, product shares do not wrap. *)
  Lemma fixed_two p0 p1 : raw = [p0; p1] -> in64 (p0 + p1) -> 1 < sx -> 1 < sy ->
    exists res, mul_fixed a b c r th x y sx sy = (res, sx) /\ Z.abs (sx * open_a res - open_a x * open_a y) <= 2 * sx - 1.
  Proof.
    intros Hraw Hw H1 H2. unfold mul_fixed, mul_rescale. replace (1 <? sx) with true by (symmetry; apply Z.ltb_lt; lia).
    replace (1 <? sy) with true by (symmetry; apply Z.ltb_lt; lia). cbn [andb]. fold raw. eexists. split; [reflexivity|].
    pose proof raw_open as O. pose proof (mul1_in64 a b c x y) as I. fold raw in I. rewrite Hraw in *.
    unfold div_. cbn [length Z.of_nat Z.ltb Z.compare Pos.of_succ_nat Pos.compare Pos.compare_cont Pos.succ]. inversion I as [|? ? I0 I1]; subst. inversion I1; subst.
    pose proof (div_local_two_nowrap p0 p1 sx ltac:(lia) I0 H3 Hw) as D. rewrite O in D.
    pose proof (quot_err (open_a x * open_a y) sx ltac:(lia)). nia.
  Qed.

  (** Three or more parties. *)
  Lemma fixed_many : (2 < n)%nat -> Z.of_nat n <= 2 ^ 32 -> length r = n -> length th = n -> Forall in64 r -> open_a th == count_wraps r ->
    in64 (open_a x * open_a y + open_a r) -> corners (zipw wadd raw r) = 0 -> pair_corners raw r = 0 -> corners r = 0 -> 1 < sx -> 1 < sy ->
    exists res, mul_fixed a b c r th x y sx sy = (res, sx) /\
      Z.abs (sx * open_a res - open_a x * open_a y) <= Z.of_nat n * (sx - 1) + 4 * Z.abs (wraps_of raw) * (2 ^ 62 mod sx).
  Proof.
    intros Hn3 Hbig Lr Lth Hr Hth Heta C1 C2 C3 H1 H2. unfold mul_fixed, mul_rescale. replace (1 <? sx) with true by (symmetry; apply Z.ltb_lt; lia).
    replace (1 <? sy) with true by (symmetry; apply Z.ltb_lt; lia). cbn [andb]. fold raw. eexists. split; [reflexivity|].
    unfold div_. rewrite raw_len. replace (2 <? Z.of_nat n) with true by (symmetry; apply Z.ltb_lt; lia).
    pose proof (truncate_close r th raw sx) as T. rewrite raw_open, raw_len in T. apply T; auto; try congruence; try lia.
    - eapply length_ne; [exact Hn|apply raw_len].
    - apply mul1_in64.
  Qed.

  (** One scale is 1: no division, exact. *)
  Lemma fixed_unit : sx = 1 \/ sy = 1 -> 1 <= sx -> 1 <= sy ->
    exists res, mul_fixed a b c r th x y sx sy = (res, sx * sy) /\ open_a res = open_a x * open_a y.
  Proof.
    intros Hs H1 H2. exists raw. split; [|apply raw_open]. unfold mul_fixed, mul_rescale. fold raw.
    destruct (1 <? sx) eqn:E1; destruct (1 <? sy) eqn:E2; cbn [andb]; rewrite ?Z.ltb_lt, ?Z.ltb_ge in *; f_equal; lia.
  Qed.
End Products.

(** ** Replicated *)
Lemma replicated_ok k x y T : shaped 3 k x -> (exists k', shaped 3 k' y) ->
  exists z, replicated T x y = Some z /\ reveal_arith z = bil T (reveal_arith x) (reveal_arith y).
Proof.
  intros Sx [k' Sy]. pose proof Sx as [Lx Fx]. pose proof Sy as [Ly Fy].
  destruct x as [|x0 [|x1 [|x2 [|]]]]; cbn [length] in Lx; try discriminate. destruct y as [|y0 [|y1 [|y2 [|]]]]; cbn [length] in Ly; try discriminate.
  eexists. split; [reflexivity|]. cbn [prev_of last removelast combine]. rewrite !zipw_cons. cbn [fst snd].
  match goal with |- reveal_arith ?z = _ => set (zz := z) end.
  assert (Sz : shaped 3 (length T) zz).
  { split; [reflexivity|]. unfold zz. repeat constructor; rewrite !zipw_length; rewrite ?zipw_length; rewrite ?bil_length; reflexivity. }
  apply list_eq_nth. { rewrite bil_length. apply reveal_arith_length; [discriminate|apply Sz]. }
  intros i Hi. rewrite (reveal_arith_length zz (length T)) in Hi by (discriminate || apply Sz). rewrite nth_bil by assumption.
  apply eqm_in64_eq; [|apply bil_row_in64|].
  { apply (reveal_in64 3 (length T)); [lia|assumption|]. unfold zz. repeat constructor; apply zipw_wadd_in64. }
  rewrite (reveal_nth 3 (length T)) by (auto; lia). unfold zz. cbn [col map zsum fold_right].
  assert (N : forall p q, nth i (bil T p q) 0 = bil_row (nth i T []) p q) by (intros; now apply nth_bil).
  change (zipw (fun x12 y12 => _) [] []) with (@nil (list Z)). cbn [map fold_right].
  rewrite !(nth_zipw wadd) by (rewrite ?zipw_length; rewrite ?bil_length; auto). rewrite !N. rewrite !wadd_eqm, !bil_row_eqm.
  set (row := nth i T []).
  assert (HX : forall j, at_ (reveal_arith [x0; x1; x2]) j == at_ x0 j + (at_ x1 j + at_ x2 j)).
  { intros j. unfold at_ at 1. rewrite (reveal_nth 3 k) by (auto; lia). cbn [col map zsum fold_right]. rewrite Z.add_0_r. reflexivity. }
  assert (HY : forall j, at_ (reveal_arith [y0; y1; y2]) j == at_ y0 j + (at_ y1 j + at_ y2 j)).
  { intros j. unfold at_ at 1. rewrite (reveal_nth 3 k') by (auto; lia). cbn [col map zsum fold_right]. rewrite Z.add_0_r. reflexivity. }
  rewrite (B_proper row (at_ (reveal_arith [x0; x1; x2])) (fun j => at_ x0 j + (at_ x1 j + at_ x2 j)) (at_ (reveal_arith [y0; y1; y2])) (fun j => at_ y0 j + (at_ y1 j + at_ y2 j))) by auto.
  rewrite ?B_add_l, ?B_add_r. rewrite ?B_add_l, ?B_add_r. apply eqm_refl_eq. ring.
Qed.

Lemma replicated_square_ok x0 x1 x2 : exists z, replicated_square [x0; x1; x2] = Some z /\ open_a z = wmul (open_a [x0; x1; x2]) (open_a [x0; x1; x2]).
Proof.
  eexists. split; [reflexivity|]. cbn [prev_of last removelast]. rewrite !zipw_cons. change (zipw _ [] []) with (@nil Z).
  match goal with |- _ = wmul ?u ?v => change (wmul u v) with (wrap (u * v)) end. rewrite open_a_eq. apply eqm_wrap_eq. rewrite !open_a_eqm. cbn [zsum fold_right]. rewrite !wadd_eqm, !wmul_eqm. apply eqm_refl_eq; ring.
Qed.

Lemma replicated_and_ok x0 x1 x2 y0 y1 y2 : exists z, replicated_and [x0; x1; x2] [y0; y1; y2] = Some z /\ open_b z = Z.land (open_b [x0; x1; x2]) (open_b [y0; y1; y2]).
Proof.
  eexists. split; [reflexivity|]. cbn [prev_of last removelast combine]. rewrite !zipw_cons. change (zipw _ [] []) with (@nil Z). cbn [fst snd].
  rewrite !open_b_eq. unfold zxor. cbn [fold_right]. apply Z.bits_inj'. intros i Hi. rewrite ?Z.lxor_spec, ?Z.land_spec, ?Z.lxor_spec, ?Z.land_spec, ?Z.bits_0.
  destruct (Z.testbit x0 i), (Z.testbit x1 i), (Z.testbit x2 i), (Z.testbit y0 i), (Z.testbit y1 i), (Z.testbit y2 i); reflexivity.
Qed.

(** Two shares that never meet: parties 0 and 2 of four or more. *)
Lemma last_repeat (a : Z) m d : last (repeat a (S m)) d = a.
Proof. induction m; [reflexivity|]. cbn [repeat] in *. cbn [last] in *. exact IHm. Qed.
Lemma removelast_repeat (a : Z) m : removelast (repeat a (S m)) = repeat a m.
Proof. induction m; [reflexivity|]. cbn [repeat] in *. cbn [removelast]. f_equal. exact IHm. Qed.

Lemma replicated_four_wrong m : let x := 1 :: 0 :: repeat 0 (S (S m)) in let y := 0 :: 0 :: 1 :: repeat 0 (S m) in
  exists z, replicated [[(0%nat, 0%nat)]] (map (fun s => [s]) x) (map (fun s => [s]) y) = Some z /\
   reveal_arith z = [0] /\ open_a x = 1 /\ open_a y = 1.
Proof.
  intros x y.
  assert (Px : prev_of (map (fun s => [s]) x) = map (fun s => [s]) (0 :: 1 :: 0 :: repeat 0 (S m))).
  { unfold x. cbn [map]. unfold prev_of. f_equal.
    - change ([0]) with ((fun s : Z => [s]) 0). change (repeat 0 (S (S m))) with (0 :: repeat 0 (S m)). clear.
      induction m; [reflexivity|]. cbn [repeat map last] in *. exact IHm.
    - cbn [repeat map]. clear. change (removelast ([1] :: [0] :: [0] :: [0] :: map (fun s => [s]) (repeat 0 m))) with ([1] :: [0] :: removelast ([0] :: [0] :: map (fun s => [s]) (repeat 0 m))).
      do 2 f_equal. induction m; [reflexivity|]. cbn [repeat map]. change (removelast ([0] :: [0] :: [0] :: map (fun s => [s]) (repeat 0 m))) with ([0] :: removelast ([0] :: [0] :: map (fun s => [s]) (repeat 0 m))). rewrite IHm. reflexivity. }
  assert (Py : prev_of (map (fun s => [s]) y) = map (fun s => [s]) (0 :: 0 :: 0 :: 1 :: repeat 0 m)).
  { unfold y. cbn [map repeat]. unfold prev_of. f_equal.
    - clear. induction m; [reflexivity|]. cbn [repeat map last] in *. exact IHm.
    - change (removelast ([0] :: [0] :: [1] :: [0] :: map (fun s => [s]) (repeat 0 m))) with ([0] :: [0] :: [1] :: removelast ([0] :: map (fun s => [s]) (repeat 0 m))).
      do 3 f_equal. clear. induction m; [reflexivity|]. cbn [repeat map]. change (removelast ([0] :: [0] :: map (fun s => [s]) (repeat 0 m))) with ([0] :: removelast ([0] :: map (fun s => [s]) (repeat 0 m))). rewrite IHm. reflexivity. }
  unfold replicated. rewrite Px, Py. replace (Nat.ltb (length (map (fun s => [s]) x)) 3) with false by (symmetry; apply Nat.ltb_ge; rewrite map_length; cbn; lia).
  eexists. split; [reflexivity|]. unfold x, y. cbn [repeat map combine]. rewrite !zipw_cons.
  assert (R : forall k, zipw (fun x12 y12 : list Z * list Z => zipw wadd (zipw wadd (bil [[(0%nat, 0%nat)]] (fst x12) (fst y12)) (bil [[(0%nat, 0%nat)]] (fst x12) (snd y12))) (bil [[(0%nat, 0%nat)]] (snd x12) (fst y12)))
     (combine (map (fun s => [s]) (repeat 0 k)) (map (fun s => [s]) (repeat 0 k))) (combine (map (fun s => [s]) (repeat 0 k)) (map (fun s => [s]) (repeat 0 k))) = repeat [0] k).
  { induction k; [reflexivity|]. cbn [repeat map combine]. rewrite zipw_cons, IHk. reflexivity. }
  split; [|split].
  - rewrite R. clear. unfold reveal_arith. cbn [fst snd fold_left].
    assert (Z0 : zipw wadd [0] [0] = [0]) by reflexivity.
    assert (B0 : bil [[(0%nat, 0%nat)]] [0] [0] = [0]) by reflexivity.
    assert (B1 : bil [[(0%nat, 0%nat)]] [1] [0] = [0]) by reflexivity.
    assert (B2 : bil [[(0%nat, 0%nat)]] [0] [1] = [0]) by reflexivity.
    rewrite ?B0, ?B1, ?B2, ?Z0. rewrite ?Z0. induction m; [reflexivity|]. cbn [repeat fold_left]. rewrite Z0. exact IHm.
  - rewrite open_a_eq. rewrite !zsum_cons. replace (zsum (repeat 0 m)) with 0; [reflexivity|]. clear. induction m; cbn; auto.
  - rewrite open_a_eq. rewrite !zsum_cons. replace (zsum (repeat 0 m)) with 0; [reflexivity|]. clear. induction m; cbn; auto.
Qed.

Lemma replicated_truncate_ok z x0 x1 x2 y : length z = 3%nat -> zsum z == 0 -> 0 < y -> in64 x0 -> in64 x1 -> in64 x2 ->
  in64 (x0 + wadd x1 x2) ->
  exists res, replicated_truncate z [x0; x1; x2] y = Some res /\ Z.abs (open_a res - Z.quot (open_a [x0; x1; x2]) y) <= 1.
Proof.
  intros Lz Hz Hy H0 H1 H2 Hw. eexists. split; [reflexivity|].
  assert (E : open_a (zipw wadd [tdiv x0 y; tdiv (wadd x1 x2) y; wsub x2 x2] z) = open_a (div_local [x0; wadd x1 x2] y)).
  { rewrite !open_a_eq. apply eqm_wrap_eq. rewrite zsum_zipw_wadd by (symmetry; exact Lz). rewrite Hz.
    cbn [div_local map zsum fold_right]. rewrite wsub_eqm. apply eqm_refl_eq; ring. }
  rewrite E. assert (E2 : open_a [x0; x1; x2] = open_a [x0; wadd x1 x2]).
  { rewrite !open_a_eq. apply eqm_wrap_eq. cbn [zsum fold_right]. rewrite wadd_eqm. apply eqm_refl_eq; ring. }
  rewrite E2. apply div_local_two_nowrap; auto using wadd_in64.
Qed.

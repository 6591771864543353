Require Import ZArith List Lia QArith.
From Verif Require Import Ring64 Arith.
Import ListNotations.
Open Scope Z_scope.

Lemma fold_wadd_open l a : fold_left wadd l a == a + zsum l.
Proof.
  revert a. induction l as [|b l IH]; intros a; cbn [fold_left]; [rewrite Z.add_0_r; reflexivity|].
  rewrite IH, wadd_eqm, zsum_cons. apply eqm_refl_eq; ring.
Qed.
Lemma fold_wadd_open64 l a : in64 a -> in64 (fold_left wadd l a).
Proof. revert a. induction l as [|b l IH]; intros a Ha; cbn; [assumption|]. apply IH, wadd_in64. Qed.

Lemma open_a_eq sh : open_a sh = wrap (zsum sh).
Proof. symmetry. apply wrap_unique; [apply fold_wadd_open64, in64_0|]. unfold open_a. rewrite fold_wadd_open. reflexivity. Qed.
Lemma open_a_eqm sh : open_a sh == zsum sh.
Proof. rewrite open_a_eq. apply wrap_eqm. Qed.
Lemma open_a_in64 sh : in64 (open_a sh).
Proof. rewrite open_a_eq. apply wrap_in64. Qed.
Lemma fold_lxor_open l a : fold_left Z.lxor l a = Z.lxor a (zxor l).
Proof.
  revert a. induction l as [|b l IH]; intros a; cbn [fold_left]; [symmetry; apply Z.lxor_0_r|].
  rewrite IH, zxor_cons. apply Z.lxor_assoc.
Qed.
Lemma open_b_eq sh : open_b sh = zxor sh.
Proof. unfold open_b. rewrite fold_lxor_open. apply Z.lxor_0_l. Qed.

Lemma on_rank0_length f x : length (on_rank0 f x) = length x.
Proof. now destruct x. Qed.

Lemma zsum_add_pub k x : x <> [] -> zsum (add_pub k x) == zsum x + k.
Proof. destruct x as [|a r]; [congruence|]. intros _. cbn [add_pub on_rank0]. rewrite !zsum_cons, wadd_eqm. apply eqm_refl_eq; ring. Qed.
Lemma zsum_sub_pub k x : x <> [] -> zsum (sub_pub k x) == zsum x - k.
Proof. destruct x as [|a r]; [congruence|]. intros _. cbn [sub_pub on_rank0]. rewrite !zsum_cons, wsub_eqm. apply eqm_refl_eq; ring. Qed.
Lemma zsum_mul_int k x : zsum (mul_int k x) == zsum x * k.
Proof. induction x as [|a r IH]; [reflexivity|]. cbn [mul_int map]. rewrite !zsum_cons. unfold mul_int in IH. rewrite IH, wmul_eqm. apply eqm_refl_eq; ring. Qed.
Lemma zsum_neg x : zsum (neg x) == - zsum x.
Proof. induction x as [|a r IH]; [reflexivity|]. cbn [neg map]. rewrite !zsum_cons. unfold neg in IH. rewrite IH, wneg_eqm. apply eqm_refl_eq; ring. Qed.
Lemma mul_int_length k x : length (mul_int k x) = length x. Proof. apply map_length. Qed.
Lemma neg_length x : length (neg x) = length x. Proof. apply map_length. Qed.

(** ** Linear programs *)
Fixpoint eval_spec (env : nat -> Z) (e : lin) : Z :=
  match e with
  | LIn i => env i
  | LAdd a b => eval_spec env a + eval_spec env b
  | LSub a b => eval_spec env a - eval_spec env b
  | LAddPub a k => eval_spec env a + k
  | LSubPub a k => eval_spec env a - k
  | LRsubPub k a => k - eval_spec env a
  | LNeg a => - eval_spec env a
  | LMulInt a k => eval_spec env a * k
  end.

Lemma length_ne {A} n (x : list A) : (0 < n)%nat -> length x = n -> x <> [].
Proof. destruct x; cbn; [lia|congruence]. Qed.

Lemma eval_sh_ok n env e : (0 < n)%nat -> (forall i, length (env i) = n) ->
  length (eval_sh env e) = n /\ zsum (eval_sh env e) == eval_spec (fun i => open_a (env i)) e.
Proof.
  intros Hn Henv. induction e; cbn [eval_sh eval_spec].
  - split; [apply Henv|]. rewrite open_a_eqm. reflexivity.
  - destruct IHe1 as [L1 E1], IHe2 as [L2 E2]. unfold add_priv. split; [rewrite zipw_length; congruence|].
    rewrite zsum_zipw_wadd by congruence. now rewrite E1, E2.
  - destruct IHe1 as [L1 E1], IHe2 as [L2 E2]. unfold sub_priv. split; [rewrite zipw_length; congruence|].
    rewrite zsum_zipw_wsub by congruence. now rewrite E1, E2.
  - destruct IHe as [L E]. unfold add_pub at 1. split; [now rewrite on_rank0_length|].
    rewrite zsum_add_pub by (eapply length_ne; eauto). now rewrite E.
  - destruct IHe as [L E]. unfold sub_pub at 1. split; [now rewrite on_rank0_length|].
    rewrite zsum_sub_pub by (eapply length_ne; eauto). now rewrite E.
  - destruct IHe as [L E]. unfold rsub_pub, add_pub at 1. split; [now rewrite on_rank0_length, neg_length|].
    rewrite zsum_add_pub by (eapply length_ne; [eassumption|rewrite neg_length; assumption]). rewrite zsum_neg, E. apply eqm_refl_eq; ring.
  - destruct IHe as [L E]. split; [now rewrite neg_length|]. now rewrite zsum_neg, E.
  - destruct IHe as [L E]. split; [now rewrite mul_int_length|]. now rewrite zsum_mul_int, E.
Qed.

Lemma eval_open n env e : (0 < n)%nat -> (forall i, length (env i) = n) ->
  open_a (eval_sh env e) = wrap (eval_spec (fun i => open_a (env i)) e).
Proof. intros Hn He. rewrite open_a_eq. destruct (eval_sh_ok n env e Hn He) as [_ H]. now rewrite H. Qed.

Lemma sum_list_ok n xs : Forall (fun x => length x = n) xs -> length (sum_list n xs) = n /\ zsum (sum_list n xs) == zsum (map open_a xs).
Proof.
  intros H. unfold sum_list.
  assert (G : forall acc, length acc = n -> length (fold_left (zipw wadd) xs acc) = n /\ zsum (fold_left (zipw wadd) xs acc) == zsum acc + zsum (map open_a xs)).
  { induction H as [|x xs Hx Hxs IH]; intros acc Ha; cbn [fold_left map].
    - split; [assumption|]. cbn. rewrite Z.add_0_r. reflexivity.
    - destruct (IH (zipw wadd acc x)) as [L E]; [rewrite zipw_length; congruence|]. split; [assumption|].
      rewrite E, zsum_zipw_wadd, zsum_cons, open_a_eqm by congruence. apply eqm_refl_eq; ring. }
  destruct (G (repeat 0 n)) as [L E]; [apply repeat_length|]. split; [assumption|]. rewrite E.
  replace (zsum (repeat 0 n)) with 0; [reflexivity|]. clear. induction n; cbn; auto.
Qed.

(** ** Linear tables *)
Definition lin_spec_row (row : list (nat * Z)) (x : list Z) : Z := zsum (map (fun p => snd p * nth (fst p) x 0) row).

Lemma lin_row_eqm row x : lin_row row x == lin_spec_row row x.
Proof.
  unfold lin_row, lin_spec_row. assert (G : forall acc, fold_left (fun acc p => wadd acc (wmul (snd p) (nth (fst p) x 0))) row acc == acc + zsum (map (fun p => snd p * nth (fst p) x 0) row)).
  { induction row as [|p row IH]; intros acc; cbn [fold_left map]; [cbn; rewrite Z.add_0_r; reflexivity|].
    rewrite IH, wadd_eqm, wmul_eqm, zsum_cons. apply eqm_refl_eq; ring. }
  rewrite G. reflexivity.
Qed.

Lemma zsum_map_add {A} (f g : A -> Z) l : zsum (map (fun a => f a + g a) l) = zsum (map f l) + zsum (map g l).
Proof. induction l as [|a l IH]; cbn [map]; [reflexivity|]. rewrite !zsum_cons, IH. ring. Qed.
Lemma zsum_swap {A B} (f : A -> B -> Z) l m : zsum (map (fun a => zsum (map (f a) m)) l) = zsum (map (fun b => zsum (map (fun a => f a b) l)) m).
Proof.
  induction l as [|a l IH]; cbn [map].
  - induction m as [|b m IHm]; cbn [map]; [reflexivity|]. rewrite zsum_cons, <- IHm. reflexivity.
  - rewrite zsum_cons, IH, <- zsum_map_add. f_equal.
Qed.

Lemma lin_op_open T sh (k : nat) : (k < length T)%nat ->
  wrap (zsum (map (fun t => nth k t 0) (lin_op_sh T sh))) =
  wrap (zsum (map (fun p => snd p * open_a (map (fun t => nth (fst p) t 0) sh)) (nth k T []))).
Proof.
  intros Hk. unfold lin_op_sh. rewrite map_map. apply eqm_wrap_eq.
  transitivity (zsum (map (fun t => lin_spec_row (nth k T []) t) sh)).
  - apply zsum_map_eqm. intros t _. unfold lin_op.
    rewrite (nth_indep _ 0 (lin_row [] t)) by (now rewrite map_length).
    rewrite (map_nth (fun row => lin_row row t)). apply lin_row_eqm.
  - unfold lin_spec_row. rewrite zsum_swap. apply zsum_map_eqm. intros p _.
    rewrite open_a_eqm, <- zsum_map_mul, map_map. reflexivity.
Qed.

(** ** Mixed precision *)
Lemma memb_In c l : memb c l = true <-> In c l.
Proof. unfold memb. rewrite existsb_exists. split; [intros (x & H & E); apply Nat.eqb_eq in E; now subst|intros H; exists c; split; [assumption|apply Nat.eqb_refl]]. Qed.

Lemma open_mul_int k x : open_a (mul_int k x) = wrap (open_a x * k).
Proof. rewrite open_a_eq. apply eqm_wrap_eq. rewrite zsum_mul_int, open_a_eqm. reflexivity. Qed.

Lemma open_zip (op : Z -> Z -> Z) (rop : Z -> Z -> Z) x y :
  (forall l m, length l = length m -> zsum (zipw op l m) == rop (zsum l) (zsum m)) ->
  (forall a b c d, a == b -> c == d -> rop a c == rop b d) ->
  length x = length y -> open_a (zipw op x y) = wrap (rop (open_a x) (open_a y)).
Proof. intros H1 H2 HL. rewrite open_a_eq. apply eqm_wrap_eq. rewrite H1 by assumption. apply H2; symmetry; apply open_a_eqm. Qed.

Lemma nth_zipw_l {A B C} (f : A -> B -> C) l m k da db dc : length l = length m -> (k < length l)%nat ->
  nth k (zipw f l m) dc = f (nth k l da) (nth k m db).
Proof.
  revert m k. induction l as [|a l IH]; intros [|b m] k HL Hk; cbn [length] in *; try lia.
  rewrite zipw_cons. destruct k; [reflexivity|]. cbn [nth]. apply IH; lia.
Qed.

Section Scaled.
  Variables (op rop : Z -> Z -> Z).
  Hypothesis Hop : forall l m, length l = length m -> zsum (zipw op l m) == rop (zsum l) (zsum m).
  Hypothesis Hprop : forall a b c d, a == b -> c == d -> rop a c == rop b d.

  Lemma open_nth_read s o k : (k < length (o_cells (s_obj s o)))%nat ->
    nth k (read s o) [] = s_store s (nth k (o_cells (s_obj s o)) 0%nat).
  Proof.
    intros Hk. unfold read. rewrite (nth_indep _ [] (s_store s 0%nat)) by (now rewrite map_length).
    now rewrite map_nth.
  Qed.

  Lemma encode_up_read s o ns : 0 < ns -> read (encode_up s o ns) o = map (mul_int (ns / o_scale (s_obj s o))) (read s o).
  Proof.
    intros _. unfold read, encode_up, set_obj. cbn [s_obj s_store o_cells]. rewrite Nat.eqb_refl. cbn [o_cells].
    rewrite map_map. apply map_ext_in. intros c Hc.
    replace (memb c (o_cells (s_obj s o))) with true by (symmetry; now apply memb_In). reflexivity.
  Qed.

  Variable n : nat.
  Lemma add_scaled_value s x y k :
    (forall c, length (s_store s c) = n) ->
    length (o_cells (s_obj s x)) = length (o_cells (s_obj s y)) -> (k < length (o_cells (s_obj s x)))%nat ->
    0 < o_scale (s_obj s x) -> 0 < o_scale (s_obj s y) ->
    let '((res, sc), s') := add_scaled op s x y in
    let S := Z.max (o_scale (s_obj s x)) (o_scale (s_obj s y)) in
    sc = S /\ length (nth k res []) = n /\
    open_a (nth k res []) = wrap (rop (open_a (nth k (read s x) []) * (S / o_scale (s_obj s x)))
                                      (open_a (nth k (read s y) []) * (S / o_scale (s_obj s y)))).
  Proof.
    intros Hn HL Hk Hx Hy. unfold add_scaled.
    assert (Lr : forall o, length (read s o) = length (o_cells (s_obj s o))) by (intros; apply map_length).
    assert (Ln : forall o k, (k < length (o_cells (s_obj s o)))%nat -> length (nth k (read s o) []) = n)
      by (intros; rewrite open_nth_read by assumption; apply Hn).
    assert (M0 : forall f l k, nth k (map (mul_int f) l) [] = mul_int f (nth k l [])).
    { intros f l k'. change (@nil Z) with (mul_int f []) at 1. apply map_nth. }
    destruct (o_scale (s_obj s y) <? o_scale (s_obj s x)) eqn:E1; [apply Z.ltb_lt in E1|apply Z.ltb_ge in E1].
    - rewrite encode_up_read by assumption. rewrite Z.max_l by lia. split; [reflexivity|].
      rewrite (nth_zipw_l _ _ _ _ [] []) by (rewrite ?map_length, ?Lr; lia). rewrite M0. split.
      { rewrite zipw_length; rewrite ?mul_int_length, !Ln by lia; reflexivity. }
      rewrite (open_zip op rop) by (auto; rewrite mul_int_length, !Ln by lia; reflexivity).
      rewrite open_mul_int, Z.div_same, Z.mul_1_r by lia. apply eqm_wrap_eq, Hprop; [reflexivity|apply wrap_eqm].
    - destruct (o_scale (s_obj s x) <? o_scale (s_obj s y)) eqn:E2; [apply Z.ltb_lt in E2|apply Z.ltb_ge in E2].
      + rewrite Z.max_r by lia. split; [reflexivity|].
        rewrite (nth_zipw_l _ _ _ _ [] []) by (rewrite ?map_length, ?Lr; lia). rewrite M0. split.
        { rewrite zipw_length; rewrite ?mul_int_length, !Ln by lia; reflexivity. }
        rewrite (open_zip op rop) by (auto; rewrite mul_int_length, !Ln by lia; reflexivity).
        rewrite open_mul_int, Z.div_same, Z.mul_1_r by lia. apply eqm_wrap_eq, Hprop; [apply wrap_eqm|reflexivity].
      + assert (E : o_scale (s_obj s x) = o_scale (s_obj s y)) by lia. rewrite <- E, Z.max_id. split; [reflexivity|].
        rewrite (nth_zipw_l _ _ _ _ [] []) by (rewrite ?Lr; lia). split.
        { rewrite zipw_length; rewrite !Ln by lia; reflexivity. }
        rewrite (open_zip op rop) by (auto; rewrite !Ln by lia; reflexivity).
        now rewrite Z.div_same, !Z.mul_1_r by lia.
  Qed.

  (** What happens to the objects in memory. *)
  Lemma add_scaled_state s x y : 0 < o_scale (s_obj s x) -> 0 < o_scale (s_obj s y) ->
    let s' := snd (add_scaled op s x y) in
    let sx := o_scale (s_obj s x) in let sy := o_scale (s_obj s y) in
    (forall z, o_cells (s_obj s' z) = o_cells (s_obj s z)) /\
    (forall z, o_scale (s_obj s' z) = if Nat.eqb z y then Z.max sx sy else o_scale (s_obj s z)) /\
    (forall c, open_a (s_store s' c) = if (sy <? sx) && memb c (o_cells (s_obj s y))
                                       then wrap (open_a (s_store s c) * (sx / sy)) else open_a (s_store s c)).
  Proof.
    intros Hx Hy s' sx sy. subst s'. unfold add_scaled. fold sx sy.
    destruct (sy <? sx) eqn:E1; cbn [snd andb].
    - apply Z.ltb_lt in E1. unfold encode_up, set_obj; cbn [s_obj s_store]. repeat split; intros.
      + destruct (Nat.eqb z y) eqn:E; [apply Nat.eqb_eq in E; subst|]; reflexivity.
      + destruct (Nat.eqb z y); [cbn; lia|reflexivity].
      + fold sy. destruct (memb c _); [apply open_mul_int|reflexivity].
    - apply Z.ltb_ge in E1. destruct (sx <? sy) eqn:E2; cbn [snd]; repeat split; intros;
        (destruct (Nat.eqb z y) eqn:E; [apply Nat.eqb_eq in E; subst z|]; try reflexivity); fold sy; lia.
  Qed.
End Scaled.

(** The number an encoded value stands for. *)
Definition number (v scale : Z) : Q := (inject_Z v / inject_Z scale)%Q.

Lemma inject_Z_nz s : 0 < s -> ~ (inject_Z s == 0)%Q.
Proof. intros H E. unfold Qeq in E. cbn in E. lia. Qed.

Lemma number_rescale v s f : 0 < s -> 0 < f -> (number (v * f) (s * f) == number v s)%Q.
Proof.
  intros Hs Hf. unfold number. rewrite !inject_Z_mult. field. split; apply inject_Z_nz; assumption.
Qed.

Lemma pow2_divide p q : 0 <= p <= q -> 2 ^ q = 2 ^ p * (2 ^ q / 2 ^ p) /\ 0 < 2 ^ q / 2 ^ p.
Proof.
  intros H. rewrite <- Z.pow_sub_r by lia. split; [|apply Z.pow_pos_nonneg; lia].
  rewrite <- Z.pow_add_r by lia. f_equal. lia.
Qed.

Lemma pow2_max p q : 0 <= p -> 0 <= q -> let S := Z.max (2 ^ p) (2 ^ q) in
  0 < S /\ S = 2 ^ p * (S / 2 ^ p) /\ S = 2 ^ q * (S / 2 ^ q) /\ 0 < S / 2 ^ p /\ 0 < S / 2 ^ q.
Proof.
  intros Hp Hq S. assert (Pp : 0 < 2 ^ p) by (apply Z.pow_pos_nonneg; lia). assert (Pq : 0 < 2 ^ q) by (apply Z.pow_pos_nonneg; lia).
  destruct (Z.le_ge_cases p q) as [H|H].
  - assert (2 ^ p <= 2 ^ q) by (apply Z.pow_le_mono_r; lia). subst S. rewrite Z.max_r by lia.
    destruct (pow2_divide p q); [lia|]. rewrite Z.div_same by lia. repeat split; try assumption; lia.
  - assert (2 ^ q <= 2 ^ p) by (apply Z.pow_le_mono_r; lia). subst S. rewrite Z.max_l by lia.
    destruct (pow2_divide q p); [lia|]. rewrite Z.div_same by lia. repeat split; try assumption; lia.
Qed.

Lemma number_scaled_add sx sy S fx fy vx vy : 0 < sx -> 0 < sy -> 0 < fx -> 0 < fy -> S = sx * fx -> S = sy * fy ->
  (number (vx * fx + vy * fy) S == number vx sx + number vy sy)%Q /\ (number (vx * fx - vy * fy) S == number vx sx - number vy sy)%Q.
Proof.
  intros Hx Hy Hfx Hfy E1 E2.
  pose proof (number_rescale vx sx fx Hx Hfx) as H1. pose proof (number_rescale vy sy fy Hy Hfy) as H2.
  rewrite <- E1 in H1. rewrite <- E2 in H2. rewrite <- H1, <- H2. unfold number, Qdiv, Z.sub.
  rewrite !inject_Z_plus, inject_Z_opp. split; ring.
Qed.

Lemma add_scaled_number p q (op : Z -> Z -> Z) (sg : Z) s x y k n :
  (sg = 1 /\ op = wadd) \/ (sg = -1 /\ op = wsub) ->
  0 <= p -> 0 <= q -> o_scale (s_obj s x) = 2 ^ p -> o_scale (s_obj s y) = 2 ^ q ->
  (forall c, length (s_store s c) = n) ->
  length (o_cells (s_obj s x)) = length (o_cells (s_obj s y)) -> (k < length (o_cells (s_obj s x)))%nat ->
  let S := Z.max (2 ^ p) (2 ^ q) in
  let vx := open_a (nth k (read s x) []) in let vy := open_a (nth k (read s y) []) in
  in64 (vx * (S / 2 ^ p) + sg * (vy * (S / 2 ^ q))) ->
  let '((res, sc), _) := add_scaled op s x y in
  (number (open_a (nth k res [])) sc == number vx (2 ^ p) + inject_Z sg * number vy (2 ^ q))%Q.
Proof.
  intros Hop Hp Hq Ex Ey Hn HL Hk S vx vy Hfit.
  assert (Pp : 0 < 2 ^ p) by (apply Z.pow_pos_nonneg; lia). assert (Pq : 0 < 2 ^ q) by (apply Z.pow_pos_nonneg; lia).
  destruct (pow2_max p q Hp Hq) as (HS & D1 & D2 & F1 & F2). fold S in HS, D1, D2, F1, F2.
  pose proof (add_scaled_value op (fun a b => a + sg * b)) as V.
  specialize (V ltac:(destruct Hop as [[-> ->]|[-> ->]]; intros; [rewrite zsum_zipw_wadd by assumption|rewrite zsum_zipw_wsub by assumption]; apply eqm_refl_eq; ring)).
  specialize (V ltac:(intros a b c d H1 H2; cbv beta; rewrite H1, H2; reflexivity) n s x y k Hn HL Hk ltac:(lia) ltac:(lia)).
  destruct (add_scaled op s x y) as [[res sc] s'] eqn:E. cbn zeta in V. rewrite Ex, Ey in V. fold S in V. destruct V as (-> & _ & ->).
  fold vx vy. rewrite wrap_id by assumption.
  destruct (number_scaled_add (2 ^ p) (2 ^ q) S _ _ vx vy Pp Pq F1 F2 D1 D2) as [A B].
  destruct Hop as [[-> _]|[-> _]].
  - rewrite Z.mul_1_l, A. change (inject_Z 1) with 1%Q. ring.
  - replace (vx * (S / 2 ^ p) + -1 * (vy * (S / 2 ^ q))) with (vx * (S / 2 ^ p) - vy * (S / 2 ^ q)) by ring. rewrite B.
    change (inject_Z (-1)) with (- (1))%Q. ring.
Qed.

Lemma operand_kept p q (op : Z -> Z -> Z) s x y c :
  0 <= p -> 0 <= q -> o_scale (s_obj s x) = 2 ^ p -> o_scale (s_obj s y) = 2 ^ q ->
  In c (o_cells (s_obj s y)) -> in64 (open_a (s_store s c) * (Z.max (2 ^ p) (2 ^ q) / 2 ^ q)) ->
  let s' := snd (add_scaled op s x y) in
  (number (open_a (s_store s' c)) (o_scale (s_obj s' y)) == number (open_a (s_store s c)) (2 ^ q))%Q.
Proof.
  intros Hp Hq Ex Ey Hc Hfit.
  assert (Pp : 0 < 2 ^ p) by (apply Z.pow_pos_nonneg; lia). assert (Pq : 0 < 2 ^ q) by (apply Z.pow_pos_nonneg; lia).
  destruct (pow2_max p q Hp Hq) as (HS & D1 & D2 & F1 & F2).
  destruct (add_scaled_state op s x y ltac:(lia) ltac:(lia)) as (A & B & C). cbv zeta. cbv zeta in A, B, C. rewrite B, C, Nat.eqb_refl, Ex, Ey.
  replace (memb c (o_cells (s_obj s y))) with true by (symmetry; now apply memb_In). rewrite Bool.andb_true_r.
  destruct (2 ^ q <? 2 ^ p) eqn:E.
  - apply Z.ltb_lt in E. rewrite Z.max_l in * by lia. rewrite wrap_id by assumption. set (f := 2 ^ p / 2 ^ q) in *. rewrite D2. apply number_rescale; assumption.
  - apply Z.ltb_ge in E. rewrite Z.max_r by lia. reflexivity.
Qed.

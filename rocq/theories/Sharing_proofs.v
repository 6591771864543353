Require Import ZArith List Lia.
From Verif Require Import Ring64 Sharing.
Import ListNotations.
Open Scope Z_scope.

Definition rot1 {A} (l : list A) : list A := match l with [] => [] | a :: r => r ++ [a] end.

Lemma rot1_length {A} (l : list A) : length (rot1 l) = length l.
Proof. destruct l; cbn; [reflexivity|]. rewrite app_length; cbn; lia. Qed.

Lemma rot1_map {A B} (f : A -> B) l : map f (rot1 l) = rot1 (map f l).
Proof. destruct l; cbn; [reflexivity|]. now rewrite map_app. Qed.

Lemma zsum_rot1 l : zsum (rot1 l) = zsum l.
Proof. destruct l; cbn [rot1]; [reflexivity|]. rewrite zsum_app, !zsum_cons. cbn; ring. Qed.
Lemma zxor_rot1 l : zxor (rot1 l) = zxor l.
Proof. destruct l; cbn [rot1]; [reflexivity|]. rewrite zxor_app, !zxor_cons. cbn [zxor fold_right]. rewrite Z.lxor_0_r. apply Z.lxor_comm. Qed.

(** ** Seeds *)
Lemma prev_rank_spec n r : 1 <= n -> 0 <= r < n -> prev_rank n r = (r - 1) mod n.
Proof.
  intros. unfold prev_rank, next_rank. rewrite Zminus_mod_idemp_l. f_equal. ring.
Qed.

Lemma next_prev n r : 1 <= n -> 0 <= r < n -> next_rank n (prev_rank n r) = r.
Proof.
  intros. rewrite prev_rank_spec by lia. unfold next_rank.
  rewrite Zplus_mod_idemp_l. replace (r - 1 + 1) with r by ring. apply Z.mod_small; lia.
Qed.

Lemma recv_prev_seed_spec ns r : (r < length ns)%nat ->
  recv_prev_seed ns r = nth_error ns ((r + length ns - 1) mod length ns).
Proof.
  intros Hr. unfold recv_prev_seed. set (n := length ns) in *.
  destruct (Z.of_nat n <? 2) eqn:E.
  - apply Z.ltb_lt in E. assert (n = 1)%nat by lia. assert (r = 0)%nat by lia. subst r.
    rewrite H. reflexivity.
  - apply Z.ltb_ge in E. rewrite next_prev by lia. rewrite Z.eqb_refl.
    f_equal. rewrite prev_rank_spec by lia.
    replace ((Z.of_nat r - 1) mod Z.of_nat n) with ((Z.of_nat (r + n - 1)) mod Z.of_nat n).
    + rewrite <- Nat2Z.inj_mod. apply Nat2Z.id.
    + replace (Z.of_nat (r + n - 1)) with (Z.of_nat r - 1 + 1 * Z.of_nat n) by lia.
      now rewrite Z.mod_add by lia.
Qed.

Lemma all_some_spec {A} (l : list (option A)) r : all_some l = Some r <-> l = map Some r.
Proof.
  revert r. induction l as [|[a|] l IH]; intros r; cbn.
  - destruct r; cbn; split; congruence.
  - destruct (all_some l) as [m|] eqn:E; cbn.
    + split.
      * intros [= <-]. cbn. f_equal. now apply IH.
      * destruct r; cbn; [congruence|]. intros [= -> H]. apply IH in H. injection H as ->. reflexivity.
    + split; [congruence|]. destruct r; cbn; [congruence|]. intros [= -> H]. apply IH in H. discriminate.
  - destruct r; cbn; split; congruence.
Qed.

(** ** Generators stay in lockstep *)
Section Gens.
  Context {gstate : Type}.
  Variable seeded : Z -> gstate.
  Variable draw : gstate -> nat -> list Z * gstate.

  Definition synced (w : world gstate) : Prop :=
    forall d, map (fun g => g_next _ g d) w = rot1 (map (fun g => g_prev _ g d) w).

  Lemma przs_fst op d k w : fst (przs _ draw op d k w) =
    map (fun g => zipw op (fst (draw (g_prev _ g d) k)) (fst (draw (g_next _ g d) k))) w.
  Proof.
    unfold przs. cbn [fst]. rewrite map_map. apply map_ext. intros g. unfold przs_party.
    destruct (draw (g_prev _ g d) k), (draw (g_next _ g d) k). reflexivity.
  Qed.

  Lemma przs_snd_prev op d k w d' : map (fun g => g_prev _ g d') (snd (przs _ draw op d k w)) =
    if Nat.eqb d' d then map (fun g => snd (draw g k)) (map (fun g => g_prev _ g d) w) else map (fun g => g_prev _ g d') w.
  Proof.
    unfold przs. cbn [snd]. rewrite !map_map.
    destruct (Nat.eqb d' d) eqn:E; apply map_ext; intros g; unfold przs_party;
    destruct (draw (g_prev _ g d) k) eqn:E1, (draw (g_next _ g d) k) eqn:E2; cbn; unfold upd; rewrite E; rewrite ?E1; reflexivity.
  Qed.
  Lemma przs_snd_next op d k w d' : map (fun g => g_next _ g d') (snd (przs _ draw op d k w)) =
    if Nat.eqb d' d then map (fun g => snd (draw g k)) (map (fun g => g_next _ g d) w) else map (fun g => g_next _ g d') w.
  Proof.
    unfold przs. cbn [snd]. rewrite !map_map.
    destruct (Nat.eqb d' d) eqn:E; apply map_ext; intros g; unfold przs_party;
    destruct (draw (g_prev _ g d) k) eqn:E1, (draw (g_next _ g d) k) eqn:E2; cbn; unfold upd; rewrite E; rewrite ?E2; reflexivity.
  Qed.

  Lemma przs_length op d k w : length (snd (przs _ draw op d k w)) = length w.
  Proof. unfold przs. cbn. now rewrite !map_length. Qed.

  Lemma przs_synced op d k w : synced w -> synced (snd (przs _ draw op d k w)).
  Proof.
    intros H d'. rewrite przs_snd_prev, przs_snd_next. destruct (Nat.eqb d' d).
    - rewrite H, rot1_map. reflexivity.
    - apply H.
  Qed.

  Lemma enc_snd d s x w : snd (encrypt_arith _ draw d s x w) = snd (przs _ draw wsub d (length x) w).
  Proof. unfold encrypt_arith. now destruct (przs _ draw wsub d (length x) w). Qed.
  Lemma benc_snd d s x w : snd (encrypt_bin _ draw d s x w) = snd (przs _ draw Z.lxor d (length x) w).
  Proof. unfold encrypt_bin. now destruct (przs _ draw Z.lxor d (length x) w). Qed.

  Lemma nth_error_rot1 {A} (l : list A) i : (i < length l)%nat ->
    nth_error (rot1 l) i = nth_error l ((i + 1) mod length l).
  Proof.
    destruct l as [|a l]; cbn [length]; [lia|]. intros Hi. cbn [rot1].
    destruct (Nat.eq_dec i (length l)) as [->|Hn].
    - replace ((length l + 1) mod S (length l))%nat with 0%nat.
      2: { replace (length l + 1)%nat with (S (length l)) by lia. now rewrite Nat.mod_same by lia. }
      rewrite nth_error_app2 by lia. now rewrite Nat.sub_diag.
    - rewrite nth_error_app1 by lia. rewrite Nat.mod_small by lia.
      replace (i + 1)%nat with (S i) by lia. reflexivity.
  Qed.

  Lemma list_eq_nth_error {A} (l m : list A) : length l = length m ->
    (forall i, (i < length l)%nat -> nth_error l i = nth_error m i) -> l = m.
  Proof.
    revert m. induction l as [|a l IH]; intros [|b m] HL H; cbn in HL; try discriminate; [reflexivity|].
    f_equal.
    - specialize (H 0%nat ltac:(cbn; lia)). cbn in H. congruence.
    - apply IH; [lia|]. intros i Hi. apply (H (S i)). cbn; lia.
  Qed.

  Lemma nth_error_seq0 n i : (i < n)%nat -> nth_error (seq 0 n) i = Some i.
  Proof. intros H. rewrite (nth_error_nth' _ 0%nat) by (now rewrite seq_length). now rewrite seq_nth by lia. Qed.

  Lemma sync_seeds_some ns gs : gs <> [] -> ns <> [] -> exists l, sync_seeds ns gs = map Some l /\
     map sd_next l = ns /\ length l = length ns /\ (forall g, nth_error gs 0 = Some g -> Forall (fun s => sd_global s = g) l) /\
     (forall i, (i < length ns)%nat -> nth_error (map sd_prev l) i = nth_error ns ((i + length ns - 1) mod length ns)).
  Proof.
    intros Hg Hn. destruct gs as [|g gs]; [congruence|].
    assert (n1 : (1 <= length ns)%nat) by (destruct ns; [congruence|cbn; lia]).
    exists (map (fun r => mkSeeds (nth ((r + length ns - 1) mod length ns) ns 0) (nth r ns 0) g) (seq 0 (length ns))).
    split; [|split; [|split; [|split]]].
    - unfold sync_seeds. rewrite map_map. apply map_ext_in. intros r Hr. apply in_seq in Hr.
      rewrite recv_prev_seed_spec by lia.
      rewrite (nth_error_nth' ns 0) by (apply Nat.mod_upper_bound; lia).
      rewrite (nth_error_nth' ns 0) by lia. reflexivity.
    - rewrite map_map. cbn. apply list_eq_nth_error; [now rewrite map_length, seq_length|].
      rewrite map_length, seq_length. intros i Hi.
      erewrite map_nth_error by (apply nth_error_seq0; exact Hi).
      symmetry. now apply nth_error_nth'.
    - now rewrite map_length, seq_length.
    - intros g' [= <-]. apply Forall_forall. intros s Hs. apply in_map_iff in Hs as (r & <- & _). reflexivity.
    - intros i Hi. rewrite map_map. cbn.
      erewrite map_nth_error by (apply nth_error_seq0; exact Hi).
      symmetry. apply nth_error_nth'. apply Nat.mod_upper_bound; lia.
  Qed.

  Lemma setup_synced ns gs w : setup_prng _ seeded ns gs = Some w -> synced w /\ length w = length ns.
  Proof.
    unfold setup_prng. intros H. destruct (all_some (sync_seeds ns gs)) as [l|] eqn:E; cbn in H; [|discriminate].
    injection H as <-. apply all_some_spec in E.
    destruct ns as [|n0 ns'] eqn:En.
    { unfold sync_seeds in E. cbn in E. destruct l; cbn in E; [|discriminate]. split; [intros d; reflexivity|reflexivity]. }
    rewrite <- En in *. assert (ns <> []) by (subst; discriminate).
    destruct gs as [|g gs'] eqn:Eg.
    { unfold sync_seeds in E. rewrite En in E. cbn in E. destruct l; cbn in E; [discriminate|].
      destruct (recv_prev_seed _ _); discriminate. }
    rewrite <- Eg in *. destruct (sync_seeds_some ns gs) as (l' & E' & Hnx & HL & _ & Hpv); [subst; discriminate|assumption|].
    rewrite E' in E. assert (l' = l).
    { clear -E. revert l E. induction l'; destruct l; cbn; intros; try congruence. injection E as -> E. f_equal; auto. }
    subst l'. split; [|now rewrite map_length].
    intros d. rewrite !map_map. cbn [g_next g_prev gens_of].
    change (map (fun x => seeded (sd_next x)) l = rot1 (map (fun x => seeded (sd_prev x)) l)).
    rewrite <- (map_map sd_next seeded), <- (map_map sd_prev seeded), <- rot1_map. f_equal.
    assert (n1 : (1 <= length ns)%nat) by (subst; cbn; lia).
    apply list_eq_nth_error; [now rewrite rot1_length, !map_length|].
    rewrite map_length, HL. intros i Hi.
    rewrite nth_error_rot1 by (rewrite map_length; lia). rewrite map_length, HL.
    rewrite Hpv by (apply Nat.mod_upper_bound; lia). rewrite Hnx. f_equal.
    destruct (Nat.eq_dec (i + 1) (length ns)) as [Ee|Hne].
    - rewrite Ee, Nat.mod_same by lia. rewrite Nat.add_0_l, Nat.mod_small by lia. lia.
    - rewrite (Nat.mod_small (i + 1)) by lia.
      replace (i + 1 + length ns - 1)%nat with (i + 1 * length ns)%nat by lia.
      rewrite Nat.mod_add by lia. now rewrite Nat.mod_small by lia.
  Qed.

  Lemma step_inv w c : synced w -> synced (step _ seeded draw w c) /\ length (step _ seeded draw w c) = length w.
  Proof.
    intros H. destruct c; cbn [step]; rewrite ?enc_snd, ?benc_snd; try (split; [now apply przs_synced|apply przs_length]).
    destruct (Nat.eqb _ _) eqn:E; [|auto]. apply Nat.eqb_eq in E.
    destruct (setup_prng _ _ _ _) eqn:E'; [|auto]. apply setup_synced in E' as [? ?]. split; [assumption|congruence].
  Qed.

  Lemma run_inv h w : synced w -> synced (run _ seeded draw h w) /\ length (run _ seeded draw h w) = length w.
  Proof.
    revert w. induction h as [|c h IH]; intros w H; cbn; [auto|].
    destruct (step_inv w c H) as [H1 H2]. destruct (IH _ H1). split; [assumption|rewrite <- H2; assumption].
  Qed.

  Hypothesis draw_length : forall g k, length (fst (draw g k)) = k.

  Lemma nth_zipw f (l m : list Z) j : (j < length l)%nat -> length l = length m ->
    nth j (zipw f l m) 0 = f (nth j l 0) (nth j m 0).
  Proof.
    intros Hj HL. unfold zipw.
    rewrite nth_indep with (d' := (fun p => f (fst p) (snd p)) (0, 0)) by (rewrite map_length, combine_length; lia).
    rewrite (map_nth (fun p => f (fst p) (snd p))). rewrite combine_nth by assumption. reflexivity.
  Qed.

  Lemma przs_elem_sum d k w j : synced w -> (j < k)%nat ->
    zsum (map (fun s => nth j s 0) (fst (przs _ draw wsub d k w))) == 0.
  Proof.
    intros H Hj. rewrite przs_fst, map_map.
    transitivity (zsum (map (fun g => nth j (fst (draw (g_prev _ g d) k)) 0 - nth j (fst (draw (g_next _ g d) k)) 0) w)).
    { apply zsum_map_eqm. intros g _. rewrite nth_zipw by (rewrite ?draw_length; auto). apply wsub_eqm. }
    set (F := fun g => nth j (fst (draw g k)) 0).
    assert (E : forall (w' : world gstate), zsum (map (fun g => F (g_prev _ g d) - F (g_next _ g d)) w')
                = zsum (map F (map (fun g => g_prev _ g d) w')) - zsum (map F (map (fun g => g_next _ g d) w'))).
    { induction w' as [|g w' IH]; [reflexivity|]. cbn [map]. rewrite !zsum_cons, IH. ring. }
    fold F. change (zsum (map (fun g => F (g_prev _ g d) - F (g_next _ g d)) w) == 0).
    rewrite E, H, rot1_map, zsum_rot1. apply eqm_refl_eq; ring.
  Qed.

  Lemma przs_elem_xor d k w j : synced w -> (j < k)%nat ->
    zxor (map (fun s => nth j s 0) (fst (przs _ draw Z.lxor d k w))) = 0.
  Proof.
    intros H Hj. rewrite przs_fst, map_map.
    set (F := fun g => nth j (fst (draw g k)) 0).
    rewrite (map_ext _ (fun g => Z.lxor (F (g_prev _ g d)) (F (g_next _ g d)))).
    2: { intros g. rewrite nth_zipw by (rewrite ?draw_length; auto). reflexivity. }
    assert (E : forall (w' : world gstate), zxor (map (fun g => Z.lxor (F (g_prev _ g d)) (F (g_next _ g d))) w')
                = Z.lxor (zxor (map F (map (fun g => g_prev _ g d) w'))) (zxor (map F (map (fun g => g_next _ g d) w')))).
    { induction w' as [|g w' IH]; [reflexivity|]. cbn [map]. rewrite !zxor_cons, IH.
      rewrite !Z.lxor_assoc. f_equal. rewrite <- !Z.lxor_assoc. f_equal. apply Z.lxor_comm. }
    rewrite E, H, rot1_map, zxor_rot1. apply Z.lxor_nilpotent.
  Qed.

  Lemma przs_shapes op d k w : Forall (fun s => length s = k) (fst (przs _ draw op d k w)).
  Proof.
    rewrite przs_fst. apply Forall_forall. intros s Hs. apply in_map_iff in Hs as (g & <- & _).
    rewrite zipw_length; rewrite !draw_length; reflexivity.
  Qed.
  Lemma przs_fst_length op d k w : length (fst (przs _ draw op d k w)) = length w.
  Proof. rewrite przs_fst. apply map_length. Qed.
End Gens.

(** ** Reveal, element by element *)
Lemma fold_zipw_shape (f : Z -> Z -> Z) k r s : length s = k -> Forall (fun t => length t = k) r ->
  length (fold_left (zipw f) r s) = k.
Proof.
  intros Hs Hr. revert s Hs. induction Hr as [|t r Ht Hr IH]; intros s Hs; cbn; [assumption|].
  apply IH. rewrite zipw_length; congruence.
Qed.

Lemma fold_zipw_nth (f : Z -> Z -> Z) k r s j : length s = k -> Forall (fun t => length t = k) r -> (j < k)%nat ->
  nth j (fold_left (zipw f) r s) 0 = fold_left f (map (fun t => nth j t 0) r) (nth j s 0).
Proof.
  intros Hs Hr Hj. revert s Hs. induction Hr as [|t r Ht Hr IH]; intros s Hs; cbn; [reflexivity|].
  rewrite IH by (rewrite zipw_length; congruence). f_equal. apply nth_zipw; lia.
Qed.

Lemma fold_wadd_eqm l a : fold_left wadd l a == a + zsum l.
Proof.
  revert a. induction l as [|b l IH]; intros a; cbn [fold_left]; [rewrite Z.add_0_r; reflexivity|].
  rewrite IH, wadd_eqm, zsum_cons. apply eqm_refl_eq; ring.
Qed.
Lemma fold_wadd_in64 l a : in64 a -> in64 (fold_left wadd l a).
Proof. revert a. induction l as [|b l IH]; intros a Ha; cbn; [assumption|]. apply IH, wadd_in64. Qed.
Lemma fold_lxor l a : fold_left Z.lxor l a = Z.lxor a (zxor l).
Proof.
  revert a. induction l as [|b l IH]; intros a; cbn [fold_left]; [symmetry; apply Z.lxor_0_r|].
  rewrite IH, zxor_cons. apply Z.lxor_assoc.
Qed.

Lemma reveal_arith_length sh k : sh <> [] -> Forall (fun t => length t = k) sh -> length (reveal_arith sh) = k.
Proof. destruct sh; [congruence|]. intros _ H. inversion H; subst. cbn. now apply fold_zipw_shape. Qed.
Lemma reveal_bin_length sh k : sh <> [] -> Forall (fun t => length t = k) sh -> length (reveal_bin sh) = k.
Proof. destruct sh; [congruence|]. intros _ H. inversion H; subst. cbn. now apply fold_zipw_shape. Qed.

Lemma reveal_arith_nth sh k j : sh <> [] -> Forall (fun t => length t = k) sh -> (j < k)%nat ->
  nth j (reveal_arith sh) 0 == zsum (map (fun t => nth j t 0) sh).
Proof.
  destruct sh as [|s r]; [congruence|]. intros _ H Hj. inversion H; subst. cbn [reveal_arith].
  rewrite (fold_zipw_nth _ (length s)) by auto. rewrite fold_wadd_eqm. cbn [map]. rewrite zsum_cons. reflexivity.
Qed.
Lemma reveal_bin_nth sh k j : sh <> [] -> Forall (fun t => length t = k) sh -> (j < k)%nat ->
  nth j (reveal_bin sh) 0 = zxor (map (fun t => nth j t 0) sh).
Proof.
  destruct sh as [|s r]; [congruence|]. intros _ H Hj. inversion H; subst. cbn [reveal_bin].
  rewrite (fold_zipw_nth _ (length s)) by auto. rewrite fold_lxor. cbn [map]. now rewrite zxor_cons.
Qed.

Lemma add_at_shapes op k src x sh : length x = k -> Forall (fun t => length t = k) sh -> Forall (fun t => length t = k) (add_at op src x sh).
Proof.
  intros Hx H. revert src. induction H as [|s r Hs Hr IH]; intros [|src]; cbn; constructor; auto.
  rewrite zipw_length; congruence.
Qed.
Lemma add_at_length op src x sh : length (add_at op src x sh) = length sh.
Proof. revert src. induction sh; intros [|src]; cbn; auto. Qed.

Lemma add_at_sum k src x sh j : length x = k -> Forall (fun t => length t = k) sh -> (src < length sh)%nat -> (j < k)%nat ->
  zsum (map (fun t => nth j t 0) (add_at wadd src x sh)) == nth j x 0 + zsum (map (fun t => nth j t 0) sh).
Proof.
  intros Hx H Hs Hj. revert src Hs. induction H as [|s r Hsl Hr IH]; intros [|src] Hs; cbn [length] in Hs; try lia; cbn [add_at map]; rewrite !zsum_cons.
  - rewrite nth_zipw by lia. rewrite wadd_eqm. apply eqm_refl_eq; ring.
  - rewrite IH by lia. apply eqm_refl_eq; ring.
Qed.
Lemma add_at_xor k src x sh j : length x = k -> Forall (fun t => length t = k) sh -> (src < length sh)%nat -> (j < k)%nat ->
  zxor (map (fun t => nth j t 0) (add_at Z.lxor src x sh)) = Z.lxor (nth j x 0) (zxor (map (fun t => nth j t 0) sh)).
Proof.
  intros Hx H Hs Hj. revert src Hs. induction H as [|s r Hsl Hr IH]; intros [|src] Hs; cbn [length] in Hs; try lia; cbn [add_at map]; rewrite !zxor_cons.
  - rewrite nth_zipw by lia. rewrite <- Z.lxor_assoc. f_equal. apply Z.lxor_comm.
  - rewrite IH by lia. rewrite <- !Z.lxor_assoc. f_equal. apply Z.lxor_comm.
Qed.

Lemma list_eq_nth (l m : list Z) : length l = length m -> (forall j, (j < length l)%nat -> nth j l 0 = nth j m 0) -> l = m.
Proof. intros. now apply nth_ext with (d := 0) (d' := 0). Qed.

Lemma fold_zipw_wadd_in64 r s : Forall in64 s -> Forall in64 (fold_left (zipw wadd) r s).
Proof.
  revert s. induction r as [|t r IH]; intros s H; cbn; [assumption|]. apply IH.
  apply Forall_forall. intros z Hz. apply in_map_iff in Hz as (p & <- & _). apply wadd_in64.
Qed.

Section Enc.
  Context {gstate : Type}.
  Variable seeded : Z -> gstate.
  Variable draw : gstate -> nat -> list Z * gstate.
  Hypothesis draw_length : forall g k, length (fst (draw g k)) = k.
  Hypothesis draw_in64 : forall g k, Forall in64 (fst (draw g k)).

  Lemma zipw_wop_in64 (f : Z -> Z -> Z) (l m : list Z) : (forall a b, in64 (f a b)) -> Forall in64 (zipw f l m).
  Proof. intros H. apply Forall_forall. intros z Hz. apply in_map_iff in Hz as (p & <- & _). apply H. Qed.

  Lemma przs_arith_in64 d k (w : world gstate) : Forall (Forall in64) (fst (przs _ draw wsub d k w)).
  Proof.
    rewrite przs_fst. apply Forall_forall. intros s Hs. apply in_map_iff in Hs as (g & <- & _).
    apply zipw_wop_in64. intros; apply wsub_in64.
  Qed.

  Lemma add_at_in64 src x sh : Forall (Forall in64) sh -> Forall (Forall in64) (add_at wadd src x sh).
  Proof.
    intros H. revert src. induction H; intros [|src]; cbn; constructor; auto.
    apply zipw_wop_in64. intros; apply wadd_in64.
  Qed.

  Lemma encrypt_reveal d src x (w : world gstate) : synced w -> (src < length w)%nat -> Forall in64 x ->
    reveal_arith (fst (encrypt_arith _ draw d src x w)) = x.
  Proof.
    intros Hs Hsrc Hx. unfold encrypt_arith. destruct (przs _ draw wsub d (length x) w) as [z w'] eqn:E. cbn [fst].
    assert (Hz : z = fst (przs _ draw wsub d (length x) w)) by now rewrite E.
    assert (Hsh : Forall (fun t => length t = length x) z) by (rewrite Hz; now apply przs_shapes).
    assert (HL : length z = length w) by (rewrite Hz; apply przs_fst_length).
    assert (Hin : Forall (Forall in64) (add_at wadd src x z)) by (apply add_at_in64; rewrite Hz; apply przs_arith_in64).
    assert (Hne : add_at wadd src x z <> []).
    { intro C. apply (f_equal (@length _)) in C. rewrite add_at_length in C. cbn in C. lia. }
    pose proof (add_at_shapes wadd (length x) src x z eq_refl Hsh) as Hsh'.
    apply list_eq_nth; [now apply reveal_arith_length|].
    rewrite (reveal_arith_length _ (length x)) by auto. intros j Hj.
    apply eqm_in64_eq.
    - assert (Forall in64 (reveal_arith (add_at wadd src x z))).
      { destruct (add_at wadd src x z) as [|s r]; [congruence|]. cbn. apply fold_zipw_wadd_in64. now inversion Hin. }
      rewrite Forall_forall in H. apply H. apply nth_In. now rewrite (reveal_arith_length _ (length x)).
    - rewrite Forall_forall in Hx. apply Hx, nth_In, Hj.
    - rewrite (reveal_arith_nth _ (length x)) by auto.
      rewrite (add_at_sum (length x)) by (auto; lia).
      rewrite Hz, przs_elem_sum by auto. apply eqm_refl_eq; ring.
  Qed.

  Lemma encrypt_bin_reveal d src x (w : world gstate) : synced w -> (src < length w)%nat ->
    reveal_bin (fst (encrypt_bin _ draw d src x w)) = x.
  Proof.
    intros Hs Hsrc. unfold encrypt_bin. destruct (przs _ draw Z.lxor d (length x) w) as [z w'] eqn:E. cbn [fst].
    assert (Hz : z = fst (przs _ draw Z.lxor d (length x) w)) by now rewrite E.
    assert (Hsh : Forall (fun t => length t = length x) z) by (rewrite Hz; now apply przs_shapes).
    assert (HL : length z = length w) by (rewrite Hz; apply przs_fst_length).
    assert (Hne : add_at Z.lxor src x z <> []).
    { intro C. apply (f_equal (@length _)) in C. rewrite add_at_length in C. cbn in C. lia. }
    pose proof (add_at_shapes Z.lxor (length x) src x z eq_refl Hsh) as Hsh'.
    apply list_eq_nth; [now apply reveal_bin_length|].
    rewrite (reveal_bin_length _ (length x)) by auto. intros j Hj.
    rewrite (reveal_bin_nth _ (length x)) by auto.
    rewrite (add_at_xor (length x)) by (auto; lia).
    rewrite Hz, przs_elem_xor by auto. apply Z.lxor_0_r.
  Qed.

  (** Shares of the parties other than [src] do not depend on the secret. *)
  Lemma encrypt_arith_other d src x y (w : world gstate) i : length x = length y -> i <> src ->
    nth_error (fst (encrypt_arith _ draw d src x w)) i = nth_error (fst (encrypt_arith _ draw d src y w)) i.
  Proof.
    intros HL Hi. unfold encrypt_arith. rewrite HL. destruct (przs _ draw wsub d (length y) w) as [z w']. cbn [fst].
    clear HL. revert src i Hi. induction z as [|s z IH]; intros [|src] [|i] Hi; cbn; try reflexivity; try congruence.
    apply IH. congruence.
  Qed.
End Enc.

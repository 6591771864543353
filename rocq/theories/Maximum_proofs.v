(** Lemmas about maxima, arg-maxima and weighted sampling. *)
Require Import ZArith List Lia Bool.
From Verif Require Import Ring64 Encoder Arith Arith_proofs Beaver Trunc Provider Binary Binary_proofs Circuit_proofs Convert_proofs Compare Compare_proofs Maximum.
Import ListNotations.
Open Scope Z_scope.

(** ** Lists *)
Definition zprod (l : list Z) : Z := fold_right Z.mul 1 l.
Lemma zprod_app l m : zprod (l ++ m) = zprod l * zprod m.
Proof. unfold zprod. induction l as [|a l IH]; cbn [app fold_right]; [ring|rewrite IH; ring]. Qed.
Lemma zprod_zip l m : length l = length m -> zprod (zipw Z.mul l m) = zprod l * zprod m.
Proof.
  revert m; induction l as [|a l IH]; intros [|b m] L; try discriminate; [reflexivity|]. rewrite zipw_cons. cbn [zprod fold_right] in *. fold (zprod (zipw Z.mul l m)). fold (zprod l). fold (zprod m).
  rewrite IH by (cbn in L; lia). ring.
Qed.

Lemma Forall2_rev {A B} (R : A -> B -> Prop) l m : Forall2 R l m -> Forall2 R (rev l) (rev m).
Proof. induction 1; cbn [rev]; [constructor|]. apply Forall2_app; [assumption|]. constructor; [assumption|constructor]. Qed.
Lemma Forall2_nth {A B} (R : A -> B -> Prop) l m da db i : Forall2 R l m -> (i < length l)%nat -> R (nth i l da) (nth i m db).
Proof. intros H. revert i. induction H; intros [|i] Hi; cbn [length nth] in *; try lia; auto. apply IHForall2. lia. Qed.
Lemma Forall2_map_same {A B C} (R : B -> C -> Prop) (f : A -> B) (g : A -> C) l : (forall a, In a l -> R (f a) (g a)) -> Forall2 R (map f l) (map g l).
Proof. induction l as [|a l IH]; cbn [map]; intros H; constructor; [apply H; now left|apply IH; intros; apply H; now right]. Qed.
Lemma Forall2_of_nth {A B} (R : A -> B -> Prop) l m da db : length l = length m -> (forall i, (i < length l)%nat -> R (nth i l da) (nth i m db)) -> Forall2 R l m.
Proof.
  revert m; induction l as [|a l IH]; intros [|b m] L H; try discriminate; constructor; [exact (H 0%nat ltac:(cbn; lia))|].
  apply IH; [cbn in L; lia|]. intros i Hi. exact (H (S i) ltac:(cbn; lia)).
Qed.
Lemma Forall2_zipw {A B C A' B' C'} (R1 : A -> A' -> Prop) (R2 : B -> B' -> Prop) (R3 : C -> C' -> Prop) (f : A -> B -> C) (g : A' -> B' -> C') l l' m m' :
  (forall a a' b b', R1 a a' -> R2 b b' -> R3 (f a b) (g a' b')) -> Forall2 R1 l l' -> Forall2 R2 m m' -> Forall2 R3 (zipw f l m) (zipw g l' m').
Proof.
  intros H F. revert m m'. induction F; intros m m' G; destruct G; try (now constructor). rewrite !zipw_cons. constructor; auto.
Qed.
Lemma Forall2_last {A B} (R : A -> B -> Prop) l m da db : l <> [] -> Forall2 R l m -> R (last l da) (last m db).
Proof. intros N H. induction H as [|a b l m Hab H IH]; [contradiction|]. destruct H; [assumption|]. cbn [last] in *. apply IH. discriminate. Qed.

Lemma yields_map2 {pr A A' B B'} (f : A' -> run pr B') (g : A -> B) (R : A -> A' -> Prop) (R' : B -> B' -> Prop) vs xs :
  (forall v x, In v vs -> R v x -> yields (f x) (R' (g v))) -> Forall2 R vs xs -> yields (mapM f xs) (Forall2 R' (map g vs)).
Proof.
  intros H F. induction F as [|v x vs xs Hv F IH]; cbn [mapM map]; [apply yields_ret; constructor|].
  eapply yields_bind; [apply H; [now left|exact Hv]|]. intros b Hb. eapply yields_bind; [apply IH; intros; apply H; [now right|assumption]|].
  intros bs Hbs. apply yields_ret. now constructor.
Qed.
Lemma yields_zip2 {pr A A' B B' C C'} (f : A' -> B' -> run pr C') (g : A -> B -> C) (R1 : A -> A' -> Prop) (R2 : B -> B' -> Prop) (R3 : C -> C' -> Prop) vs xs ws ys :
  (forall v x w y, R1 v x -> R2 w y -> yields (f x y) (R3 (g v w))) -> Forall2 R1 vs xs -> Forall2 R2 ws ys -> yields (zipM f xs ys) (Forall2 R3 (zipw g vs ws)).
Proof.
  intros H F. revert ws ys. induction F as [|v x vs xs Hv F IH]; intros ws ys G; destruct G as [|w y ws ys Hw G]; cbn [zipM]; try (apply yields_ret; constructor).
  rewrite zipw_cons. eapply yields_bind; [apply H; eassumption|]. intros c Hc. eapply yields_bind; [apply IH; exact G|]. intros cs Hcs. apply yields_ret. now constructor.
Qed.

Lemma skipn_add {A} (xs : list A) : forall a b, skipn (a + b) xs = skipn b (skipn a xs).
Proof. induction xs as [|x xs IH]; intros a b; [now rewrite !skipn_nil|]. destruct a; [reflexivity|]. cbn [skipn Nat.add]. apply IH. Qed.
Lemma roll_rel {A B} (R : A -> B -> Prop) k vs xs : Forall2 R vs xs -> Forall2 R (roll k vs) (roll k xs).
Proof. intros H. unfold roll. rewrite (Forall2_length _ _ _ H). apply Forall2_app; auto using Forall2_firstn, Forall2_skipn. Qed.
Lemma map_nth_seq {A} (l : list A) d : map (fun j => nth j l d) (seq 0 (length l)) = l.
Proof. induction l as [|a l IH]; [reflexivity|]. cbn [length]. change (seq 0 (S (length l))) with (0%nat :: seq 1 (length l)). cbn [map nth]. f_equal. now rewrite <- seq_shift, map_map. Qed.
Lemma halves_app {A} (xs : list A) : let '(x, y, r) := halves xs in xs = x ++ y ++ r /\ length x = length y /\ (length x = length xs / 2)%nat.
Proof.
  unfold halves. set (h := (length xs / 2)%nat). assert (2 * h <= length xs)%nat by (apply Nat.mul_div_le; lia).
  rewrite <- (firstn_skipn h xs) at 1. rewrite <- (firstn_skipn h (skipn h xs)) at 1.
  replace (skipn h (skipn h xs)) with (skipn (2 * h) xs).
  - split; [reflexivity|]. rewrite !firstn_length, skipn_length. lia.
  - replace (2 * h)%nat with (h + h)%nat by lia. apply skipn_add.
Qed.
Lemma halves_rel {A B} (R : A -> B -> Prop) vs xs : Forall2 R vs xs ->
  let '(a, b, c) := halves vs in let '(x, y, r) := halves xs in Forall2 R a x /\ Forall2 R b y /\ Forall2 R c r.
Proof.
  intros H. unfold halves. rewrite (Forall2_length _ _ _ H). repeat split; auto using Forall2_firstn, Forall2_skipn.
Qed.

(** ** Sums and random numbers *)
Section M.
  Variable n : nat.
  Hypothesis Hn : (0 < n)%nat.
  Variable pr : provider.
  Hypothesis HV : valid n pr.
  Variable D : Z.
  Hypothesis HD : 0 < D.
  Local Notation num_is := (fun s v x => nshare n v s x).

  Lemma sum_num_ok s vs xs : vs <> [] -> Forall2 (fun v x => nshare n v s x) vs xs -> nshare n (zsum vs) s (sum_num xs).
  Proof.
    intros N H. destruct H as [|v x vs xs Hx H]; [contradiction|]. unfold sum_num. destruct Hx as [Hx Sx]. split; [|exact Sx]. cbn [n_sh]. rewrite (proj1 Hx).
    apply (sum_list_ok n). constructor; [exact Hx|]. clear N. induction H as [|w y ws ys Hy H IH]; cbn [map]; constructor; [apply Hy|apply IH].
  Qed.
  Lemma cumsum_ok s vs xs : Forall2 (fun v x => nshare n v s x) vs xs ->
    Forall2 (fun v x => nshare n v s x) (map (fun i => zsum (firstn (S i) vs)) (seq 0 (length vs))) (cumsum xs).
  Proof.
    intros H. unfold cumsum. rewrite (Forall2_length _ _ _ H). apply Forall2_map_same. intros i Hi. apply in_seq in Hi. apply sum_num_ok.
    - destruct vs; [apply Forall2_length in H; cbn in *; lia|]. discriminate.
    - now apply Forall2_firstn.
  Qed.

  Variable p : nat.
  Hypothesis Hp : (1 <= p <= 62)%nat.
  Hypothesis HDp : D = 2 ^ Z.of_nat p.
  Variable local_bits : run pr (list Z).
  (** [Q]: anything known about the exclusive or of the parties' draws. *)
  Variable Q : Z -> Prop.
  Hypothesis Hlocal : yields local_bits (fun u => length u = n /\ Forall (fun z => 0 <= z < D) u /\ Q (zxor u)).

  Lemma D_bound : 2 <= D <= 2 ^ 62.
  Proof. rewrite HDp. split; [change 2 with (2 ^ 1) at 1|]; apply Z.pow_le_mono_r; lia. Qed.
  Lemma zxor_range u : Forall (fun z => 0 <= z < D) u -> 0 <= zxor u < D.
  Proof.
    rewrite HDp. induction 1 as [|z u Hz H IH]; [cbn; lia|]. change (zxor (z :: u)) with (Z.lxor z (zxor u)).
    set (m := Z.ones (Z.of_nat p)).
    assert (E : forall a, 0 <= a < 2 ^ Z.of_nat p -> Z.land a m = a) by (intros a Ha; unfold m; rewrite Z.land_ones by lia; now apply Z.mod_small).
    rewrite <- (E z Hz), <- (E (zxor u) IH). replace (Z.lxor (Z.land z m) (Z.land (zxor u) m)) with (Z.land (Z.lxor z (zxor u)) m).
    - unfold m. rewrite Z.land_ones by lia. apply Z.mod_pos_bound. apply Z.pow_pos_nonneg; lia.
    - apply Z.bits_inj'. intros i _. rewrite !Z.land_spec, !Z.lxor_spec, !Z.land_spec. now destruct (Z.testbit z i), (Z.testbit (zxor u) i), (Z.testbit m i).
  Qed.
  Lemma rand_ok : yields (rand_num (pr := pr) D p local_bits) (fun r => exists v, 0 <= v < D /\ Q v /\ nshare n v D r).
  Proof.
    unfold rand_num. eapply yields_bind; [exact Hlocal|]. intros u (Lu & Fu & Qu).
    assert (B : bshare n (zxor u) u).
    { split; [assumption|]. split; [|reflexivity]. eapply Forall_impl; [|exact Fu]. intros z Hz. pose proof D_bound. unfold in64, H63. cbn beta in Hz. lia. }
    eapply yields_bind; [eapply (b2a_ok n pr Hn HV); [lia|exact B]|]. intros r Hr. apply yields_ret. exists (zxor u).
    pose proof (zxor_range u Fu) as R. split; [assumption|]. split; [assumption|]. split; [|reflexivity]. cbn [n_sh]. rewrite Z.div_same, Z.mul_1_r, <- HDp, Z.mod_small in Hr by lia. assumption.
  Qed.

  (** ** prod *)
  Lemma prod_round_ok vs xs : Forall2 (fun v x => nshare n v 1 x) vs xs ->
    yields (prod_round (pr := pr) xs) (fun ys => exists ws, Forall2 (fun v x => nshare n v 1 x) ws ys /\ zprod ws = zprod vs /\ length ws = (length vs - length vs / 2)%nat).
  Proof.
    intros H. unfold prod_round. pose proof (halves_rel _ _ _ H) as HR. pose proof (halves_app vs) as HA. destruct (halves vs) as [[a b] c], (halves xs) as [[x y] r].
    destruct HR as (Ra & Rb & Rc), HA as (E & L & Lh).
    eapply yields_bind; [eapply (yields_zip2 _ Z.mul _ _ (fun v x => nshare n v 1 x)); [|exact Ra|exact Rb]|].
    - intros v1 x1 v2 x2 H1 H2. now apply (mul_num_r1 n Hn pr HV).
    - intros z Hz. apply yields_ret. exists (zipw Z.mul a b ++ c). split; [now apply Forall2_app|]. split.
      + rewrite zprod_app, zprod_zip by assumption. rewrite E, !zprod_app. ring.
      + rewrite app_length, zipw_length by assumption. rewrite <- Lh. rewrite E at 1. rewrite !app_length. lia.
  Qed.
  Lemma prod_loop_ok fuel : forall vs xs, (1 <= length vs <= S fuel)%nat -> Forall2 (fun v x => nshare n v 1 x) vs xs ->
    yields (prod_loop (pr := pr) fuel xs) (fun ys => exists y, ys = [y] /\ nshare n (zprod vs) 1 y).
  Proof.
    assert (one : forall vs xs, length vs = 1%nat -> Forall2 (fun v x => nshare n v 1 x) vs xs -> exists y, xs = [y] /\ nshare n (zprod vs) 1 y).
    { intros vs xs L H. destruct H as [|v x vs xs Hv H]; [discriminate|]. destruct H; [|discriminate]. exists x. split; [reflexivity|]. cbn. now rewrite Z.mul_1_r. }
    induction fuel as [|f IH]; intros vs xs L H; cbn [prod_loop].
    - apply yields_ret. apply one; [lia|assumption].
    - rewrite <- (Forall2_length _ _ _ H). destruct (Nat.ltb_spec 1 (length vs)) as [L1|L1].
      + eapply yields_bind; [apply prod_round_ok; exact H|]. intros ys (ws & Hw & Ew & Lw). rewrite <- Ew. apply IH; [|exact Hw].
        assert (1 <= length vs / 2 < length vs)%nat by (split; [apply Nat.div_le_lower_bound; lia|apply Nat.div_lt; lia]). lia.
      + apply yields_ret. apply one; [lia|assumption].
  Qed.
  Lemma prod_num_ok vs xs : vs <> [] -> Forall2 (fun v x => nshare n v 1 x) vs xs -> yields (prod_num (pr := pr) xs) (nshare n (zprod vs) 1).
  Proof.
    intros N H. unfold prod_num. eapply yields_bind.
    - apply (prod_loop_ok (length xs) vs xs); [|exact H]. rewrite (Forall2_length _ _ _ H). destruct H; [contradiction|cbn [length]; lia].
    - intros ys (y & -> & Hy). apply yields_ret. exact Hy.
  Qed.

  (** ** Weighted sampling *)
  Fixpoint prefixes (acc : Z) (ws : list Z) : list Z := match ws with [] => [] | w :: r => (acc + w) :: prefixes (acc + w) r end.
  Lemma prefixes_seq ws : forall acc, prefixes acc ws = map (fun i => acc + zsum (firstn (S i) ws)) (seq 0 (length ws)).
  Proof.
    induction ws as [|w ws IH]; intros acc; [reflexivity|]. cbn [prefixes length]. change (seq 0 (S (length ws))) with (0%nat :: seq 1 (length ws)). cbn [map]. f_equal; [cbn; ring|].
    rewrite <- seq_shift, map_map, IH. apply map_ext. intros i. change (firstn (S (S i)) (w :: ws)) with (w :: firstn (S i) ws). cbn [zsum fold_right]. unfold zsum. lia.
  Qed.
  Definition one_hot (len k : nat) : list Z := map (fun i => if Nat.eqb i k then 1 else 0) (seq 0 len).
  Definition steps_at (len k : nat) : list Z := map (fun i => if Nat.ltb i k then 0 else 1) (seq 0 len).

  Lemma pick ws : forall acc t, Forall (fun w => 0 <= w) ws -> acc * D <= t < (acc + zsum ws) * D ->
    exists k, (k < length ws)%nat /\ 0 < nth k ws 0 /\ map (fun x => if t <? x * D then 1 else 0) (prefixes acc ws) = steps_at (length ws) k /\
      (acc + zsum (firstn k ws)) * D <= t < (acc + zsum (firstn (S k) ws)) * D.
  Proof.
    induction ws as [|w ws IH]; intros acc t F B; [cbn in B; lia|]. pose proof (Forall_inv F) as Fw. apply Forall_inv_tail in F. cbn beta in Fw.
    cbn [prefixes map]. destruct (Z.ltb_spec t ((acc + w) * D)) as [H|H].
    - exists 0%nat. split; [cbn; lia|]. split; [cbn [nth]; nia|]. split; [|cbn; nia]. unfold steps_at. cbn [length seq map]. f_equal. clear IH B.
      assert (H' : t < (acc + w) * D) by assumption. clear H. revert F H'. generalize (acc + w). clear acc w Fw. intros acc. generalize 1%nat. revert acc.
      induction ws as [|w ws IHw]; intros acc i F H; [reflexivity|]. cbn [prefixes map length seq]. pose proof (Forall_inv F) as Fw. cbn beta in Fw. f_equal.
      + destruct (Z.ltb_spec t ((acc + w) * D)); [reflexivity|nia].
      + apply IHw; [now apply Forall_inv_tail in F|nia].
    - destruct (IH (acc + w) t F) as (k & Hk & Hw & E & R); [change (zsum (w :: ws)) with (w + zsum ws) in B; split; [assumption|lia]|].
      exists (S k). split; [cbn; lia|]. split; [exact Hw|]. split.
      + unfold steps_at. cbn [length]. change (seq 0 (S (length ws))) with (0%nat :: seq 1 (length ws)). cbn [map]. f_equal. rewrite E. unfold steps_at. rewrite <- seq_shift, map_map. apply map_ext. intros i. reflexivity.
      + change (firstn (S k) (w :: ws)) with (w :: firstn k ws). change (firstn (S (S k)) (w :: ws)) with (w :: firstn (S k) ws). change (zsum (w :: firstn k ws)) with (w + zsum (firstn k ws)).
        change (zsum (w :: firstn (S k) ws)) with (w + zsum (firstn (S k) ws)). rewrite !Z.add_assoc. exact R.
  Qed.

  Lemma roll1_cons {A} (l : list A) (a : A) : roll 1 (l ++ [a]) = a :: l.
  Proof.
    unfold roll. rewrite app_length. cbn [length]. replace (length l + 1 - 1)%nat with (length l) by lia. rewrite skipn_app, firstn_app, skipn_all, firstn_all, Nat.sub_diag. cbn. now rewrite app_nil_r.
  Qed.
  Lemma removelast_seq k : removelast (seq 0 (S k)) = seq 0 k.
  Proof. rewrite seq_S. apply removelast_last. Qed.
  Lemma hot_of_steps len k : (k < len)%nat -> zipw Z.sub (steps_at len k) (0 :: removelast (steps_at len k)) = one_hot len k.
  Proof.
    intros H. destruct len as [|len]; [lia|]. unfold steps_at, one_hot. assert (E : removelast (map (fun i => if Nat.ltb i k then 0 else 1) (seq 0 (S len))) = map (fun i => if Nat.ltb i k then 0 else 1) (seq 0 len)).
    { rewrite seq_S, map_app. apply removelast_last. }
    rewrite E. cbn [seq]. rewrite <- seq_shift, !map_cons, !map_map, zipw_cons. f_equal; [destruct k; reflexivity|]. generalize (seq 0 len). intros l. induction l as [|i l IH]; [reflexivity|]. cbn [map]. rewrite zipw_cons, IH. f_equal.
    destruct (Nat.ltb_spec (S i) k), (Nat.ltb_spec i k), (Nat.eqb_spec (S i) k); lia.
  Qed.

  Lemma zero_like_ok v s x : nshare n v s x -> nshare n 0 s (zero_like x).
  Proof.
    intros [(L & _ & _) S]. split; [|exact S]. cbn [zero_like n_sh]. split; [now rewrite map_length|]. generalize (n_sh x). clear. intros l. split.
    - induction l; constructor; auto using in64_0.
    - induction l as [|a l IH]; [reflexivity|]. exact IH.
  Qed.

  Lemma n_gt_mixed v w x y : nshare n v 1 x -> nshare n w D y -> in64 w -> in64 (w - v * D) ->
    yields (n_gt (pr := pr) D x (AEnc y)) (nshare n (if w <? v * D then 1 else 0) 1).
  Proof.
    intros Hx Hy Iw I. pose proof D_bound. pose proof (n_gt_ok n Hn pr HV D v x (AEnc y)) as G. cbv zeta in G. unfold common, aval in G. destruct Hx as [Hx Sx], Hy as [Hy Sy].
    rewrite Sx, Sy, (ashare_open _ _ _ Hy), (wrap_id w Iw), Z.max_r, Z.div_1_r, Z.div_same, Z.mul_1_r in G by lia.
    rewrite (ratio_D n Hn D HD), Z.mul_1_r in G. apply G; try assumption; try lia; [split; assumption|].
    cbn. split; [apply Hy|]. split; [apply Hy|]. lia.
  Qed.

  (** The result is the one-hot vector at the index where the scaled threshold falls. *)
  Lemma weighted_index_ok vs ws : Forall2 (fun v x => nshare n v 1 x) vs ws -> Forall (fun v => 0 <= v) vs -> 0 < zsum vs -> zsum vs * D < H63 ->
    yields (weighted_index (pr := pr) D p local_bits ws) (fun hs => exists u k, 0 <= u < D /\ Q u /\ (k < length vs)%nat /\ 0 < nth k vs 0 /\ zsum (firstn k vs) * D <= u * zsum vs < zsum (firstn (S k) vs) * D /\
      Forall2 (fun v x => nshare n v 1 x) (one_hot (length vs) k) hs).
  Proof.
    intros H F W B. pose proof D_bound as DB. unfold weighted_index. pose proof (cumsum_ok 1 vs ws H) as HC. set (cs := map (fun i => zsum (firstn (S i) vs)) (seq 0 (length vs))) in *.
    assert (EC : cs = prefixes 0 vs) by (rewrite prefixes_seq; reflexivity).
    assert (NE : vs <> []) by (intros ->; cbn in W; lia).
    assert (EL : last cs 0 = zsum vs).
    { unfold cs. destruct vs as [|v vs'] eqn:Ev; [contradiction|]. rewrite <- Ev. replace (length vs) with (S (length vs')) by (rewrite Ev; reflexivity). rewrite seq_S, map_app. cbn [map Nat.add]. rewrite last_last.
      rewrite firstn_all2; [reflexivity|]. rewrite Ev. cbn. lia. }
    assert (Ncs : cs <> []) by (unfold cs; destruct vs; [contradiction|discriminate]).
    assert (Hlast : nshare n (zsum vs) 1 (last (cumsum ws) nil_num)) by (rewrite <- EL; exact (Forall2_last _ _ _ 0 nil_num Ncs HC)).
    eapply yields_bind; [exact rand_ok|]. intros u (uv & Ru & Qu & Hu).
    eapply yields_bind; [apply (mul_num_r1 n Hn pr HV); [exact HD|exact Hu|exact Hlast]|]. intros r Hr.
    assert (Bu : 0 <= uv * zsum vs < zsum vs * D) by nia.
    destruct (pick vs 0 (uv * zsum vs) F ltac:(lia)) as (k & Hk & Hw & E & Rk).
    eapply yields_bind; [eapply (yields_map2 _ (fun x => if uv * zsum vs <? x * D then 1 else 0) _ (fun v x => nshare n v 1 x)); [|exact HC]|].
    - intros v x Hv Hx. apply n_gt_mixed; try assumption; [unfold in64; lia|].
      assert (0 <= v <= zsum vs); [|unfold in64; nia]. unfold cs in Hv. apply in_map_iff in Hv. destruct Hv as (i & <- & _). clear - F. revert i. induction F as [|a l Ha F IH]; intros i; [rewrite firstn_nil; cbn; lia|].
      cbn [firstn]. change (zsum (a :: firstn i l)) with (a + zsum (firstn i l)). change (zsum (a :: l)) with (a + zsum l). destruct i; [|specialize (IH i); lia]. specialize (IH 0%nat). cbn [firstn] in *. change (zsum []) with 0.
      assert (0 <= zsum l) by (clear - F; induction F; cbn; [lia|]; fold (zsum l); unfold zsum in *; lia). lia.
    - intros gt Hgt. rewrite EC, E in Hgt. apply yields_ret. exists uv, k. do 4 (split; [assumption|]). split; [exact Rk|]. rewrite <- hot_of_steps by assumption.
      apply (Forall2_zipw (fun v x => nshare n v 1 x) (fun v x => nshare n v 1 x)).
      + intros a a' b b' Ha Hb. now apply (sub_enc_ok n).
      + exact Hgt.
      + assert (Ns : steps_at (length vs) k <> []) by (unfold steps_at; destruct vs; [contradiction|discriminate]).
        apply (roll_rel _ 1) in Hgt. rewrite (app_removelast_last 0 Ns) in Hgt at 1. rewrite roll1_cons in Hgt. inversion Hgt as [|v0 g0 tl gl Hg0 Hgl Ea Eb]; subst.
        cbn [fill0]. constructor; [now apply zero_like_ok in Hg0|assumption].
  Qed.

  (** ** Pairwise comparisons *)
  Variable s : Z.
  Hypothesis Hs : s = 1 \/ s = D.
  (** [V]: a list of values whose differences all fit; every vector below is made of them. *)
  Variable V : list Z.
  Hypothesis HVs : forall a b, In a V -> In b V -> in64 (a - b).
  Definition rep (v : Z) (x : num) : Prop := In v V /\ nshare n v s x.

  Lemma s_pos : 0 < s. Proof. pose proof D_bound. lia. Qed.
  Lemma s_ratio : ratio D s = 1.
  Proof. destruct Hs as [-> | ->]; [reflexivity|now apply (ratio_D n)]. Qed.
  Definition ge_bit (v w : Z) : Z := if w <=? v then 1 else 0.
  Lemma ge_rep v w x y : rep v x -> rep w y -> yields (n_ge (pr := pr) D x (AEnc y)) (nshare n (ge_bit v w) 1).
  Proof.
    intros [Iv Hx] [Iw Hy]. eapply yields_weaken; [apply (n_ge_same n Hn pr HV D v w s x y s_pos Hx Hy); auto|]. intros r. rewrite s_ratio. apply nshare_eqm, eqm_refl_eq.
    unfold ge_bit. destruct (Z.ltb_spec v w), (Z.leb_spec w v); lia.
  Qed.
  Definition all_ge (vs : list Z) (v : Z) : Z := if forallb (fun w => w <=? v) vs then 1 else 0.

  Lemma zprod_bits l (f : Z -> bool) : zprod (map (fun a => if f a then 1 else 0) l) = if forallb f l then 1 else 0.
  Proof. induction l as [|a l IH]; [reflexivity|]. cbn [map zprod fold_right forallb]. fold (zprod (map (fun a => if f a then 1 else 0) l)). rewrite IH. destruct (f a), (forallb f l); reflexivity. Qed.
  Lemma zsum_bits' l (f : Z -> bool) : 0 <= zsum (map (fun a => if f a then 1 else 0) l) <= Z.of_nat (length l) /\ (Z.of_nat (length l) <= zsum (map (fun a => if f a then 1 else 0) l) <-> forallb f l = true).
  Proof.
    induction l as [|a l [IH1 IH2]]; [cbn; split; [lia|split; [reflexivity|lia]]|]. cbn [map forallb length]. change (zsum ((if f a then 1 else 0) :: map (fun a => if f a then 1 else 0) l)) with ((if f a then 1 else 0) + zsum (map (fun a => if f a then 1 else 0) l)).
    destruct (f a); cbn [andb]; [split; [lia|]; rewrite <- IH2; lia|]. split; [lia|]. split; [lia|discriminate].
  Qed.

  Lemma nth_roll {A} (d : A) k l j : (k <= length l)%nat -> (j < length l)%nat -> nth j (roll k l) d = nth ((j + (length l - k)) mod length l) l d.
  Proof.
    intros Hk Hj. unfold roll. set (m := (length l - k)%nat). destruct (Nat.lt_ge_cases j k) as [H|H].
    - rewrite app_nth1 by (rewrite skipn_length; lia). rewrite Nat.mod_small by lia. rewrite <- (firstn_skipn m l) at 2. rewrite app_nth2; rewrite firstn_length; [|lia]. f_equal. lia.
    - rewrite app_nth2 by (rewrite skipn_length; lia). rewrite skipn_length.
      assert (E : ((j + m) mod length l = j - k)%nat). { replace (j + m)%nat with ((j - k) + 1 * length l)%nat by lia. rewrite Nat.mod_add by lia. apply Nat.mod_small. lia. }
      rewrite E. replace (j - (length l - m))%nat with (j - k)%nat by lia. rewrite <- (firstn_skipn m l) at 2. destruct (Nat.lt_ge_cases (j - k) m); [|lia]. rewrite app_nth1 by (rewrite firstn_length; lia). reflexivity.
  Qed.

  (** Comparing with every non-trivial rotation (and, for one element, with itself) compares with every element. *)
  Lemma rolls_cover vs j (f : Z -> bool) : (j < length vs)%nat -> f (nth j vs 0) = true ->
    forallb f (map (fun i => nth j (roll (i + 1) vs) 0) (seq 0 ((if Nat.ltb 1 (length vs) then length vs else 2%nat) - 1))) = forallb f vs.
  Proof.
    intros Hj Hf. apply eq_true_iff_eq. rewrite !forallb_forall. split.
    - intros H w Hw. destruct (In_nth vs w 0 Hw) as (t & Ht & <-). destruct (Nat.eq_dec t j) as [->|Ne]; [assumption|].
      assert (L1 : (1 < length vs)%nat) by lia. rewrite (proj2 (Nat.ltb_lt _ _) L1) in H.
      apply H. apply in_map_iff. exists (((j + length vs - t) mod length vs) - 1)%nat.
      assert (Hm : ((j + length vs - t) mod length vs = if Nat.ltb j t then j + length vs - t else j - t)%nat).
      { destruct (Nat.ltb_spec j t); [apply Nat.mod_small; lia|]. replace (j + length vs - t)%nat with ((j - t) + 1 * length vs)%nat by lia. rewrite Nat.mod_add by lia. apply Nat.mod_small. lia. }
      rewrite Hm. split.
      + rewrite nth_roll; [|destruct (Nat.ltb_spec j t); lia|assumption]. f_equal. destruct (Nat.ltb_spec j t).
        * replace (j + (length vs - (j + length vs - t - 1 + 1)))%nat with t by lia. apply Nat.mod_small. lia.
        * replace (j + (length vs - (j - t - 1 + 1)))%nat with (t + 1 * length vs)%nat by lia. rewrite Nat.mod_add by lia. apply Nat.mod_small. lia.
      + apply in_seq. destruct (Nat.ltb_spec j t); lia.
    - intros H w Hw. apply in_map_iff in Hw. destruct Hw as (i & <- & Hi). apply in_seq in Hi. apply H. rewrite nth_roll; [apply nth_In, Nat.mod_upper_bound; lia| |assumption].
      destruct (Nat.ltb_spec 1 (length vs)); lia.
  Qed.

  Lemma sum_ge_ok k vs xs : Forall2 (fun v x => nshare n v 1 x) vs xs -> vs <> [] -> in64 (zsum vs) -> in64 (zsum vs - k) ->
    yields (n_ge (pr := pr) D (sum_num xs) (AInt k)) (nshare n (if k <=? zsum vs then 1 else 0) 1).
  Proof.
    intros H N I1 I2. pose proof (sum_num_ok 1 vs xs N H) as Hsum. pose proof (n_ge_ok n Hn pr HV D (zsum vs) (sum_num xs) (AInt k)) as G. cbv zeta in G. unfold common, aval in G. cbv iota beta in G.
    rewrite (proj2 Hsum), Z.div_1_r, !Z.mul_1_r in G. specialize (G ltac:(lia) Hsum I I2). eapply yields_weaken; [exact G|]. intros r. rewrite ?(ratio_1 D). apply nshare_eqm, eqm_refl_eq.
    destruct (Z.ltb_spec (zsum vs) k), (Z.leb_spec k (zsum vs)); lia.
  Qed.

  Lemma pairwise_mask_ok vs xs : Forall2 rep vs xs -> vs <> [] -> Z.of_nat (length vs) < H63 ->
    yields (pairwise_mask (pr := pr) D xs) (Forall2 (fun v x => nshare n v 1 x) (map (all_ge vs) vs)).
  Proof.
    intros H N LB. unfold pairwise_mask. pose proof (Forall2_length _ _ _ H) as LL. rewrite <- LL. set (row := if Nat.ltb 1 (length vs) then length vs else 2%nat).
    assert (Hrow : (1 <= row - 1)%nat /\ Z.of_nat (row - 1) < H63) by (unfold row, H63 in *; destruct (Nat.ltb_spec 1 (length vs)); lia).
    set (cvals := map (fun i => zipw ge_bit vs (roll (i + 1) vs)) (seq 0 (row - 1))).
    eapply yields_bind.
    - eapply (yields_map2 _ (fun i => zipw ge_bit vs (roll (i + 1) vs)) eq (Forall2 (fun v x => nshare n v 1 x)) (seq 0 (row - 1))).
      + intros i i' _ <-. eapply (yields_zip2 _ ge_bit rep rep); [|exact H|now apply roll_rel]. intros v x w y Hv Hw. now apply ge_rep.
      + induction (seq 0 (row - 1)); constructor; auto.
    - intros cs Hcs. fold cvals in Hcs.
      set (zcols := columns 0 (length vs) cvals).
      assert (Hcols : Forall2 (Forall2 (fun v x => nshare n v 1 x)) zcols (columns nil_num (length vs) cs)).
      { unfold zcols, columns. apply Forall2_map_same. intros j Hj. apply in_seq in Hj. clear - Hcs Hj. 
        assert (HL : Forall (fun c => length c = length vs) cvals).
        { unfold cvals. apply Forall_forall. intros c Hc. apply in_map_iff in Hc. destruct Hc as (i & <- & _). apply zipw_length. unfold roll. rewrite app_length, skipn_length, firstn_length. lia. }
        induction Hcs as [|c c' l l' Hc Hl IH]; cbn [map]; constructor; [|apply IH; now apply Forall_inv_tail in HL]. exact (Forall2_nth _ c c' 0 nil_num j Hc ltac:(apply Forall_inv in HL; lia)). }
      assert (Ecol : zcols = map (fun j => map (fun w => if w <=? nth j vs 0 then 1 else 0) (map (fun i => nth j (roll (i + 1) vs) 0) (seq 0 (row - 1)))) (seq 0 (length vs))).
      { unfold zcols, columns, cvals. apply map_ext_in. intros j Hj. apply in_seq in Hj. rewrite !map_map. apply map_ext. intros i.
        rewrite (nth_zipw_l ge_bit vs (roll (i + 1) vs) j 0 0 0); [reflexivity| |lia]. unfold roll. rewrite app_length, skipn_length, firstn_length. lia. }
      assert (Eres : map (all_ge vs) vs = map (fun col => if forallb (fun b => b =? 1) col then 1 else 0) zcols).
      { rewrite Ecol, map_map. rewrite <- (map_nth_seq vs 0) at 2. rewrite map_map. apply map_ext_in. intros j Hj. apply in_seq in Hj. unfold all_ge.
        rewrite <- (rolls_cover vs j (fun w => w <=? nth j vs 0)) by (try lia; apply Z.leb_refl). fold row. generalize (map (fun i => nth j (roll (i + 1) vs) 0) (seq 0 (row - 1))). intros l.
        replace (forallb (fun b => b =? 1) (map (fun w => if w <=? nth j vs 0 then 1 else 0) l)) with (forallb (fun w => w <=? nth j vs 0) l); [reflexivity|].
        induction l as [|w l IH]; [reflexivity|]. cbn [map forallb]. rewrite IH. now destruct (w <=? nth j vs 0). }
      rewrite Eres. eapply yields_map2; [|exact Hcols]. intros col xcol Hcol Hx. cbn beta.
      assert (exists l, col = map (fun b : Z => if b =? 1 then 1 else 0) l /\ length l = (row - 1)%nat /\ l = col) as (l & Ecol' & Ll & El).
      { exists col. split; [|split; [|reflexivity]].
        - rewrite Ecol in Hcol. apply in_map_iff in Hcol. destruct Hcol as (j & <- & _). generalize (map (fun i => nth j (roll (i + 1) vs) 0) (seq 0 (row - 1))). intros l. rewrite map_map. apply map_ext. intros w. now destruct (w <=? nth j vs 0).
        - rewrite Ecol in Hcol. apply in_map_iff in Hcol. destruct Hcol as (j & <- & _). now rewrite !map_length, seq_length. }
      subst l. destruct (Nat.ltb (row - 1) 128).
      + replace (if forallb (fun b => b =? 1) col then 1 else 0) with (zprod col).
        * apply prod_num_ok; [|exact Hx]. intros E. rewrite E in Ll. cbn in Ll. lia.
        * rewrite Ecol' at 1. apply zprod_bits.
      + pose proof (zsum_bits' col (fun b => b =? 1)) as [B1 B2]. rewrite <- Ecol' in B1, B2. rewrite Ll in B1, B2.
        replace (if forallb (fun b => b =? 1) col then 1 else 0) with (if Z.of_nat (row - 1) <=? zsum col then 1 else 0).
        * apply sum_ge_ok; [exact Hx| | |].
          -- intros E. rewrite E in Ll. cbn in Ll. lia.
          -- unfold in64. unfold H63 in *. lia.
          -- unfold in64. unfold H63 in *. lia.
        * destruct (Z.leb_spec (Z.of_nat (row - 1)) (zsum col)) as [G|G].
          -- now rewrite (proj1 B2 G).
          -- destruct (forallb (fun b => b =? 1) col); [|reflexivity]. pose proof (proj2 B2 eq_refl). lia.
  Qed.

  (** ** Maxima *)
  Definition is_max (m : Z) (vs : list Z) : Prop := In m vs /\ forall v, In v vs -> v <= m.
  Definition same_max (ws vs : list Z) : Prop := (forall w, In w ws -> In w vs) /\ (forall v, In v vs -> exists w, In w ws /\ v <= w).
  Lemma same_max_is m ws vs : same_max ws vs -> is_max m ws -> is_max m vs.
  Proof. intros [A B] [I M]. split; [auto|]. intros v Hv. destruct (B v Hv) as (w & Hw & L). specialize (M w Hw). lia. Qed.
  Lemma same_max_trans a b c : same_max a b -> same_max b c -> same_max a c.
  Proof.
    intros [A1 A2] [B1 B2]. split; [auto|]. intros v Hv. destruct (B2 v Hv) as (w & Hw & L). destruct (A2 w Hw) as (u & Hu & L'). exists u. split; [assumption|lia].
  Qed.
  Lemma same_max_refl a : same_max a a. Proof. split; [auto|]. intros v Hv. exists v. split; [assumption|lia]. Qed.
  Lemma has_max vs : vs <> [] -> exists m, is_max m vs.
  Proof.
    induction vs as [|a vs IH]; [contradiction|]. intros _. destruct vs as [|b vs].
    - exists a. split; [now left|]. intros v [->|[]]. lia.
    - destruct IH as (m & I & M); [discriminate|]. destruct (Z.le_gt_cases a m) as [H|H].
      + exists m. split; [now right|]. intros v [<-|Hv]; [assumption|auto].
      + exists a. split; [now left|]. intros v [<-|Hv]; [lia|]. specialize (M v Hv). lia.
  Qed.
  Lemma rep_num vs xs : Forall2 rep vs xs -> Forall2 (fun v x => nshare n v s x) vs xs.
  Proof. induction 1 as [|v x vs xs [_ H] _ IH]; constructor; assumption. Qed.
  Lemma rep_in vs xs : Forall2 rep vs xs -> forall v, In v vs -> In v V.
  Proof. induction 1 as [|v x vs xs [H _] _ IH]; intros w Hw; [destruct Hw|]. destruct Hw as [<-|Hw]; auto. Qed.

  Lemma one_hot_nth vs : forall k, (k < length vs)%nat -> zsum (zipw Z.mul vs (one_hot (length vs) k)) = nth k vs 0.
  Proof.
    assert (Z0 : forall vs l, (forall i, In i l -> i = 0) -> zsum (zipw Z.mul vs l) = 0).
    { induction vs0 as [|v vs0 IH]; intros [|i l] H; try reflexivity. rewrite zipw_cons. change (zsum (v * i :: zipw Z.mul vs0 l)) with (v * i + zsum (zipw Z.mul vs0 l)). rewrite IH by (intros; apply H; now right). rewrite (H i) by now left. ring. }
    induction vs as [|v vs IH]; intros k Hk; [cbn in Hk; lia|]. unfold one_hot. cbn [length]. change (seq 0 (S (length vs))) with (0%nat :: seq 1 (length vs)). cbn [map]. rewrite zipw_cons.
    match goal with |- zsum (?a :: ?b) = _ => change (zsum (a :: b)) with (a + zsum b) end. rewrite <- seq_shift, map_map. destruct k as [|k].
    - cbn [Nat.eqb nth]. rewrite Z0; [ring|]. intros i Hi. apply in_map_iff in Hi. destruct Hi as (j & <- & _). reflexivity.
    - cbn [Nat.eqb nth]. cbn [length] in Hk. specialize (IH k ltac:(lia)). unfold one_hot in IH. rewrite IH. ring.
  Qed.
  Lemma select_ok vs xs hs k : (k < length vs)%nat -> Forall2 (fun v x => nshare n v s x) vs xs -> Forall2 (fun v x => nshare n v 1 x) (one_hot (length vs) k) hs ->
    yields (select (pr := pr) xs hs) (nshare n (nth k vs 0) s).
  Proof.
    intros Hk Hx Hh. unfold select. eapply yields_bind; [eapply (yields_zip2 _ Z.mul _ _ (fun v x => nshare n v s x)); [|exact Hx|exact Hh]|].
    - intros v x w y Hv Hw. apply (mul_num_r1 n Hn pr HV); auto using s_pos.
    - intros z Hz. apply yields_ret. rewrite <- one_hot_nth by assumption. apply sum_num_ok; [|exact Hz]. intros E. apply (f_equal (@length Z)) in E. rewrite zipw_length in E; [cbn in E; lia|]. unfold one_hot. now rewrite map_length, seq_length.
  Qed.

  Lemma all_ge_iff vs v : In v vs -> (0 < all_ge vs v <-> is_max v vs).
  Proof.
    intros Hv. unfold all_ge. destruct (forallb (fun w => w <=? v) vs) eqn:E.
    - split; [|lia]. intros _. split; [assumption|]. rewrite forallb_forall in E. intros w Hw. apply Z.leb_le, E, Hw.
    - split; [lia|]. intros [_ M]. exfalso. rewrite <- Bool.not_true_iff_false in E. apply E. apply forallb_forall. intros w Hw. apply Z.leb_le, M, Hw.
  Qed.
  Lemma zsum_pos_nth ws k : Forall (fun w => 0 <= w) ws -> (k < length ws)%nat -> nth k ws 0 <= zsum ws.
  Proof.
    intros F. revert k. induction F as [|w ws Hw F IH]; intros k Hk; [cbn in Hk; lia|]. change (zsum (w :: ws)) with (w + zsum ws). assert (0 <= zsum ws) by (clear - F; induction F as [|x l Hx F IH]; [cbn; lia|]; change (zsum (x :: l)) with (x + zsum l); lia).
    destruct k; cbn [nth]; [lia|]. cbn [length] in Hk. specialize (IH k ltac:(lia)). lia.
  Qed.
  Lemma zsum_le_len (f : Z -> Z) c l : (forall v, 0 <= f v <= c) -> zsum (map f l) <= c * Z.of_nat (length l).
  Proof. intros H. induction l as [|a l IH]; [cbn; lia|]. cbn [map length]. change (zsum (f a :: map f l)) with (f a + zsum (map f l)). specialize (H a). lia. Qed.

  (** Tie-breaking among the maxima with weights [c] or 0. *)
  Lemma break_ties vs hs c (f : Z -> Z) : 0 < c -> vs <> [] -> (forall v, 0 <= f v <= c) -> (forall v, In v vs -> (0 < f v <-> is_max v vs)) -> c * Z.of_nat (length vs) * D < H63 ->
    Forall2 (fun v x => nshare n v 1 x) (map f vs) hs ->
    yields (weighted_index (pr := pr) D p local_bits hs) (fun a => exists k, (k < length vs)%nat /\ is_max (nth k vs 0) vs /\ Forall2 (fun v x => nshare n v 1 x) (one_hot (length vs) k) a).
  Proof.
    intros Hc N Hf Hm B H. assert (F : Forall (fun v => 0 <= v) (map f vs)) by (apply Forall_forall; intros w Hw; apply in_map_iff in Hw; destruct Hw as (v & <- & _); apply Hf).
    eapply yields_weaken; [apply (weighted_index_ok (map f vs)); [exact H|exact F| |]|].
    - destruct (has_max vs N) as (m & Im & Mm). destruct (In_nth vs m 0 Im) as (k & Hk & Ek). pose proof (zsum_pos_nth (map f vs) k F) as P. rewrite map_length in P. specialize (P Hk).
      rewrite (nth_indep _ 0 (f 0)) in P by (now rewrite map_length). rewrite map_nth, Ek in P. assert (0 < f m) by (apply Hm; [assumption|split; assumption]). lia.
    - pose proof (zsum_le_len f c vs Hf). pose proof D_bound. nia.
    - intros a (u & k & _ & _ & Hk & Hw & _ & Ha). rewrite map_length in Hk, Ha. exists k. split; [assumption|]. split; [|assumption].
      rewrite (nth_indep _ 0 (f 0)) in Hw by (now rewrite map_length). rewrite map_nth in Hw. apply Hm; [now apply nth_In|assumption].
  Qed.

  Lemma argmax_pairwise_ok vs xs : Forall2 rep vs xs -> vs <> [] -> Z.of_nat (length vs) * D < H63 ->
    yields (argmax_pairwise (pr := pr) D p local_bits xs) (fun a => exists k, (k < length vs)%nat /\ is_max (nth k vs 0) vs /\ Forall2 (fun v x => nshare n v 1 x) (one_hot (length vs) k) a).
  Proof.
    intros H N B. pose proof D_bound as DB. unfold argmax_pairwise. eapply yields_bind; [apply pairwise_mask_ok; [exact H|exact N|nia]|]. intros m Hm.
    apply (break_ties vs m 1 (all_ge vs)); [lia|exact N| |intros v Hv; now apply all_ge_iff|lia|exact Hm]. intros v. unfold all_ge. destruct (forallb _ vs); lia.
  Qed.
  Lemma max_pairwise_ok vs xs : Forall2 rep vs xs -> vs <> [] -> Z.of_nat (length vs) * D < H63 ->
    yields (max_pairwise (pr := pr) D p local_bits xs) (fun r => exists m, is_max m vs /\ rep m r).
  Proof.
    intros H N B. unfold max_pairwise. eapply yields_bind; [apply argmax_pairwise_ok; eassumption|]. intros a (k & Hk & M & Ha).
    eapply yields_weaken; [apply (select_ok vs xs a k Hk); [now apply rep_num|exact Ha]|]. intros r Hr. exists (nth k vs 0). split; [assumption|]. split; [|assumption]. apply (rep_in vs xs H), M.
  Qed.

  (** ** Tree reductions *)
  Lemma same_max_zip a b : length a = length b -> same_max (zipw Z.max a b) (a ++ b).
  Proof.
    revert b; induction a as [|x a IH]; intros [|y b] L; try discriminate; [apply same_max_refl|]. rewrite zipw_cons. destruct (IH b ltac:(cbn in L; lia)) as [A B]. split.
    - intros w [<-|Hw]; [rewrite in_app_iff; destruct (Z.max_spec x y) as [[_ ->]|[_ ->]]; cbn; auto|]. specialize (A w Hw). rewrite in_app_iff in *. cbn. tauto.
    - intros v Hv. rewrite in_app_iff in Hv. destruct Hv as [[<-|Hv]|[<-|Hv]].
      + exists (Z.max x y). split; [now left|lia].
      + destruct (B v ltac:(rewrite in_app_iff; tauto)) as (w & Hw & L'). exists w. split; [now right|assumption].
      + exists (Z.max x y). split; [now left|lia].
      + destruct (B v ltac:(rewrite in_app_iff; tauto)) as (w & Hw & L'). exists w. split; [now right|assumption].
  Qed.
  Lemma same_max_app a a' b : same_max a a' -> same_max (a ++ b) (a' ++ b).
  Proof.
    intros [A B]. split.
    - intros w Hw. rewrite in_app_iff in *. destruct Hw; auto.
    - intros v Hv. rewrite in_app_iff in Hv. destruct Hv as [Hv|Hv].
      + destruct (B v Hv) as (w & Hw & L). exists w. rewrite in_app_iff. auto.
      + exists v. rewrite in_app_iff. split; [auto|lia].
  Qed.
  Lemma pair_step_ok vs xs : Forall2 rep vs xs -> vs <> [] ->
    yields (pair_step (pr := pr) D xs) (fun ys => exists ws, Forall2 rep ws ys /\ ws <> [] /\ (length ws <= length vs)%nat /\ same_max ws vs).
  Proof.
    intros H N. unfold pair_step. pose proof (halves_rel _ _ _ H) as HR. pose proof (halves_app vs) as HA. destruct (halves vs) as [[a b] c], (halves xs) as [[x y] r].
    destruct HR as (Ra & Rb & Rc), HA as (E & L & Lh).
    eapply yields_bind; [eapply (yields_zip2 _ Z.max rep rep rep); [|exact Ra|exact Rb]|].
    - intros v1 x1 v2 x2 H1 H2. eapply yields_bind; [apply ge_rep; eassumption|]. intros cd Hc.
      eapply yields_weaken; [eapply (cwhere_ok n Hn pr HV v1 v2 (ge_bit v1 v2) s); [exact s_pos| |apply H1|exact Hc|apply H2]|].
      + unfold ge_bit. destruct (v2 <=? v1); auto.
      + intros r0 Hr. assert (Em : (if ge_bit v1 v2 =? 1 then v1 else v2) = Z.max v1 v2) by (unfold ge_bit; destruct (Z.leb_spec v2 v1); cbn [Z.eqb Pos.eqb]; lia). rewrite Em in Hr. split; [|exact Hr].
        destruct (Z.max_spec v1 v2) as [[_ ->]|[_ ->]]; [apply H2|apply H1].
    - intros z Hz. apply yields_ret. exists (zipw Z.max a b ++ c). split; [now apply Forall2_app|]. 
      assert (SM : same_max (zipw Z.max a b ++ c) vs). { rewrite E, app_assoc. apply same_max_app, same_max_zip, L. }
      split; [|split; [|exact SM]].
      + intros E0. destruct vs as [|v0 vs0]; [contradiction|]. destruct (proj2 SM v0 ltac:(now left)) as (w & Hw & _). rewrite E0 in Hw. destruct Hw.
      + rewrite app_length, zipw_length by assumption. rewrite E, !app_length. lia.
  Qed.
  Lemma pair_steps_ok k : forall vs xs, Forall2 rep vs xs -> vs <> [] ->
    yields (pair_steps (pr := pr) D k xs) (fun ys => exists ws, Forall2 rep ws ys /\ ws <> [] /\ (length ws <= length vs)%nat /\ same_max ws vs).
  Proof.
    induction k as [|k IH]; intros vs xs H N; cbn [pair_steps].
    - apply yields_ret. exists vs. split; [assumption|]. split; [assumption|]. split; [lia|apply same_max_refl].
    - eapply yields_bind; [apply pair_step_ok; eassumption|]. intros ys (ws & Hw & Nw & Lw & Sw). eapply yields_weaken; [apply IH; eassumption|].
      intros zs (us & Hu & Nu & Lu & Su). exists us. split; [assumption|]. split; [assumption|]. split; [lia|]. now apply same_max_trans with ws.
  Qed.

  (** matrices *)
  Lemma nth_concat {A} (d : A) m rows : Forall (fun r => length r = m) rows -> forall c j, (c < length rows)%nat -> (j < m)%nat -> nth (c * m + j) (concat rows) d = nth j (nth c rows []) d.
  Proof.
    induction 1 as [|r rows Lr F IH]; intros c j Hc Hj; [cbn in Hc; lia|]. cbn [concat]. destruct c as [|c].
    - rewrite app_nth1 by lia. reflexivity.
    - rewrite app_nth2 by lia. replace (S c * m + j - length r)%nat with (c * m + j)%nat by lia. apply IH; [cbn in Hc; lia|assumption].
  Qed.
  Lemma concat_length_eq {A} m (rows : list (list A)) : Forall (fun r => length r = m) rows -> length (concat rows) = (length rows * m)%nat.
  Proof. induction 1 as [|r rows Lr F IH]; [reflexivity|]. cbn [concat length]. rewrite app_length. lia. Qed.
  Lemma merge_nth {A} c k : forall (rows : list (list A)) i, (i < k)%nat -> nth i (merge c k rows) [] = concat (firstn c (skipn (i * c) rows)).
  Proof.
    induction k as [|k IH]; intros rows i Hi; [lia|]. cbn [merge]. destruct i as [|i]; [reflexivity|]. cbn [nth]. rewrite IH by lia. rewrite <- skipn_add. reflexivity.
  Qed.
  Lemma merge_length {A} c k : forall (rows : list (list A)), length (merge c k rows) = k.
  Proof. induction k as [|k IH]; intros rows; cbn [merge length]; [reflexivity|now rewrite IH]. Qed.
  Lemma chunks_length {A} m c : forall (row : list A), length (chunks m c row) = c.
  Proof. induction c as [|c IH]; intros row; cbn [chunks length]; [reflexivity|now rewrite IH]. Qed.
  Lemma nth_firstn' {A} (d : A) l : forall j m, (j < m)%nat -> nth j (firstn m l) d = nth j l d.
  Proof. induction l as [|a l IH]; intros j m H; [now rewrite firstn_nil|]. destruct m; [lia|]. destruct j; [reflexivity|]. cbn [firstn nth]. apply IH. lia. Qed.
  Lemma nth_skipn' {A} (d : A) l : forall j m, nth j (skipn m l) d = nth (m + j) l d.
  Proof. induction l as [|a l IH]; intros j m; [rewrite skipn_nil; destruct (m + j)%nat, j; reflexivity|]. destruct m; [reflexivity|]. cbn [skipn Nat.add nth]. apply IH. Qed.
  Lemma chunks_nth {A} (d : A) m c : forall (row : list A) i j, (i < c)%nat -> (j < m)%nat -> nth j (nth i (chunks m c row) []) d = nth (i * m + j) row d.
  Proof.
    induction c as [|c IH]; intros row i j Hi Hj; [lia|]. cbn [chunks]. destruct i as [|i]; cbn [nth]; [now apply nth_firstn'|]. rewrite IH by lia. rewrite nth_skipn'. f_equal. cbn [Nat.mul]. lia.
  Qed.
  Lemma chunks_rows {A} m c : forall (row : list A), length row = (c * m)%nat -> Forall (fun r => length r = m) (chunks m c row).
  Proof.
    induction c as [|c IH]; intros row L; cbn [chunks]; constructor; [rewrite firstn_length; lia|]. apply IH. rewrite skipn_length. lia.
  Qed.
  Lemma Forall2_concat {A B} (R : A -> B -> Prop) l m : Forall2 (Forall2 R) l m -> Forall2 R (concat l) (concat m).
  Proof. induction 1; cbn [concat]; [constructor|]. now apply Forall2_app. Qed.
  Lemma merge_rel {A B} (R : A -> B -> Prop) c k : forall l m, Forall2 (Forall2 R) l m -> Forall2 (Forall2 R) (merge c k l) (merge c k m).
  Proof. induction k as [|k IH]; intros l m H; cbn [merge]; constructor; [apply Forall2_concat; now apply Forall2_firstn|apply IH; now apply Forall2_skipn]. Qed.
  Lemma chunks_rel {A B} (R : A -> B -> Prop) m c : forall l l', Forall2 R l l' -> Forall2 (Forall2 R) (chunks m c l) (chunks m c l').
  Proof. induction c as [|c IH]; intros l l' H; cbn [chunks]; constructor; [now apply Forall2_firstn|apply IH; now apply Forall2_skipn]. Qed.
  Lemma columns_rel {A B} (R : A -> B -> Prop) da db m l l' : Forall2 (Forall2 R) l l' -> Forall (fun r => length r = m) l -> Forall2 (Forall2 R) (columns da m l) (columns db m l').
  Proof.
    intros H F. unfold columns. apply Forall2_map_same. intros j Hj. apply in_seq in Hj. induction H as [|r r' l l' Hr H IH]; cbn [map]; constructor; [|apply IH; now apply Forall_inv_tail in F].
    apply (Forall2_nth R r r' da db j Hr). apply Forall_inv in F. lia.
  Qed.
  Lemma Forall_firstn' {A} (P : A -> Prop) k l : Forall P l -> Forall P (firstn k l).
  Proof. intros H. revert k. induction H; intros [|k]; cbn [firstn]; constructor; auto. Qed.
  Lemma Forall_skipn' {A} (P : A -> Prop) k l : Forall P l -> Forall P (skipn k l).
  Proof. intros H. revert k. induction H; intros [|k]; cbn [skipn]; auto. Qed.

  Definition col (j : nat) (rows : list (list Z)) : list Z := map (fun r => nth j r 0) rows.
  (** Folding the first [k * c] rows into [k], taking columnwise maxima, and unfolding again preserves column maxima. *)
  Lemma fold_rows_max m c k rows rowv : (0 < c)%nat -> (k * c <= length rows)%nat -> (0 < k)%nat -> Forall (fun r => length r = m) rows -> length rowv = (c * m)%nat ->
    (forall t, (t < c * m)%nat -> is_max (nth t rowv 0) (col t (merge c k (firstn (k * c) rows)))) ->
    forall j, (j < m)%nat -> same_max (col j (chunks m c rowv ++ skipn (k * c) rows)) (col j rows).
  Proof.
    intros Hc Hkc Hk F L HM j Hj.
    assert (Mnth : forall i e, (i < k)%nat -> (e < c)%nat -> nth (e * m + j) (nth i (merge c k (firstn (k * c) rows)) []) 0 = nth j (nth (i * c + e) rows []) 0).
    { intros i e Hi He. assert (i * c + c <= k * c)%nat by nia. rewrite merge_nth by assumption. rewrite (nth_concat 0 m).
      - f_equal. rewrite nth_firstn' by assumption. rewrite nth_skipn'. apply nth_firstn'. lia.
      - now apply Forall_firstn', Forall_skipn', Forall_firstn'.
      - rewrite firstn_length, skipn_length, firstn_length. lia.
      - assumption. }
    unfold col at 1. rewrite map_app. split.
    - intros w Hw. apply in_app_iff in Hw. destruct Hw as [Hw|Hw].
      + apply in_map_iff in Hw. destruct Hw as (r & <- & Hr). destruct (In_nth _ _ [] Hr) as (e & He & <-). rewrite chunks_length in He. rewrite chunks_nth by assumption.
        destruct (HM (e * m + j)%nat ltac:(nia)) as [I _]. unfold col in I at 1. apply in_map_iff in I. destruct I as (r' & <- & Hr'). destruct (In_nth _ _ [] Hr') as (i & Hi & <-). rewrite merge_length in Hi.
        rewrite Mnth by assumption. unfold col. apply in_map_iff. exists (nth (i * c + e) rows []). split; [reflexivity|]. apply nth_In. nia.
      + unfold col. apply in_map_iff in Hw. destruct Hw as (r & <- & Hr). apply in_map_iff. exists r. split; [reflexivity|]. rewrite <- (firstn_skipn (k * c) rows). apply in_app_iff. now right.
    - intros v Hv. unfold col in Hv. apply in_map_iff in Hv. destruct Hv as (r & <- & Hr). destruct (In_nth _ _ [] Hr) as (t & Ht & <-). destruct (Nat.lt_ge_cases t (k * c)) as [Hl|Hl].
      + set (i := (t / c)%nat). set (e := (t mod c)%nat). assert (Et : t = (i * c + e)%nat) by (unfold i, e; rewrite Nat.mul_comm; apply Nat.div_mod; lia). assert (He : (e < c)%nat) by (apply Nat.mod_upper_bound; lia).
        assert (Hi : (i < k)%nat) by (apply Nat.div_lt_upper_bound; lia). destruct (HM (e * m + j)%nat ltac:(nia)) as [_ Mx]. exists (nth (e * m + j) rowv 0). split.
        * apply in_app_iff. left. apply in_map_iff. exists (nth e (chunks m c rowv) []). split; [now apply chunks_nth|]. apply nth_In. now rewrite chunks_length.
        * apply Mx. unfold col. apply in_map_iff. exists (nth i (merge c k (firstn (k * c) rows)) []). split; [rewrite Mnth by assumption; now rewrite Et|]. apply nth_In. now rewrite merge_length.
      + exists (nth j (nth t rows []) 0). split; [|lia]. apply in_app_iff. right. apply in_map_iff. exists (nth t rows []). split; [reflexivity|].
        replace t with (k * c + (t - k * c))%nat by lia. rewrite <- nth_skipn'. apply nth_In. rewrite skipn_length. lia.
  Qed.

  Variable isqrt : nat -> nat.
  Hypothesis Hsqrt : forall m, (2 <= m)%nat -> (1 <= isqrt m < m)%nat.

  Lemma double_log_ok fuel : forall m zrows rows, (1 <= length zrows <= S fuel)%nat -> Z.of_nat (length zrows) * D < H63 -> Forall (fun r => length r = m) zrows -> Forall2 (Forall2 rep) zrows rows ->
    yields (double_log (pr := pr) D p local_bits isqrt fuel rows) (fun res => exists rowv row, res = [row] /\ Forall2 rep rowv row /\ length rowv = m /\ forall j, (j < m)%nat -> is_max (nth j rowv 0) (col j zrows)).
  Proof.
    assert (one : forall m zrows rows, length zrows = 1%nat -> Forall (fun r => length r = m) zrows -> Forall2 (Forall2 rep) zrows rows ->
      exists rowv row, rows = [row] /\ Forall2 rep rowv row /\ length rowv = m /\ forall j, (j < m)%nat -> is_max (nth j rowv 0) (col j zrows)).
    { intros m zrows rows L F H. destruct H as [|z r zs rs Hz H]; [discriminate|]. destruct H; [|discriminate]. exists z, r. split; [reflexivity|]. split; [assumption|]. split; [now apply Forall_inv in F|].
      intros j Hj. cbn. split; [now left|]. intros v [<-|[]]. lia. }
    induction fuel as [|f IH]; intros m zrows rows L B F H; cbn [double_log].
    - apply yields_ret. apply one; [lia|assumption|assumption].
    - rewrite <- (Forall2_length _ _ _ H). destruct (Nat.eqb_spec (length zrows) 1) as [E1|N1]; [apply yields_ret; now apply one|].
      set (nn := length zrows) in *. set (k := isqrt nn). set (c := (nn / k)%nat). assert (Hk : (1 <= k < nn)%nat) by (apply Hsqrt; lia).
      assert (Hc : (1 <= c)%nat) by (apply Nat.div_le_lower_bound; lia). assert (Hkc : (k * c <= nn)%nat) by (apply Nat.mul_div_le; lia).
      assert (Em : length (hd [] rows) = m). { destruct H as [|z r zs rs Hz H]; [cbn in *; lia|]. cbn [hd]. rewrite <- (Forall2_length _ _ _ Hz). now apply Forall_inv in F. }
      rewrite Em. assert (Hmerge : Forall2 (Forall2 rep) (merge c k (firstn (k * c) zrows)) (merge c k (firstn (k * c) rows))) by (apply merge_rel; now apply Forall2_firstn).
      assert (Fmerge : Forall (fun r => length r = (c * m)%nat) (merge c k (firstn (k * c) zrows))).
      { apply Forall_forall. intros r Hr. destruct (In_nth _ _ [] Hr) as (i & Hi & <-). rewrite merge_length in Hi. assert (i * c + c <= k * c)%nat by nia. rewrite merge_nth by assumption. rewrite (concat_length_eq m).
        - rewrite firstn_length, skipn_length, firstn_length. fold nn. f_equal. lia.
        - now apply Forall_firstn', Forall_skipn', Forall_firstn'. }
      pose proof D_bound as DB.
      assert (L1 : (1 <= length (merge c k (firstn (k * c) zrows)) <= S f)%nat) by (rewrite merge_length; lia).
      assert (L2 : Z.of_nat (length (merge c k (firstn (k * c) zrows))) * D < H63) by (rewrite merge_length; nia).
      eapply yields_bind; [exact (IH (c * m)%nat _ _ L1 L2 Fmerge Hmerge)|].
      intros res (rowv & row & -> & Hrow & Lrow & HM). cbn [hd].
      pose proof (fold_rows_max m c k zrows rowv ltac:(lia) Hkc ltac:(lia) F Lrow HM) as SM.
      set (zfull := chunks m c rowv ++ skipn (k * c) zrows) in *.
      assert (Hfull : Forall2 (Forall2 rep) zfull (chunks m c row ++ skipn (k * c) rows)) by (apply Forall2_app; [now apply chunks_rel|now apply Forall2_skipn]).
      assert (Ffull : Forall (fun r => length r = m) zfull) by (apply Forall_app; split; [now apply chunks_rows|now apply Forall_skipn']).
      assert (Lfull : (1 <= length zfull <= nn)%nat).
      { unfold zfull. rewrite app_length, chunks_length, skipn_length. fold nn. nia. }
      eapply yields_bind; [apply yields_mapM with (R := fun c r => forall zc, Forall2 rep zc c -> zc <> [] -> Z.of_nat (length zc) * D < H63 -> exists mx, is_max mx zc /\ rep mx r)|].
      + intros cl _ st zc Hz Nz Bz. exact (max_pairwise_ok zc cl Hz Nz Bz st).
      + intros mx Hmx. apply yields_ret. pose proof (columns_rel rep 0 nil_num m _ _ Hfull Ffull) as Hcols.
        assert (K : exists rv, Forall2 rep rv mx /\ Forall2 is_max rv (columns 0 m zfull)).
        { assert (Fc : Forall (fun zc : list Z => zc <> [] /\ Z.of_nat (length zc) * D < H63) (columns 0 m zfull)).
          { apply Forall_forall. intros zc Hzc. unfold columns in Hzc. apply in_map_iff in Hzc. destruct Hzc as (j & <- & _). split; [intros E; apply (f_equal (@length Z)) in E; rewrite map_length in E; cbn in E; lia|]. rewrite map_length. nia. }
          revert mx Hmx. induction Hcols as [|zc cl zcs cls Hz Hcols IHc]; intros mx Hmx; inversion Hmx as [|? r ? mx' Hr Hmx' Ea Eb]; subst; [exists []; split; constructor|].
          pose proof (Forall_inv Fc) as [Nz Bz]. destruct (Hr zc Hz Nz Bz) as (v & Hv1 & Hv2). destruct (IHc (Forall_inv_tail Fc) mx' Hmx') as (rv & R1 & R2). exists (v :: rv). split; constructor; assumption. }
        destruct K as (rv & R1 & R2). exists rv, mx. split; [reflexivity|]. split; [assumption|]. pose proof (Forall2_length _ _ _ R2) as Lrv. unfold columns in Lrv. rewrite map_length, seq_length in Lrv. split; [exact Lrv|].
        intros j Hj. apply (same_max_is _ _ _ (SM j Hj)). pose proof (Forall2_nth _ _ _ 0 [] j R2 ltac:(lia)) as QQ. unfold columns in QQ.
        rewrite (nth_indep _ [] (map (fun r => nth 0 r 0) zfull)) in QQ by (now rewrite map_length, seq_length). rewrite (map_nth (fun j => map (fun r => nth j r 0) zfull) (seq 0 m) 0%nat j) in QQ. rewrite seq_nth in QQ by assumption. exact QQ.
  Qed.

  Lemma max_double_log_ok vs xs : Forall2 rep vs xs -> vs <> [] -> Z.of_nat (length vs) * D < H63 ->
    yields (max_double_log (pr := pr) D p local_bits isqrt xs) (fun r => exists m, is_max m vs /\ rep m r).
  Proof.
    intros H N B. unfold max_double_log. rewrite <- (Forall2_length _ _ _ H). eapply yields_bind.
    - apply (double_log_ok (length vs) 1%nat (map (fun v => [v]) vs)).
      + rewrite map_length. destruct vs; [contradiction|]. cbn. lia.
      + now rewrite map_length.
      + apply Forall_forall. intros r Hr. apply in_map_iff in Hr. destruct Hr as (v & <- & _). reflexivity.
      + clear - H. induction H; cbn [map]; constructor; [constructor; [assumption|constructor]|assumption].
    - intros res (rowv & row & -> & Hrow & L & HM). apply yields_ret. cbn [hd]. destruct Hrow as [|v x rv r Hv Hr]; [discriminate|]. cbn [hd]. exists v. split; [|assumption].
      specialize (HM 0%nat ltac:(lia)). cbn [nth] in HM. unfold col in HM. rewrite map_map in HM. cbn [nth] in HM. now rewrite map_id in HM.
  Qed.

  Variables log_steps cascade_steps : nat -> nat.
  Lemma max_log_ok vs xs : Forall2 rep vs xs -> vs <> [] -> Z.of_nat (length vs) * D < H63 ->
    yields (max_log (pr := pr) D p local_bits log_steps xs) (fun r => exists m, is_max m vs /\ rep m r).
  Proof.
    intros H N B. pose proof D_bound as DB. unfold max_log. eapply yields_bind; [apply pair_steps_ok; eassumption|]. intros ys (ws & Hw & Nw & Lw & Sw).
    eapply yields_weaken; [apply (max_pairwise_ok ws ys Hw Nw); nia|]. intros r (m & M & R). exists m. split; [now apply (same_max_is m ws)|assumption].
  Qed.
  Lemma max_cascade_ok vs xs : Forall2 rep vs xs -> vs <> [] -> Z.of_nat (length vs) * D < H63 ->
    yields (max_cascade (pr := pr) D p local_bits cascade_steps isqrt xs) (fun r => exists m, is_max m vs /\ rep m r).
  Proof.
    intros H N B. pose proof D_bound as DB. unfold max_cascade. destruct (Nat.ltb (length xs) 3); [now apply max_pairwise_ok|].
    eapply yields_bind; [apply pair_steps_ok; eassumption|]. intros ys (ws & Hw & Nw & Lw & Sw).
    eapply yields_weaken; [apply (max_double_log_ok ws ys Hw Nw); nia|]. intros r (m & M & R). exists m. split; [now apply (same_max_is m ws)|assumption].
  Qed.
  Lemma max_tree_ok me vs xs : Forall2 rep vs xs -> vs <> [] -> Z.of_nat (length vs) * D < H63 ->
    yields (max_tree (pr := pr) D p local_bits log_steps cascade_steps isqrt me xs) (fun r => exists m, is_max m vs /\ rep m r).
  Proof. intros H N B. destruct me; cbn [max_tree]; auto using max_log_ok, max_double_log_ok, max_cascade_ok. Qed.

  (** ** Arg-maxima *)
  Definition eqf : Z := if Nat.eqb n 2 then D / s else 1.
  Lemma eqf_range : 1 <= eqf <= D.
  Proof.
    pose proof D_bound. unfold eqf. destruct (Nat.eqb n 2); [|lia]. destruct Hs as [-> | ->]; [rewrite Z.div_1_r; lia|rewrite Z.div_same by lia; lia].
  Qed.
  Lemma eq_rep v w x y : rep v x -> rep w y -> yields (n_eq (pr := pr) D x (AEnc y)) (nshare n (if v =? w then eqf else 0) 1).
  Proof.
    intros [Iv Hx] [Iw Hy]. pose proof s_pos as Ps. assert (Iv1 : in64 (v - w)) by auto. assert (Iv2 : in64 (w - v)) by auto. pose proof Hx as [Hx1 Sx]. pose proof Hy as [Hy1 Sy].
    assert (Wf : wf_arg n (AEnc y)) by (cbn; split; [apply Hy1|split; [apply Hy1|lia]]).
    assert (Ew : wrap (v * (common x (AEnc y) / n_sc x) - aval (AEnc y) (common x (AEnc y))) = v - w).
    { unfold common, aval. rewrite Sx, Sy, Z.max_id, Z.div_same, !Z.mul_1_r, (ashare_open _ _ _ Hy1) by lia. rewrite <- (wrap_id (v - w)) by assumption. apply eqm_wrap_eq. rewrite wrap_eqm. reflexivity. }
    assert (Ec : common x (AEnc y) = s) by (unfold common; rewrite Sx, Sy; apply Z.max_id).
    unfold eqf. destruct (Nat.eqb_spec n 2) as [N2|N2].
    - pose proof (n_eq_2 n Hn pr HV D v x (AEnc y) N2 ltac:(lia) ltac:(now rewrite Sx) Wf) as G. cbv zeta in G. rewrite Ew, Ec in G. eapply yields_weaken; [exact G|]. intros r. apply nshare_eqm, eqm_refl_eq.
      destruct (Z.eqb_spec (v - w) 0), (Z.eqb_spec v w); lia.
    - pose proof (n_eq_many n Hn pr HV D v x (AEnc y) N2 ltac:(lia) ltac:(now rewrite Sx) Wf) as G. cbv zeta in G. rewrite (neval_ok n Hn D) in G by (try (rewrite Ec; apply s_ratio); rewrite Ew; unfold in64 in *; lia). rewrite Ew in G.
      eapply yields_weaken; [exact G|]. intros r. apply nshare_eqm, eqm_refl_eq. destruct (Z.eqb_spec (v - w) 0), (Z.eqb_spec v w); lia.
  Qed.
  Lemma is_max_unique a b vs : is_max a vs -> is_max b vs -> a = b.
  Proof. intros [I M] [I' M']. specialize (M b I'). specialize (M' a I). lia. Qed.

  (** What [_argmax_helper] returns: a one-hot vector on a maximum and, if present, the maximum. *)
  Lemma argmax_helper_ok me vs xs : Forall2 rep vs xs -> vs <> [] -> eqf * Z.of_nat (length vs) * D < H63 ->
    yields (argmax_helper (pr := pr) D p local_bits log_steps cascade_steps isqrt me xs) (fun r => 
      (exists k, (k < length vs)%nat /\ is_max (nth k vs 0) vs /\ Forall2 (fun v x => nshare n v 1 x) (one_hot (length vs) k) (fst r)) /\
      match snd r with None => True | Some x => exists m, is_max m vs /\ rep m x end).
  Proof.
    intros H N B. pose proof D_bound as DB. pose proof eqf_range as EB. assert (B' : Z.of_nat (length vs) * D < H63) by nia.
    assert (tree : forall me', yields (v <- max_tree (pr := pr) D p local_bits log_steps cascade_steps isqrt me' xs ;; h <- mapM (fun x => n_eq D x (AEnc v)) xs ;; a <- weighted_index D p local_bits h ;; ret (a, Some v)) (fun r => 
      (exists k, (k < length vs)%nat /\ is_max (nth k vs 0) vs /\ Forall2 (fun v x => nshare n v 1 x) (one_hot (length vs) k) (fst r)) /\
      match snd r with None => True | Some x => exists m, is_max m vs /\ rep m x end)).
    { intros me'. eapply yields_bind; [apply (max_tree_ok me' vs xs H N B')|]. intros mx (m & M & Rm).
      eapply yields_bind; [eapply (yields_map2 _ (fun v => if v =? m then eqf else 0) rep (fun v x => nshare n v 1 x)); [|exact H]|].
      - intros v x _ Hv. now apply eq_rep.
      - intros h Hh. eapply yields_bind; [apply (break_ties vs h eqf (fun v => if v =? m then eqf else 0)); [lia|exact N| | |exact B|exact Hh]|].
        + intros v. destruct (v =? m); lia.
        + intros v Hv. destruct (Z.eqb_spec v m) as [->|Ne]; [split; [auto|lia]|]. split; [lia|]. intros Mv. exfalso. apply Ne. now apply (is_max_unique v m vs).
        + intros a Ha. apply yields_ret. cbn [fst snd]. split; [exact Ha|]. exists m. split; assumption. }
    unfold argmax_helper. destruct me; [|apply tree|apply tree|apply tree].
    eapply yields_bind; [apply (argmax_pairwise_ok vs xs H N B')|]. intros a Ha. apply yields_ret. cbn [fst snd]. split; [exact Ha|exact I].
  Qed.
  Lemma argmax_ok me vs xs : Forall2 rep vs xs -> vs <> [] -> eqf * Z.of_nat (length vs) * D < H63 ->
    yields (argmax (pr := pr) D p local_bits log_steps cascade_steps isqrt me xs) (fun a => exists k, (k < length vs)%nat /\ is_max (nth k vs 0) vs /\ Forall2 (fun v x => nshare n v 1 x) (one_hot (length vs) k) a).
  Proof. intros H N B. unfold argmax. eapply yields_bind; [apply argmax_helper_ok; eassumption|]. intros r [Hr _]. apply yields_ret. exact Hr. Qed.
  Lemma max_dim_ok me vs xs : Forall2 rep vs xs -> vs <> [] -> eqf * Z.of_nat (length vs) * D < H63 ->
    yields (max_dim (pr := pr) D p local_bits log_steps cascade_steps isqrt me xs) (fun r =>
      exists k, (k < length vs)%nat /\ is_max (nth k vs 0) vs /\ nshare n (nth k vs 0) s (fst r) /\ Forall2 (fun v x => nshare n v 1 x) (one_hot (length vs) k) (snd r)).
  Proof.
    intros H N B. unfold max_dim. eapply yields_bind; [apply argmax_helper_ok; eassumption|]. intros [h [v|]] [(k & Hk & M & Ha) Hv]; cbn [fst snd] in *.
    - apply yields_ret. destruct Hv as (m & Mm & [_ Rm]). exists k. cbn [fst snd]. rewrite (is_max_unique _ _ _ M Mm) at 2. split; [assumption|]. split; [assumption|]. split; assumption.
    - eapply yields_bind; [apply (select_ok vs xs h k Hk (rep_num _ _ H) Ha)|]. intros v Hvv. apply yields_ret. exists k. cbn [fst snd]. split; [assumption|]. split; [assumption|]. split; assumption.
  Qed.
  Lemma max_all_ok me vs xs : Forall2 rep vs xs -> vs <> [] -> eqf * Z.of_nat (length vs) * D < H63 ->
    yields (max_all (pr := pr) D p local_bits log_steps cascade_steps isqrt me xs) (fun r => exists m, is_max m vs /\ nshare n m s r).
  Proof.
    intros H N B. pose proof D_bound as DB. pose proof eqf_range as EB. assert (B' : Z.of_nat (length vs) * D < H63) by nia.
    assert (sel : forall me', yields (a <- argmax (pr := pr) D p local_bits log_steps cascade_steps isqrt me' xs ;; select xs a) (fun r => exists m, is_max m vs /\ nshare n m s r)).
    { intros me'. eapply yields_bind; [apply argmax_ok; eassumption|]. intros a (k & Hk & M & Ha). eapply yields_weaken; [apply (select_ok vs xs a k Hk (rep_num _ _ H) Ha)|]. intros r Hr. exists (nth k vs 0). split; assumption. }
    assert (tr : forall me', yields (max_tree (pr := pr) D p local_bits log_steps cascade_steps isqrt me' xs) (fun r => exists m, is_max m vs /\ nshare n m s r)).
    { intros me'. eapply yields_weaken; [apply (max_tree_ok me' vs xs H N B')|]. intros r (m & M & [_ R]). exists m. split; assumption. }
    unfold max_all. destruct me; [apply sel|apply tr|apply tr|apply sel].
  Qed.

  (** index form *)
  Lemma zipw_mul_comm l : forall m, zipw Z.mul l m = zipw Z.mul m l.
  Proof. induction l as [|a l IH]; intros [|b m]; try reflexivity. rewrite !zipw_cons, IH. f_equal. ring. Qed.
  Lemma mul_itensor_1 v x k : nshare n v 1 x -> yields (mul_itensor (pr := pr) x k) (nshare n (v * k) 1).
  Proof.
    intros [Hx Sx]. unfold mul_itensor. rewrite Sx. cbn [mul_pub_rescale]. change (mul_pub_rescale 1) with (@None Z, 1). apply yields_ret. split; [|reflexivity]. cbn [n_sh].
    eapply ashare_eqm; [apply mul_int_ok, Hx|]. unfold encodeZ. rewrite wmul_eqm. apply eqm_refl_eq. ring.
  Qed.
  Lemma one_hot_to_index_ok len k a : (k < len)%nat -> Forall2 (fun v x => nshare n v 1 x) (one_hot len k) a -> yields (one_hot_to_index (pr := pr) a) (nshare n (Z.of_nat k) 1).
  Proof.
    intros Hk H. unfold one_hot_to_index. pose proof (Forall2_length _ _ _ H) as L. unfold one_hot in L. rewrite map_length, seq_length in L. rewrite <- L.
    set (ids := map Z.of_nat (seq 0 len)). assert (Li : length ids = len) by (unfold ids; now rewrite map_length, seq_length).
    eapply yields_bind; [eapply (yields_zip2 _ Z.mul (fun v x => nshare n v 1 x) eq (fun v x => nshare n v 1 x)); [|exact H|]|].
    - intros v x w y Hv <-. now apply mul_itensor_1.
    - instantiate (1 := ids). clear. induction ids; constructor; auto.
    - intros z Hz. apply yields_ret. replace (Z.of_nat k) with (zsum (zipw Z.mul (one_hot len k) ids)).
      + apply sum_num_ok; [|exact Hz]. intros E. apply (f_equal (@length Z)) in E. rewrite zipw_length in E; unfold one_hot in *; rewrite map_length, seq_length in *; [cbn in E; lia|congruence].
      + replace (zipw Z.mul (one_hot len k) ids) with (zipw Z.mul ids (one_hot len k)).
        * rewrite <- Li. rewrite one_hot_nth by lia. unfold ids. rewrite (nth_indep _ 0 (Z.of_nat 0)) by (rewrite map_length, seq_length; assumption). rewrite map_nth, seq_nth by assumption. reflexivity.
        * apply zipw_mul_comm.
  Qed.
  Lemma argmax_index_ok me vs xs : Forall2 rep vs xs -> vs <> [] -> eqf * Z.of_nat (length vs) * D < H63 ->
    yields (argmax_index (pr := pr) D p local_bits log_steps cascade_steps isqrt me xs) (fun r => exists k, (k < length vs)%nat /\ is_max (nth k vs 0) vs /\ nshare n (Z.of_nat k) 1 r).
  Proof.
    intros H N B. unfold argmax_index. eapply yields_bind; [apply argmax_ok; eassumption|]. intros a (k & Hk & M & Ha). eapply yields_weaken; [apply (one_hot_to_index_ok (length vs) k a Hk Ha)|].
    intros r Hr. exists k. split; [assumption|]. split; assumption.
  Qed.
End M.

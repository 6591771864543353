(** Proofs about the trusted-first-party provider. *)
Require Import ZArith List Lia.
From Verif Require Import Ring64 Sharing Sharing_proofs Arith Arith_proofs Beaver Beaver_proofs Trunc Tfp Provider.
Import ListNotations.
Open Scope Z_scope.

Section TP.
  Context {gstate : Type}.
  Variable draw draw_bits : gstate -> nat -> list Z * gstate.
  Hypothesis draw_length : forall g k, length (fst (draw g k)) = k.
  Hypothesis draw_in64 : forall g k, Forall in64 (fst (draw g k)).
  Hypothesis bits_length : forall g k, length (fst (draw_bits g k)) = k.
  Hypothesis bits_bit : forall g k, Forall (fun b => b = 0 \/ b = 1) (fst (draw_bits g k)).

  Definition good (n : nat) (w : world gstate) : Prop := synced w /\ length w = n.
  Definition shared (n k : nat) (s : list (list Z)) : Prop := length s = n /\ Forall (fun t => length t = k) s /\ Forall (Forall in64) s.

  Lemma enc_ok n d x w : (0 < n)%nat -> good n w -> Forall in64 x ->
    let '(s, w') := encrypt_arith _ draw d 0 x w in shared n (length x) s /\ reveal_arith s = x /\ good n w'.
  Proof.
    intros Hn [Hs HL] Hx. pose proof (encrypt_reveal draw draw_length d 0 x w Hs ltac:(lia) Hx) as R.
    pose proof (enc_snd draw d 0 x w) as E. destruct (encrypt_arith gstate draw d 0 x w) as [s w'] eqn:Ee. cbn [fst snd] in *.
    assert (Es : s = add_at wadd 0 x (fst (przs _ draw wsub d (length x) w))).
    { unfold encrypt_arith in Ee. destruct (przs gstate draw wsub d (length x) w). now inversion Ee. }
    split; [|split; [assumption|]].
    - subst s. split; [|split].
      + rewrite add_at_length, przs_fst_length. assumption.
      + apply add_at_shapes; [reflexivity|]. now apply przs_shapes.
      + apply add_at_in64. apply przs_arith_in64.
    - subst w'. split; [now apply przs_synced|]. now rewrite przs_length.
  Qed.

  Lemma przs_xor_in64 d k w : Forall (Forall in64) (fst (przs _ draw Z.lxor d k w)).
  Proof.
    rewrite przs_fst. apply Forall_forall. intros s Hs. apply in_map_iff in Hs as (g & <- & _).
    apply Forall_forall. intros z Hz. apply in_map_iff in Hz as ([p q] & <- & Hz). cbn. apply in64_lxor.
    - apply in_combine_l in Hz. pose proof (draw_in64 (g_prev _ g d) k) as D. rewrite Forall_forall in D. auto.
    - apply in_combine_r in Hz. pose proof (draw_in64 (g_next _ g d) k) as D. rewrite Forall_forall in D. auto.
  Qed.

  Lemma zipw_lxor_in64 l m : Forall in64 l -> Forall in64 m -> Forall in64 (zipw Z.lxor l m).
  Proof.
    intros Hl. revert m. induction Hl as [|a l Ha Hl IH]; intros m Hm; [constructor|]. destruct Hm; [constructor|]. rewrite zipw_cons. constructor; auto using in64_lxor.
  Qed.

  Lemma benc_ok n d x w : (0 < n)%nat -> good n w -> Forall in64 x ->
    let '(s, w') := encrypt_bin _ draw d 0 x w in shared n (length x) s /\ reveal_bin s = x /\ good n w'.
  Proof.
    intros Hn [Hs HL] Hx. pose proof (encrypt_bin_reveal draw draw_length d 0 x w Hs ltac:(lia)) as R.
    pose proof (benc_snd draw d 0 x w) as E. destruct (encrypt_bin gstate draw d 0 x w) as [s w'] eqn:Ee. cbn [fst snd] in *.
    assert (Es : s = add_at Z.lxor 0 x (fst (przs _ draw Z.lxor d (length x) w))).
    { unfold encrypt_bin in Ee. destruct (przs gstate draw Z.lxor d (length x) w). now inversion Ee. }
    split; [|split; [assumption|]].
    - subst s. split; [|split].
      + rewrite add_at_length, przs_fst_length. assumption.
      + apply add_at_shapes; [reflexivity|]. now apply przs_shapes.
      + pose proof (przs_xor_in64 d (length x) w) as F. destruct F; constructor; auto. now apply zipw_lxor_in64.
    - subst w'. split; [now apply przs_synced|]. now rewrite przs_length.
  Qed.

  Lemma bil_in64 T x y : Forall in64 (bil T x y).
  Proof. apply Forall_forall. intros z Hz. apply in_map_iff in Hz as (row & <- & _). apply bil_row_in64. Qed.
  Lemma zipw_land_in64 l m : Forall in64 l -> Forall in64 m -> Forall in64 (zipw Z.land l m).
  Proof.
    intros Hl. revert m. induction Hl as [|a l Ha Hl IH]; intros m Hm; [constructor|]. destruct Hm; [constructor|]. rewrite zipw_cons. constructor; auto using in64_land.
  Qed.

  Lemma tfp_triple_ok n d k k' T st : (0 < n)%nat -> good n (snd st) ->
    let '((a, b, c), st') := tfp_triple _ draw d k k' T st in
    shared n k a /\ shared n k' b /\ shared n (length T) c /\ reveal_arith c = bil T (reveal_arith a) (reveal_arith b) /\ good n (snd st').
  Proof.
    intros Hn G. destruct st as [g w]. cbn [snd] in G. unfold tfp_triple.
    pose proof (draw_length g k) as L1. pose proof (draw_in64 g k) as I1. destruct (draw g k) as [a g1].
    pose proof (draw_length g1 k') as L2. pose proof (draw_in64 g1 k') as I2. destruct (draw g1 k') as [b g2]. cbn [fst] in *.
    pose proof (enc_ok n d a w Hn G I1) as E1. destruct (encrypt_arith gstate draw d 0 a w) as [sa w1]. destruct E1 as (S1 & R1 & G1).
    pose proof (enc_ok n d b w1 Hn G1 I2) as E2. destruct (encrypt_arith gstate draw d 0 b w1) as [sb w2]. destruct E2 as (S2 & R2 & G2).
    pose proof (enc_ok n d (bil T a b) w2 Hn G2 (bil_in64 T a b)) as E3. destruct (encrypt_arith gstate draw d 0 (bil T a b) w2) as [sc w3]. destruct E3 as (S3 & R3 & G3).
    rewrite L1 in S1. rewrite L2 in S2. rewrite bil_length in S3. rewrite R1, R2, R3. auto.
  Qed.

  Lemma reveal_split n k s : (0 < n)%nat -> shared n (k + k) s -> reveal_arith (map (firstn k) s) = firstn k (reveal_arith s) /\ reveal_arith (map (skipn k) s) = skipn k (reveal_arith s).
  Proof.
    intros Hn (L & F & _). destruct s as [|t s]; [cbn [length] in L; lia|]. cbn [map reveal_arith]. inversion F as [|? ? Ht Fs]; subst. clear F Hn.
    revert t Ht. induction Fs as [|u s Hu Fs IH]; intros t Ht; cbn [map fold_left]; [split; reflexivity|].
    assert (A : zipw wadd (firstn k t) (firstn k u) = firstn k (zipw wadd t u) /\ zipw wadd (skipn k t) (skipn k u) = skipn k (zipw wadd t u)).
    { clear. revert t u. induction k as [|k IH]; intros t u; cbn [firstn skipn]; [split; reflexivity|]. destruct t as [|a t], u as [|b u].
      - split; reflexivity.
      - split; reflexivity.
      - split; [reflexivity|]. unfold zipw. cbn [combine map]. now destruct (skipn k t).
      - rewrite !zipw_cons. cbn [firstn skipn]. destruct (IH t u) as [-> ->]. split; reflexivity. }
    destruct A as [-> ->]. apply IH. rewrite zipw_length; congruence.
  Qed.

  Lemma Forall_firstn_ {A} (P : A -> Prop) k l : Forall P l -> Forall P (firstn k l).
  Proof. intros H. revert k. induction H; intros [|k]; cbn [firstn]; constructor; auto. Qed.
  Lemma Forall_skipn_ {A} (P : A -> Prop) k l : Forall P l -> Forall P (skipn k l).
  Proof. intros H. revert k. induction H; intros [|k]; cbn [skipn]; auto. Qed.

  Lemma tfp_square_ok n d k st : (0 < n)%nat -> good n (snd st) ->
    let '((r, r2), st') := tfp_square _ draw d k st in
    shared n k r /\ shared n k r2 /\ reveal_arith r2 = zipw wmul (reveal_arith r) (reveal_arith r) /\ good n (snd st').
  Proof.
    intros Hn G. destruct st as [g w]. cbn [snd] in G. unfold tfp_square.
    pose proof (draw_length g k) as L1. pose proof (draw_in64 g k) as I1. destruct (draw g k) as [r g1]. cbn [fst] in *.
    assert (L2 : length (zipw wmul r r) = k) by (rewrite zipw_length; auto).
    assert (I2 : Forall in64 (zipw wmul r r)) by (apply zipw_wop_in64; intros; apply wmul_in64).
    pose proof (enc_ok n d (r ++ zipw wmul r r) w Hn G ltac:(apply Forall_app; auto)) as E. destruct (encrypt_arith gstate draw d 0 (r ++ zipw wmul r r) w) as [s w1]. destruct E as (S1 & R1 & G1).
    rewrite app_length, L1, L2 in S1. destruct (reveal_split n k s Hn S1) as [-> ->]. rewrite R1. rewrite <- L1, firstn_app, skipn_app, L1, firstn_all2, skipn_all2, Nat.sub_diag by lia. cbn [firstn skipn app]. rewrite app_nil_r.
    destruct S1 as (A & B & C). split; [|split; [|split; [reflexivity|assumption]]].
    - split; [now rewrite map_length|]. split; apply Forall_map.
      + eapply Forall_impl; [|exact B]. intros t Ht. cbn in *. rewrite firstn_length. lia.
      + eapply Forall_impl; [|exact C]. intros t Ht. now apply Forall_firstn_.
    - split; [now rewrite map_length|]. split; apply Forall_map.
      + eapply Forall_impl; [|exact B]. intros t Ht. cbn in *. rewrite skipn_length. lia.
      + eapply Forall_impl; [|exact C]. intros t Ht. now apply Forall_skipn_.
  Qed.

  Lemma tfp_binary_ok n d k st : (0 < n)%nat -> good n (snd st) ->
    let '((a, b, c), st') := tfp_binary _ draw d k st in
    shared n k a /\ shared n k b /\ shared n k c /\ reveal_bin c = zipw Z.land (reveal_bin a) (reveal_bin b) /\ good n (snd st').
  Proof.
    intros Hn G. destruct st as [g w]. cbn [snd] in G. unfold tfp_binary.
    pose proof (draw_length g k) as L1. pose proof (draw_in64 g k) as I1. destruct (draw g k) as [a g1].
    pose proof (draw_length g1 k) as L2. pose proof (draw_in64 g1 k) as I2. destruct (draw g1 k) as [b g2]. cbn [fst] in *.
    pose proof (benc_ok n d a w Hn G I1) as E1. destruct (encrypt_bin gstate draw d 0 a w) as [sa w1]. destruct E1 as (S1 & R1 & G1).
    pose proof (benc_ok n d b w1 Hn G1 I2) as E2. destruct (encrypt_bin gstate draw d 0 b w1) as [sb w2]. destruct E2 as (S2 & R2 & G2).
    pose proof (benc_ok n d (zipw Z.land a b) w2 Hn G2 (zipw_land_in64 a b I1 I2)) as E3. destruct (encrypt_bin gstate draw d 0 (zipw Z.land a b) w2) as [sc w3]. destruct E3 as (S3 & R3 & G3).
    rewrite zipw_length in S3 by congruence. rewrite L1 in S1, S3. rewrite L2 in S2. rewrite R1, R2, R3. auto.
  Qed.

  Lemma draw_many_ok n k g : shared n k (fst (draw_many _ draw n k g)).
  Proof.
    revert g. induction n as [|n IH]; intros g; cbn [draw_many fst]; [repeat split; constructor|].
    pose proof (draw_length g k) as L1. pose proof (draw_in64 g k) as I1. destruct (draw g k) as [r g1]. specialize (IH g1). destruct (draw_many gstate draw n k g1) as [rs g2]. cbn [fst] in *.
    destruct IH as (A & B & C). repeat split; [cbn [length]; congruence|now constructor|now constructor].
  Qed.

  Lemma count_wraps_from_in64 l : forall prev acc, in64 acc -> in64 (count_wraps_from prev acc l).
  Proof. induction l as [|c l IH]; intros prev acc H; cbn [count_wraps_from]; [assumption|]. apply IH, wadd_in64. Qed.
  Lemma count_wraps_in64 l : in64 (count_wraps l).
  Proof. destruct l; [apply in64_0|]. apply count_wraps_from_in64, in64_0. Qed.

  Lemma tfp_wrap_ok n d k st : (0 < n)%nat -> good n (snd st) ->
    let '((r, th), st') := tfp_wrap _ draw d k st in
    shared n k r /\ shared n k th /\ reveal_arith th = map (fun j => count_wraps (map (fun t => nth j t 0) r)) (seq 0 k) /\ good n (snd st').
  Proof.
    intros Hn G. destruct st as [g w]. cbn [snd] in G. unfold tfp_wrap. destruct (G) as [_ GL]. rewrite GL.
    pose proof (draw_many_ok n k g) as D. destruct (draw_many gstate draw n k g) as [r g1]. cbn [fst] in D.
    set (theta := map (fun j => count_wraps (map (fun t => nth j t 0) r)) (seq 0 k)).
    assert (I : Forall in64 theta) by (apply Forall_forall; intros z Hz; apply in_map_iff in Hz as (j & <- & _); apply count_wraps_in64).
    pose proof (enc_ok n d theta w Hn G I) as E. destruct (encrypt_arith gstate draw d 0 theta w) as [s w1]. destruct E as (S1 & R1 & G1).
    unfold theta in S1 at 1. rewrite map_length, seq_length in S1. auto.
  Qed.

  Lemma bits_in64 l : Forall (fun b => b = 0 \/ b = 1) l -> Forall in64 l.
  Proof. apply Forall_impl. intros a [-> | ->]; unfold in64, H63; lia. Qed.

  Lemma tfp_b2a_ok n d k st : (0 < n)%nat -> good n (snd st) ->
    let '((rA, rB), st') := tfp_b2a _ draw draw_bits d k st in
    shared n k rA /\ shared n k rB /\ reveal_arith rA = reveal_bin rB /\ Forall (fun b => b = 0 \/ b = 1) (reveal_bin rB) /\ good n (snd st').
  Proof.
    intros Hn G. destruct st as [g w]. cbn [snd] in G. unfold tfp_b2a.
    pose proof (bits_length g k) as L1. pose proof (bits_bit g k) as B1. destruct (draw_bits g k) as [r g1]. cbn [fst] in *. pose proof (bits_in64 r B1) as I1.
    pose proof (enc_ok n d r w Hn G I1) as E1. destruct (encrypt_arith gstate draw d 0 r w) as [sa w1]. destruct E1 as (S1 & R1 & G1).
    pose proof (benc_ok n d r w1 Hn G1 I1) as E2. destruct (encrypt_bin gstate draw d 0 r w1) as [sb w2]. destruct E2 as (S2 & R2 & G2).
    rewrite L1 in S1, S2. rewrite R1, R2. auto.
  Qed.

  Lemma tfp_zero_ok n d k st : (0 < n)%nat -> good n (snd st) ->
    let '(z, st') := tfp_zero _ draw d k st in shared n k z /\ (forall j, (j < k)%nat -> zsum (map (fun t => nth j t 0) z) == 0) /\ good n (snd st').
  Proof.
    intros Hn [Hs HL]. destruct st as [g w]. cbn [snd] in *. unfold tfp_zero.
    pose proof (przs_fst_length draw wsub d k w) as A. pose proof (przs_shapes draw draw_length wsub d k w) as B. pose proof (przs_arith_in64 draw d k w) as C.
    pose proof (fun j => przs_elem_sum draw draw_length d k w j Hs) as D. pose proof (przs_synced draw wsub d k w Hs) as E. pose proof (przs_length draw wsub d k w) as F.
    destruct (przs gstate draw wsub d k w) as [z w']. cbn [fst snd] in *. split; [|split; [exact D|split; [exact E|congruence]]]. repeat split; auto; congruence.
  Qed.
  Lemma tfp_bzero_ok n d k st : (0 < n)%nat -> good n (snd st) ->
    let '(z, st') := tfp_bzero _ draw d k st in shared n k z /\ (forall j, (j < k)%nat -> zxor (map (fun t => nth j t 0) z) = 0) /\ good n (snd st').
  Proof.
    intros Hn [Hs HL]. destruct st as [g w]. cbn [snd] in *. unfold tfp_bzero.
    pose proof (przs_fst_length draw Z.lxor d k w) as A. pose proof (przs_shapes draw draw_length Z.lxor d k w) as B. pose proof (przs_xor_in64 d k w) as C.
    pose proof (fun j => przs_elem_xor draw draw_length d k w j Hs) as D. pose proof (przs_synced draw Z.lxor d k w Hs) as E. pose proof (przs_length draw Z.lxor d k w) as F.
    destruct (przs gstate draw Z.lxor d k w) as [z w']. cbn [fst snd] in *. split; [|split; [exact D|split; [exact E|congruence]]]. repeat split; auto; congruence.
  Qed.

  (** ** Histories *)
  Section H.
  Variable seeded : Z -> gstate.
  Lemma tfp_step_good n st r : (0 < n)%nat -> good n (snd st) -> good n (snd (tfp_step _ draw draw_bits seeded st r)).
  Proof.
    intros Hn G. destruct r; cbn [tfp_step].
    - pose proof (tfp_triple_ok n d k k' T st Hn G) as H. destruct (tfp_triple gstate draw d k k' T st) as [[[a b] c] st']. apply H.
    - pose proof (tfp_square_ok n d k st Hn G) as H. destruct (tfp_square gstate draw d k st) as [[a b] st']. apply H.
    - pose proof (tfp_binary_ok n d k st Hn G) as H. destruct (tfp_binary gstate draw d k st) as [[[a b] c] st']. apply H.
    - pose proof (tfp_wrap_ok n d k st Hn G) as H. destruct (tfp_wrap gstate draw d k st) as [[a b] st']. apply H.
    - pose proof (tfp_b2a_ok n d k st Hn G) as H. destruct (tfp_b2a gstate draw draw_bits d k st) as [[a b] st']. apply H.
    - cbn [snd]. destruct G as [Hs HL]. destruct (step_inv seeded draw (snd st) c Hs) as [A B]. split; [assumption|congruence].
  Qed.
  Lemma tfp_history_good n h : forall st, (0 < n)%nat -> good n (snd st) -> good n (snd (tfp_history _ draw draw_bits seeded h st)).
  Proof. induction h as [|r h IH]; intros st Hn G; cbn [tfp_history fold_left]; [assumption|]. apply IH; [assumption|]. now apply tfp_step_good. Qed.
  Lemma setup_good ns gs w : setup_prng _ seeded ns gs = Some w -> good (length ns) w.
  Proof. intros H. apply setup_synced in H. exact H. Qed.
  End H.

  (** ** As a provider of single elements *)
  Definition elem (s : list (list Z)) : list Z := map (fun t => nth 0 t 0) s.

  Lemma elem_in64 n s : shared n 1 s -> Forall in64 (elem s) /\ length (elem s) = n.
  Proof.
    intros (L & F & I). split; [|unfold elem; now rewrite map_length]. apply Forall_map. apply Forall_forall. intros t Ht.
    rewrite Forall_forall in F, I. specialize (F t Ht). specialize (I t Ht). destruct t as [|a [|]]; cbn [length] in F; try lia. cbn. now inversion I.
  Qed.
  Lemma shared_ne n k s : (0 < n)%nat -> shared n k s -> s <> [].
  Proof. intros Hn (L & _) ->. cbn [length] in L. lia. Qed.
  Lemma reveal_arith_in64 n k s : (0 < n)%nat -> shared n k s -> Forall in64 (reveal_arith s).
  Proof. intros Hn (L & _ & I). destruct s as [|t s]; [constructor|]. cbn. apply fold_zipw_wadd_in64. now inversion I. Qed.
  Lemma elem_open_a n s : (0 < n)%nat -> shared n 1 s -> reveal_arith s = [open_a (elem s)].
  Proof.
    intros Hn H. pose proof (shared_ne _ _ _ Hn H) as Ne. pose proof (reveal_arith_in64 _ _ _ Hn H) as I. destruct H as (L & F & _).
    pose proof (reveal_arith_length s 1 Ne F) as LL. pose proof (reveal_arith_nth s 1 0 Ne F ltac:(lia)) as E.
    destruct (reveal_arith s) as [|v [|]]; cbn [length] in LL; try lia. f_equal. cbn [nth] in E. apply eqm_in64_eq; [now inversion I|apply open_a_in64|]. now rewrite open_a_eqm.
  Qed.
  Lemma elem_open_b n s : (0 < n)%nat -> shared n 1 s -> reveal_bin s = [open_b (elem s)].
  Proof.
    intros Hn H. pose proof (shared_ne _ _ _ Hn H) as Ne. destruct H as (L & F & _).
    pose proof (reveal_bin_length s 1 Ne F) as LL. pose proof (reveal_bin_nth s 1 0 Ne F ltac:(lia)) as E.
    destruct (reveal_bin s) as [|v [|]]; cbn [length] in LL; try lia. f_equal. cbn [nth] in E. now rewrite open_b_eq.
  Qed.

  Section P.
    Variable n : nat.
    Hypothesis Hn : (0 < n)%nat.
    Definition gst : Type := { st : tfp_state gstate | good n (snd st) }.

    Definition lift3 (f : tfp_state gstate -> (list (list Z) * list (list Z) * list (list Z)) * tfp_state gstate)
      (Hf : forall st, good n (snd st) -> good n (snd (snd (f st)))) (s : gst) : (list Z * list Z * list Z) * gst :=
      let '(a, b, c) := fst (f (proj1_sig s)) in ((elem a, elem b, elem c), exist _ (snd (f (proj1_sig s))) (Hf _ (proj2_sig s))).
    Definition lift2 (f : tfp_state gstate -> (list (list Z) * list (list Z)) * tfp_state gstate)
      (Hf : forall st, good n (snd st) -> good n (snd (snd (f st)))) (s : gst) : (list Z * list Z) * gst :=
      let '(a, b) := fst (f (proj1_sig s)) in ((elem a, elem b), exist _ (snd (f (proj1_sig s))) (Hf _ (proj2_sig s))).
    Definition lift1 (f : tfp_state gstate -> list (list Z) * tfp_state gstate)
      (Hf : forall st, good n (snd st) -> good n (snd (snd (f st)))) (s : gst) : list Z * gst :=
      (elem (fst (f (proj1_sig s))), exist _ (snd (f (proj1_sig s))) (Hf _ (proj2_sig s))).

    Lemma lift3_fst f Hf s : fst (lift3 f Hf s) = let '(a, b, c) := fst (f (proj1_sig s)) in (elem a, elem b, elem c).
    Proof. unfold lift3. destruct (fst (f (proj1_sig s))) as [[a b] c]. reflexivity. Qed.
    Lemma lift2_fst f Hf s : fst (lift2 f Hf s) = let '(a, b) := fst (f (proj1_sig s)) in (elem a, elem b).
    Proof. unfold lift2. destruct (fst (f (proj1_sig s))) as [a b]. reflexivity. Qed.

    Lemma g_bin st : good n (snd st) -> good n (snd (snd (tfp_binary _ draw 0 1 st))).
    Proof. intros G. pose proof (tfp_binary_ok n 0 1 st Hn G) as H. destruct (tfp_binary gstate draw 0 1 st) as [[[a b] c] st']. apply H. Qed.
    Lemma g_mul st : good n (snd st) -> good n (snd (snd (tfp_triple _ draw 0 1 1 (mul_table 1) st))).
    Proof. intros G. pose proof (tfp_triple_ok n 0 1 1 (mul_table 1) st Hn G) as H. destruct (tfp_triple gstate draw 0 1 1 (mul_table 1) st) as [[[a b] c] st']. apply H. Qed.
    Lemma g_sq st : good n (snd st) -> good n (snd (snd (tfp_square _ draw 0 1 st))).
    Proof. intros G. pose proof (tfp_square_ok n 0 1 st Hn G) as H. destruct (tfp_square gstate draw 0 1 st) as [[a b] st']. apply H. Qed.
    Lemma g_wrap st : good n (snd st) -> good n (snd (snd (tfp_wrap _ draw 0 1 st))).
    Proof. intros G. pose proof (tfp_wrap_ok n 0 1 st Hn G) as H. destruct (tfp_wrap gstate draw 0 1 st) as [[a b] st']. apply H. Qed.
    Lemma g_b2a st : good n (snd st) -> good n (snd (snd (tfp_b2a _ draw draw_bits 0 1 st))).
    Proof. intros G. pose proof (tfp_b2a_ok n 0 1 st Hn G) as H. destruct (tfp_b2a gstate draw draw_bits 0 1 st) as [[a b] st']. apply H. Qed.
    Lemma g_zero st : good n (snd st) -> good n (snd (snd (tfp_zero _ draw 0 1 st))).
    Proof. intros G. pose proof (tfp_zero_ok n 0 1 st Hn G) as H. destruct (tfp_zero gstate draw 0 1 st) as [z st']. apply H. Qed.
    Lemma g_bzero st : good n (snd st) -> good n (snd (snd (tfp_bzero _ draw 0 1 st))).
    Proof. intros G. pose proof (tfp_bzero_ok n 0 1 st Hn G) as H. destruct (tfp_bzero gstate draw 0 1 st) as [z st']. apply H. Qed.

    Definition tfp_provider : provider := {|
      pst := gst;
      next_and := lift3 _ g_bin; next_mul := lift3 _ g_mul; next_square := lift2 _ g_sq; next_wrap := lift2 _ g_wrap;
      next_b2a := lift2 _ g_b2a; next_zero := lift1 _ g_zero; next_bzero := lift1 _ g_bzero |}.

    Lemma tfp_provider_valid : valid n tfp_provider.
    Proof.
      constructor; intros [st G]; cbn [next_and next_mul next_square next_wrap next_b2a next_zero next_bzero tfp_provider].
      - pose proof (tfp_binary_ok n 0 1 st Hn G) as H. rewrite lift3_fst. cbn [proj1_sig].
        destruct (tfp_binary gstate draw 0 1 st) as [[[a b] c] st']. cbn [fst]. destruct H as (Ha & Hb & Hc & R & _).
        rewrite (elem_open_b n a Hn Ha), (elem_open_b n b Hn Hb), (elem_open_b n c Hn Hc), zipw_cons in R. injection R as R.
        destruct (elem_in64 n a Ha), (elem_in64 n b Hb), (elem_in64 n c Hc). repeat split; assumption.
      - pose proof (tfp_triple_ok n 0 1 1 (mul_table 1) st Hn G) as H. rewrite lift3_fst. cbn [proj1_sig].
        destruct (tfp_triple gstate draw 0 1 1 (mul_table 1) st) as [[[a b] c] st']. cbn [fst]. destruct H as (Ha & Hb & Hc & R & _). change (length (mul_table 1)) with 1%nat in Hc.
        rewrite (elem_open_a n a Hn Ha), (elem_open_a n b Hn Hb), (elem_open_a n c Hn Hc) in R. cbn [bil mul_table map seq bil_row fold_left fst snd nth] in R. injection R as R.
        destruct (elem_in64 n a Ha), (elem_in64 n b Hb), (elem_in64 n c Hc). repeat split; try assumption. rewrite R. unfold wadd, wmul. rewrite Z.add_0_l. apply wrap_wrap.
      - pose proof (tfp_square_ok n 0 1 st Hn G) as H. rewrite lift2_fst. cbn [proj1_sig].
        destruct (tfp_square gstate draw 0 1 st) as [[a b] st']. cbn [fst]. destruct H as (Ha & Hb & R & _).
        rewrite (elem_open_a n a Hn Ha), (elem_open_a n b Hn Hb), zipw_cons in R. injection R as R.
        destruct (elem_in64 n a Ha), (elem_in64 n b Hb). repeat split; assumption.
      - pose proof (tfp_wrap_ok n 0 1 st Hn G) as H. rewrite lift2_fst. cbn [proj1_sig].
        destruct (tfp_wrap gstate draw 0 1 st) as [[a b] st']. cbn [fst]. destruct H as (Ha & Hb & R & _).
        rewrite (elem_open_a n b Hn Hb) in R. cbn [map seq] in R. injection R as R.
        destruct (elem_in64 n a Ha), (elem_in64 n b Hb). repeat split; try assumption. rewrite R. symmetry. apply wrap_id, count_wraps_in64.
      - pose proof (tfp_b2a_ok n 0 1 st Hn G) as H. rewrite lift2_fst. cbn [proj1_sig].
        destruct (tfp_b2a gstate draw draw_bits 0 1 st) as [[a b] st']. cbn [fst]. destruct H as (Ha & Hb & R & B & _).
        rewrite (elem_open_b n b Hn Hb) in B, R. rewrite (elem_open_a n a Hn Ha) in R. injection R as R. inversion B; subst.
        destruct (elem_in64 n a Ha), (elem_in64 n b Hb). repeat split; assumption.
      - pose proof (tfp_zero_ok n 0 1 st Hn G) as H. unfold lift1. cbn [proj1_sig fst snd]. 
        destruct (tfp_zero gstate draw 0 1 st) as [z st']. cbn [fst]. destruct H as (Ha & R & _). destruct (elem_in64 n z Ha). repeat split; try assumption.
        rewrite open_a_eq. apply wrap_unique; [apply in64_0|]. apply R. lia.
      - pose proof (tfp_bzero_ok n 0 1 st Hn G) as H. unfold lift1. cbn [proj1_sig fst snd]. 
        destruct (tfp_bzero gstate draw 0 1 st) as [z st']. cbn [fst]. destruct H as (Ha & R & _). destruct (elem_in64 n z Ha). repeat split; try assumption.
        rewrite open_b_eq. apply R. lia.
    Qed.
  End P.
End TP.

Lemma zipw_diag {A} (f : A -> A -> A) l : zipw f l l = map (fun v => f v v) l.
Proof. induction l as [|a l IH]; [reflexivity|]. rewrite zipw_cons. cbn [map]. now rewrite IH. Qed.
Lemma zipw_land_nth l : forall m j, (j < length l)%nat -> (j < length m)%nat -> nth j (zipw Z.land l m) 0 = Z.land (nth j l 0) (nth j m 0).
Proof.
  induction l as [|a l IH]; intros [|b m] j H1 H2; cbn [length] in *; try lia. rewrite zipw_cons. destruct j; [reflexivity|]. cbn [nth]. apply IH; lia.
Qed.

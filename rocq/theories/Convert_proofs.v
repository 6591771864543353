(** Proofs about where, the binary sum and the conversions. *)
Require Import ZArith List Lia Bool.
From Verif Require Import Ring64 Sharing_proofs Arith Arith_proofs Beaver Beaver_proofs Trunc Provider Binary Binary_proofs Circuit_proofs.
Import ListNotations.
Open Scope Z_scope.

Lemma land_lnot_id v : Z.land v (Z.lnot 0) = v.
Proof. change (Z.lnot 0) with (-1). apply Z.land_m1_r. Qed.

Lemma Forall2_firstn {A B} (R : A -> B -> Prop) k l m : Forall2 R l m -> Forall2 R (firstn k l) (firstn k m).
Proof. intros H. revert k. induction H; intros [|k]; cbn [firstn]; constructor; auto. Qed.
Lemma Forall2_skipn {A B} (R : A -> B -> Prop) k l m : Forall2 R l m -> Forall2 R (skipn k l) (skipn k m).
Proof. intros H. revert k. induction H; intros [|k]; cbn [skipn]; auto. Qed.

Lemma Forall2_length {A B} (R : A -> B -> Prop) l m : Forall2 R l m -> length l = length m.
Proof. induction 1; cbn [length]; congruence. Qed.

Section Conv.
  Variable n : nat.
  Variable pr : provider.
  Hypothesis Hn : (0 < n)%nat.
  Hypothesis HV : valid n pr.

  (** ** where *)
  Lemma bwhere_pub_ok x vx c y vy : c = 0 \/ c = 1 -> bshare n vx x -> opval n y vy ->
    yields (bwhere_pub (pr := pr) x c y) (bshare n (if c =? 1 then vx else vy)).
  Proof.
    intros Hc Hx Hy. unfold bwhere_pub. cbv zeta.
    assert (Ic : in64 (wneg c) /\ in64 (Z.lnot (wneg c))) by (split; [apply wrap_in64|apply in64_lnot, wrap_in64]). destruct Ic as [I1 I2].
    eapply (yields_bind _ _ (fun o => opval n o (Z.land vy (Z.lnot (wneg c))))).
    - destruct y as [z|sh].
      + apply yields_ret. destruct Hy as [Hz <-]. split; [now apply in64_land|reflexivity].
      + eapply yields_bind; [eapply (band_ok n pr Hn HV); [exact Hy|split; [exact I2|reflexivity]]|]. intros m Hm. now apply yields_ret.
    - intros o Ho. eapply yields_bind; [eapply (band_ok n pr Hn HV); [exact Hx|split; [exact I1|reflexivity]]|]. intros m Hm. apply yields_ret.
      pose proof (bxor_ok n Hn m _ o _ Hm Ho) as R. destruct Hc as [-> | ->]; cbn [Z.eqb].
      + change (wneg 0) with 0 in R. rewrite land_lnot_id, Z.land_0_r, Z.lxor_0_l in R. exact R.
      + change (wneg 1) with (-1) in R. change (Z.lnot (-1)) with 0 in R. rewrite Z.land_m1_r, Z.land_0_r, Z.lxor_0_r in R. exact R.
  Qed.

  Lemma land1 v : Z.land v 1 = Z.b2z (Z.testbit v 0).
  Proof. change 1 with (Z.ones 1) at 1. rewrite Z.land_ones by lia. symmetry. apply Z.bit0_mod. Qed.

  Lemma cond_expand_ok c vc : bshare n vc c -> bshare n (if Z.testbit vc 0 then -1 else 0) (map (fun s => wneg (Z.land s 1)) c).
  Proof.
    intros H. replace (if Z.testbit vc 0 then -1 else 0) with (wneg (Z.land vc 1)) by (rewrite land1; destruct (Z.testbit vc 0); reflexivity).
    revert H. apply (bshare_map n (fun s => wneg (Z.land s 1))).
    - intros; apply wrap_in64.
    - reflexivity.
    - intros a b _ _. rewrite !land1, Z.lxor_spec. destruct (Z.testbit a 0), (Z.testbit b 0); reflexivity.
  Qed.

  Lemma bwhere_ok x vx c vc y vy : bshare n vc c -> bshare n vx x -> opval n y vy ->
    yields (bwhere (pr := pr) x c y) (bshare n (if Z.testbit vc 0 then vx else vy)).
  Proof.
    intros Hc Hx Hy. unfold bwhere. cbv zeta. pose proof (cond_expand_ok c vc Hc) as He.
    eapply yields_bind; [eapply (band_ok n pr Hn HV); [apply binv_ok; [assumption|exact He]|exact Hy]|]. intros ym Hym.
    eapply yields_bind; [eapply (band_ok n pr Hn HV); [exact Hx|exact He]|]. intros xm Hxm. apply yields_ret.
    pose proof (bxor_priv_ok n Hn _ _ _ _ Hxm Hym) as R. destruct (Z.testbit vc 0).
    - change (Z.lnot (-1)) with 0 in R. rewrite Z.land_m1_r, Z.land_0_l, Z.lxor_0_r in R. exact R.
    - rewrite (Z.land_comm (Z.lnot 0)), land_lnot_id, Z.land_0_r, Z.lxor_0_l in R. exact R.
  Qed.

  (** ** sum *)
  Lemma zipM_add_ok vs xs ws ys : Forall2 (bshare n) vs xs -> Forall2 (bshare n) ws ys ->
    yields (zipM (fun a b => badd (pr := pr) a (Priv b)) xs ys) (Forall2 (bshare n) (zipw wadd vs ws)).
  Proof.
    intros H. revert ws ys. induction H as [|v x vs xs Hv H IH]; intros ws ys H'; cbn [zipM]; [apply yields_ret; constructor|].
    destruct H' as [|w y ws ys Hw H']; [apply yields_ret; constructor|]. rewrite zipw_cons.
    eapply yields_bind; [eapply (badd_ok n pr Hn HV); [exact Hv|exact Hw]|]. intros c Hc. eapply yields_bind; [eapply IH; exact H'|].
    intros cs Hcs. apply yields_ret. now constructor.
  Qed.

  Lemma half_ok vs xs h : Forall2 (bshare n) vs xs -> length xs = (2 * h)%nat ->
    yields (zipM (fun a b => badd (pr := pr) a (Priv b)) (firstn h xs) (skipn h xs))
      (fun ys => exists us, Forall2 (bshare n) us ys /\ length us = h /\ zsum us == zsum vs).
  Proof.
    intros H L. pose proof (Forall2_length _ _ _ H) as Lv. eapply yields_weaken; [apply zipM_add_ok; [apply Forall2_firstn; exact H|apply Forall2_skipn; exact H]|].
    intros ys Hys. exists (zipw wadd (firstn h vs) (skipn h vs)). assert (LL : length (firstn h vs) = length (skipn h vs)) by (rewrite firstn_length, skipn_length; lia).
    split; [assumption|]. split.
    - rewrite zipw_length by assumption. rewrite firstn_length. lia.
    - rewrite zsum_zipw_wadd by assumption. rewrite <- zsum_app, firstn_skipn. reflexivity.
  Qed.

  Lemma bsum_round_ok vs xs : (2 <= length xs)%nat -> Forall2 (bshare n) vs xs ->
    yields (bsum_round (pr := pr) xs) (fun ys => (1 <= length ys < length xs)%nat /\ exists us, Forall2 (bshare n) us ys /\ zsum us == zsum vs).
  Proof.
    intros L2 H. unfold bsum_round. destruct (Nat.odd (length xs)) eqn:O.
    - destruct H as [|v x vs xs Hv H]; [discriminate|]. cbn [firstn skipn]. set (h := Nat.div2 (length xs)).
      assert (Lh : length xs = (2 * h)%nat).
      { cbn [length] in O. rewrite Nat.odd_succ, Nat.even_spec in O. destruct O as [q Hq]. unfold h. rewrite Hq, Nat.div2_double. reflexivity. }
      eapply yields_bind; [eapply half_ok; [exact H|exact Lh]|]. intros ys (us & Hu & Lu & Eu). apply yields_ret. pose proof (Forall2_length _ _ _ Hu) as L'. cbn [length] in *.
      split; [rewrite app_length; cbn [length]; lia|]. exists (us ++ [v]). split.
      + apply Forall2_app; [assumption|]. constructor; [exact Hv|constructor].
      + rewrite zsum_app, Eu, !zsum_cons. change (zsum []) with 0. apply eqm_refl_eq. ring.
    - set (h := Nat.div2 (length xs)). assert (Lh : length xs = (2 * h)%nat).
      { rewrite <- Nat.negb_even, negb_false_iff, Nat.even_spec in O. destruct O as [q Hq]. unfold h. rewrite Hq, Nat.div2_double. reflexivity. }
      eapply yields_bind; [eapply half_ok; [exact H|exact Lh]|]. intros ys (us & Hu & Lu & Eu). apply yields_ret. pose proof (Forall2_length _ _ _ Hu) as L'. rewrite app_nil_r.
      split; [lia|]. exists us. auto.
  Qed.

  Lemma bsum_loop_ok fuel : forall vs xs, (1 <= length xs <= S fuel)%nat -> Forall2 (bshare n) vs xs ->
    yields (bsum_loop (pr := pr) fuel xs) (fun ys => exists r, ys = [r] /\ bshare n (wrap (zsum vs)) r).
  Proof.
    assert (One : forall vs (x : list Z), Forall2 (bshare n) vs [x] -> exists r, [x] = [r] /\ bshare n (wrap (zsum vs)) r).
    { intros vs x H. inversion H as [|v ? vs' ? Hv H']; subst. inversion H'; subst. exists x. split; [reflexivity|]. cbn [zsum fold_right]. rewrite Z.add_0_r, wrap_id; [assumption|]. eapply bshare_in64; exact Hv. }
    induction fuel as [|fuel IH]; intros vs xs L H; cbn [bsum_loop].
    - destruct xs as [|x [|]]; cbn [length] in L; try lia. apply yields_ret. now apply One.
    - destruct (Nat.ltb_spec 1 (length xs)) as [H1|H1].
      + eapply yields_bind; [eapply bsum_round_ok; [lia|exact H]|]. intros ys (Ly & us & Hu & Eu). rewrite <- (eqm_wrap_eq _ _ Eu). apply IH; [lia|assumption].
      + destruct xs as [|x [|]]; cbn [length] in *; try lia. apply yields_ret. now apply One.
  Qed.
  Lemma bsum_ok vs xs : xs <> [] -> Forall2 (bshare n) vs xs -> yields (bsum (pr := pr) xs) (fun ys => exists r, ys = [r] /\ bshare n (wrap (zsum vs)) r).
  Proof. intros Hne H. apply bsum_loop_ok; [|assumption]. destruct xs; [congruence|]. cbn [length]. lia. Qed.

  (** ** A2B *)
  Lemma xor_at_length i v z : length (xor_at i v z) = length z.
  Proof. revert i. induction z as [|a z IH]; intros [|i]; cbn [xor_at length]; auto. Qed.
  Lemma xor_at_in64 i v z : in64 v -> Forall in64 z -> Forall in64 (xor_at i v z).
  Proof. intros Hv H. revert i. induction H; intros [|i]; cbn [xor_at]; constructor; auto using in64_lxor. Qed.
  Lemma xor_at_zxor i v z : (i < length z)%nat -> zxor (xor_at i v z) = Z.lxor (zxor z) v.
  Proof.
    revert i. induction z as [|a z IH]; intros [|i] Hi; cbn [xor_at length] in *; try lia; rewrite !zxor_cons.
    - rewrite Z.lxor_assoc, (Z.lxor_comm v), <- Z.lxor_assoc. reflexivity.
    - rewrite IH by lia. now rewrite Z.lxor_assoc.
  Qed.
  Lemma bencrypt_ok i v : (i < n)%nat -> in64 v -> yields (bencrypt (pr := pr) i v) (bshare n v).
  Proof.
    intros Hi Hv. unfold bencrypt. eapply (yields_bind _ _ (fun z => length z = n /\ Forall in64 z /\ open_b z = 0)); [intros s; exact (v_bzero n pr HV s)|]. intros z (L & F & O). apply yields_ret.
    rewrite open_b_eq in O. repeat split.
    - now rewrite xor_at_length.
    - now apply xor_at_in64.
    - rewrite xor_at_zxor by lia. rewrite O. apply Z.lxor_0_l.
  Qed.
  Lemma share_inputs_ok x : forall i, (i + length x <= n)%nat -> Forall in64 x -> yields (share_inputs (pr := pr) i x) (Forall2 (bshare n) x).
  Proof.
    induction x as [|v x IH]; intros i Hi F; cbn [share_inputs]; [apply yields_ret; constructor|]. inversion F; subst. cbn [length] in Hi.
    eapply yields_bind; [apply bencrypt_ok; [lia|assumption]|]. intros e He. eapply yields_bind; [apply IH; [lia|assumption]|]. intros es Hes. apply yields_ret. now constructor.
  Qed.
  Lemma a2b_ok x : length x = n -> Forall in64 x -> yields (a2b (pr := pr) x) (fun ys => exists r, ys = [r] /\ bshare n (open_a x) r).
  Proof.
    intros L F. unfold a2b. eapply yields_bind; [apply share_inputs_ok; [cbn; lia|assumption]|]. intros es Hes. rewrite open_a_eq. apply bsum_ok; [|assumption].
    apply Forall2_length in Hes. destruct es; [cbn [length] in Hes; lia|discriminate].
  Qed.
  Lemma a2b_seq_from_ok x : forall i acc v, (i + length x <= n)%nat -> Forall in64 x -> bshare n v acc ->
    yields (a2b_seq_from (pr := pr) i acc x) (bshare n (wrap (v + zsum x))).
  Proof.
    induction x as [|w x IH]; intros i acc v Hi F H; cbn [a2b_seq_from].
    - apply yields_ret. cbn [zsum fold_right]. rewrite Z.add_0_r, wrap_id; [assumption|]. eapply bshare_in64; exact H.
    - inversion F; subst. cbn [length] in Hi. eapply yields_bind; [apply bencrypt_ok; [|eassumption]; lia|]. intros e He.
      eapply yields_bind; [eapply (badd_ok n pr Hn HV); [exact H|exact He]|]. intros acc' Ha.
      replace (wrap (v + zsum (w :: x))) with (wrap (wadd v w + zsum x)); [apply IH; [lia|assumption|assumption]|].
      apply eqm_wrap_eq. rewrite wadd_eqm, zsum_cons. apply eqm_refl_eq. ring.
  Qed.
  Lemma a2b_seq_ok x : length x = n -> Forall in64 x -> yields (a2b_seq (pr := pr) x) (bshare n (open_a x)).
  Proof.
    intros L F. destruct x as [|v x]; [cbn [length] in L; lia|]. unfold a2b_seq. pose proof (Forall_inv F). pose proof (Forall_inv_tail F). eapply yields_bind; [apply bencrypt_ok; [exact Hn|assumption]|]. intros e He.
    rewrite open_a_eq, zsum_cons. apply a2b_seq_from_ok; [cbn [length] in L; lia|assumption|assumption].
  Qed.

  (** ** B2A *)
  Lemma add_pub_in64 k x : Forall in64 x -> Forall in64 (add_pub k x).
  Proof. apply Forall_on_rank0. intros; apply wadd_in64. Qed.
  Lemma mul_int_in64 k x : Forall in64 (mul_int k x).
  Proof. apply Forall_map, Forall_forall. intros; apply wmul_in64. Qed.
  Lemma mul_int_ok k x v : ashare n v x -> ashare n (v * k) (mul_int k x).
  Proof.
    intros (L & F & E). repeat split; [now rewrite mul_int_length|apply mul_int_in64|]. rewrite zsum_mul_int, E. apply eqm_refl_eq; ring.
  Qed.

  Lemma b2a_bit_ok x v : bshare n v x -> v = 0 \/ v = 1 -> yields (b2a_bit (pr := pr) x) (ashare n v).
  Proof.
    intros (L & F & E) Hv. unfold b2a_bit. rewrite L. destruct (Nat.ltb_spec n 2) as [H1|H2].
    - eapply (yields_bind _ _ (fun z => length z = n /\ Forall in64 z /\ open_a z = 0)); [intros s; exact (v_zero n pr HV s)|]. intros z (Lz & Fz & Oz). apply yields_ret.
      repeat split.
      + rewrite zipw_length; congruence.
      + eapply (Forall_zipw in64 in64); [intros; apply wadd_in64|assumption|assumption].
      + rewrite zsum_zipw_wadd by congruence. rewrite <- (open_a_eqm z), Oz. destruct x as [|a [|b x]]; cbn [length] in L; try lia. cbn in E. rewrite Z.lxor_0_r in E. subst a. cbn. apply eqm_refl_eq; ring.
    - eapply (yields_bind _ _ (fun t => let '(rA, rB) := t in _)); [intros s; exact (v_b2a n pr HV s)|].
      intros [rA rB] (LA & LB & FA & FB & Hr & He). apply yields_ret.
      destruct (b2a_single_ok n rA rB x) as [LL O]; auto; [rewrite open_b_eq, E; exact Hv|]. rewrite open_b_eq, E in O. repeat split; [assumption| |].
      + unfold b2a_single_bit. apply add_pub_in64, mul_int_in64.
      + rewrite <- O. symmetry. apply open_a_eqm.
  Qed.

  Lemma bit_ok x v i : 0 <= i -> bshare n v x -> yields (b <- band (pr := pr) (bshr x i) (Pub 1) ;; b2a_bit b) (ashare n (Z.b2z (Z.testbit v i))).
  Proof.
    intros Hi H. eapply yields_bind; [eapply (band_ok n pr Hn HV); [apply bshr_ok; [exact Hi|exact H]|split; [|reflexivity]; unfold in64, H63; lia]|].
    intros b Hb. rewrite land1 in Hb. unfold wshr in Hb. rewrite Z.shiftr_spec, Z.add_0_l in Hb by lia. apply b2a_bit_ok; [assumption|]. destruct (Z.testbit v i); cbn [Z.b2z]; auto.
  Qed.

  Lemma sum_list_ok xs vs : Forall2 (ashare n) vs xs -> ashare n (zsum vs) (sum_list n xs).
  Proof.
    assert (G : forall xs vs acc v, ashare n v acc -> Forall2 (ashare n) vs xs -> ashare n (v + zsum vs) (fold_left (zipw wadd) xs acc)).
    { clear. induction xs as [|x xs IH]; intros vs acc v Ha H; inversion H as [|w ? ws ? Hw Hws]; subst; cbn [fold_left]; [cbn [zsum fold_right]; now rewrite Z.add_0_r|].
      rewrite zsum_cons, Z.add_assoc. apply IH; [|assumption]. destruct Ha as (L & F & E), Hw as (L' & F' & E'). repeat split.
      - rewrite zipw_length; congruence.
      - eapply (Forall_zipw in64 in64); [intros; apply wadd_in64|eassumption|eassumption].
      - rewrite zsum_zipw_wadd by congruence. rewrite E, E'. reflexivity. }
    intros H. unfold sum_list. apply (G xs vs (repeat 0 n) 0); [|assumption]. repeat split.
    - apply repeat_length.
    - apply Forall_forall. intros a Ha. apply repeat_spec in Ha. subst. apply in64_0.
    - clear. induction n; cbn [repeat]; [reflexivity|]. rewrite zsum_cons. exact IHn0.
  Qed.

  Lemma zsum_bits v k : zsum (map (fun i => Z.b2z (Z.testbit v (Z.of_nat i)) * 2 ^ Z.of_nat i) (seq 0 k)) = v mod 2 ^ Z.of_nat k.
  Proof.
    induction k as [|k IH]; [cbn; now rewrite Z.mod_1_r|]. rewrite seq_S, map_app, zsum_app, IH. cbn [map zsum fold_right]. rewrite Nat2Z.inj_succ. unfold Z.succ. rewrite mod_pow2_succ by lia. cbn [Nat.add]. ring.
  Qed.

  Lemma b2a_ok bits sa sb x v : (1 <= bits <= 64)%nat -> bshare n v x -> yields (b2a (pr := pr) bits sa sb x) (ashare n (v mod 2 ^ Z.of_nat bits * (sa / sb))).
  Proof.
    intros Hb H. unfold b2a. eapply (yields_bind _ _ (ashare n (v mod 2 ^ Z.of_nat bits))); [|intros r Hr; apply yields_ret; now apply mul_int_ok].
    destruct (Nat.eqb_spec bits 1) as [->|N].
    - replace (v mod 2 ^ Z.of_nat 1) with (Z.b2z (Z.testbit v 0)) by (rewrite Z.bit0_mod; reflexivity).
      pose proof (bit_ok x v 0 ltac:(lia) H) as B. assert (Es : bshr x 0 = x). { unfold bshr, wshr. erewrite map_ext; [apply map_id|]. intros; apply Z.shiftr_0_r. } rewrite Es in B. exact B.
    - eapply yields_bind; [apply (yields_mapM _ (fun i a => ashare n (Z.b2z (Z.testbit v (Z.of_nat i))) a)); intros i Hi; apply bit_ok; [lia|exact H]|].
      intros ab Hab. apply yields_ret. destruct H as (L & _ & _). rewrite L. eapply ashare_eqm; [apply sum_list_ok with (vs := map (fun i => Z.b2z (Z.testbit v (Z.of_nat i)) * wshl 1 (Z.of_nat i)) (seq 0 bits))|].
      + revert Hab. generalize (seq 0 bits). intros l Hab. induction Hab as [|i a l ab Ha Hab IH]; cbn [map]; [constructor|]. rewrite zipw_cons. constructor; [now apply mul_int_ok|exact IH].
      + rewrite <- zsum_bits. apply zsum_map_eqm. intros i Hi. unfold wshl. rewrite wrap_eqm, Z.shiftl_mul_pow2 by lia. apply eqm_refl_eq; ring.
  Qed.
End Conv.

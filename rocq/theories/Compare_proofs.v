(** Proofs about comparisons of encrypted numbers. *)
Require Import ZArith QArith List Lia.
From Verif Require Import Ring64 Encoder Arith Arith_proofs Beaver Beaver_proofs Trunc Trunc_proofs Provider Binary Binary_proofs Circuit_proofs Convert_proofs Compare.
Import ListNotations.
Open Scope Z_scope.

Definition nshare (n : nat) (v s : Z) (x : num) : Prop := ashare n v (n_sh x) /\ n_sc x = s.

Definition common (x : num) (y : arg) : Z := match y with AEnc y => Z.max (n_sc x) (n_sc y) | _ => n_sc x end.
Definition aval (y : arg) (S : Z) : Z :=
  match y with AInt k => k * S | AFloat q => encodeQ S q | AEnc y => open_a (n_sh y) * (S / n_sc y) end.
Definition wf_num (n : nat) (x : num) : Prop := length (n_sh x) = n /\ Forall in64 (n_sh x) /\ 0 < n_sc x.
Definition wf_arg (n : nat) (y : arg) : Prop := match y with AEnc y => wf_num n y | _ => True end.

Lemma add_pub_in64 k x : Forall in64 x -> Forall in64 (add_pub k x).
Proof. intros H. destruct H; cbn; constructor; auto using wadd_in64. Qed.
Lemma sub_pub_in64 k x : Forall in64 x -> Forall in64 (sub_pub k x).
Proof. intros H. destruct H; cbn; constructor; auto using wsub_in64. Qed.
Lemma neg_in64 x : Forall in64 (neg x).
Proof. apply Forall_map, Forall_forall. intros. apply wrap_in64. Qed.
Lemma add_priv_in64 x y : Forall in64 (add_priv x y).
Proof. unfold add_priv. revert y. induction x; intros [|b y]; try solve [constructor]. rewrite zipw_cons. constructor; auto using wadd_in64. Qed.
Lemma sub_priv_in64 x y : Forall in64 (sub_priv x y).
Proof. unfold sub_priv. revert y. induction x; intros [|b y]; try solve [constructor]. rewrite zipw_cons. constructor; auto using wsub_in64. Qed.

Section N.
  Variable n : nat.
  Hypothesis Hn : (0 < n)%nat.

  Lemma nshare_of x : wf_num n x -> nshare n (open_a (n_sh x)) (n_sc x) x.
  Proof. intros (L & F & _). split; [|reflexivity]. now apply ashare_of. Qed.
  Lemma nshare_eqm v v' s x : v == v' -> nshare n v s x -> nshare n v' s x.
  Proof. intros E [H S]. split; [|assumption]. eapply ashare_eqm; eauto. Qed.
  Lemma ashare_ne v x : ashare n v x -> x <> [].
  Proof. intros (L & _) ->. cbn [length] in L. lia. Qed.

  Lemma add_pub_ok k v x : ashare n v x -> ashare n (v + k) (add_pub k x).
  Proof.
    intros H. pose proof (ashare_ne _ _ H) as Ne. destruct H as (L & F & E). repeat split; [unfold add_pub; now rewrite on_rank0_length|now apply add_pub_in64|].
    rewrite zsum_add_pub, E by assumption. reflexivity.
  Qed.
  Lemma sub_pub_ok k v x : ashare n v x -> ashare n (v - k) (sub_pub k x).
  Proof.
    intros H. pose proof (ashare_ne _ _ H) as Ne. destruct H as (L & F & E). repeat split; [unfold sub_pub; now rewrite on_rank0_length|now apply sub_pub_in64|].
    rewrite zsum_sub_pub, E by assumption. reflexivity.
  Qed.
  Lemma neg_ok v x : ashare n v x -> ashare n (- v) (neg x).
  Proof. intros (L & F & E). repeat split; [now rewrite neg_length|apply neg_in64|]. rewrite zsum_neg, E. reflexivity. Qed.
  Lemma add_priv_ok v w x y : ashare n v x -> ashare n w y -> ashare n (v + w) (add_priv x y).
  Proof.
    intros (L & F & E) (L' & F' & E'). repeat split; [unfold add_priv; rewrite zipw_length; congruence|apply add_priv_in64|].
    unfold add_priv. rewrite zsum_zipw_wadd, E, E' by congruence. reflexivity.
  Qed.
  Lemma sub_priv_ok v w x y : ashare n v x -> ashare n w y -> ashare n (v - w) (sub_priv x y).
  Proof.
    intros (L & F & E) (L' & F' & E'). repeat split; [unfold sub_priv; rewrite zipw_length; congruence|apply sub_priv_in64|].
    unfold sub_priv. rewrite zsum_zipw_wsub, E, E' by congruence. reflexivity.
  Qed.

  Lemma upscale_ok v s t x : nshare n v s x -> nshare n (v * (t / s)) t (upscale t x).
  Proof. intros [H S]. split; [|reflexivity]. cbn [upscale n_sh]. rewrite S. now apply mul_int_ok. Qed.

  Lemma neg_num_ok v s x : nshare n v s x -> nshare n (- v) s (neg_num x).
  Proof. intros [H S]. split; [|assumption]. now apply neg_ok. Qed.
  Lemma add_int_ok v s k x : nshare n v s x -> nshare n (v + k * s) s (add_num x (AInt k)).
  Proof.
    intros [H S]. split; [|assumption]. cbn [add_num n_sh]. rewrite S. eapply ashare_eqm; [apply add_pub_ok; exact H|]. unfold encodeZ. rewrite wmul_eqm. apply eqm_refl_eq; ring.
  Qed.
  Lemma sub_int_ok v s k x : nshare n v s x -> nshare n (v - k * s) s (sub_num x (AInt k)).
  Proof.
    intros [H S]. split; [|assumption]. cbn [sub_num n_sh]. rewrite S. eapply ashare_eqm; [apply sub_pub_ok; exact H|]. unfold encodeZ. rewrite wmul_eqm. apply eqm_refl_eq; ring.
  Qed.
  Lemma one_minus_ok v s x : nshare n v s x -> nshare n (s - v) s (one_minus x).
  Proof. intros H. unfold one_minus. eapply nshare_eqm; [|apply add_int_ok, neg_num_ok; exact H]. apply eqm_refl_eq; ring. Qed.
  Lemma muli_num_ok k v s x : nshare n v s x -> nshare n (v * k) s (muli_num k x).
  Proof. intros [H S]. split; [|assumption]. now apply mul_int_ok. Qed.
  Lemma add_enc_ok v w s x y : nshare n v s x -> nshare n w s y -> nshare n (v + w) s (add_num x (AEnc y)).
  Proof. intros [H S] [H' S']. cbn [add_num]. rewrite S, S', Z.ltb_irrefl. split; [|reflexivity]. now apply add_priv_ok. Qed.
  Lemma sub_enc_ok v w s x y : nshare n v s x -> nshare n w s y -> nshare n (v - w) s (sub_num x (AEnc y)).
  Proof. intros [H S] [H' S']. cbn [sub_num]. rewrite S, S', Z.ltb_irrefl. split; [|reflexivity]. now apply sub_priv_ok. Qed.

  Lemma sub_num_ok v x y : 0 < n_sc x -> nshare n v (n_sc x) x -> wf_arg n y ->
    nshare n (v * (common x y / n_sc x) - aval y (common x y)) (common x y) (sub_num x y).
  Proof.
    intros Px Hx Hy. destruct y as [k|q|y]; cbn [common aval wf_arg] in *.
    - rewrite Z.div_same, Z.mul_1_r by lia. now apply sub_int_ok.
    - rewrite Z.div_same, Z.mul_1_r by lia. cbn [sub_num]. split; [|reflexivity]. apply sub_pub_ok, Hx.
    - pose proof (nshare_of y Hy) as HY. destruct Hy as (_ & _ & Py). cbn [sub_num]. destruct (Z.ltb_spec (n_sc y) (n_sc x)); [|destruct (Z.ltb_spec (n_sc x) (n_sc y))].
      + rewrite Z.max_l, Z.div_same, Z.mul_1_r by lia. split; [|reflexivity]. apply sub_priv_ok; [apply Hx|]. now apply upscale_ok.
      + rewrite Z.max_r, Z.div_same, Z.mul_1_r by lia. split; [|reflexivity]. apply sub_priv_ok; [|apply HY]. now apply upscale_ok.
      + replace (n_sc y) with (n_sc x) in * by lia. rewrite Z.max_id, Z.div_same, !Z.mul_1_r by lia. split; [|reflexivity]. apply sub_priv_ok; [apply Hx|apply HY].
  Qed.
  Lemma add_num_ok v x y : 0 < n_sc x -> nshare n v (n_sc x) x -> wf_arg n y ->
    nshare n (v * (common x y / n_sc x) + aval y (common x y)) (common x y) (add_num x y).
  Proof.
    intros Px Hx Hy. destruct y as [k|q|y]; cbn [common aval wf_arg] in *.
    - rewrite Z.div_same, Z.mul_1_r by lia. now apply add_int_ok.
    - rewrite Z.div_same, Z.mul_1_r by lia. cbn [add_num]. split; [|reflexivity]. apply add_pub_ok, Hx.
    - pose proof (nshare_of y Hy) as HY. destruct Hy as (_ & _ & Py). cbn [add_num]. destruct (Z.ltb_spec (n_sc y) (n_sc x)); [|destruct (Z.ltb_spec (n_sc x) (n_sc y))].
      + rewrite Z.max_l, Z.div_same, Z.mul_1_r by lia. split; [|reflexivity]. apply add_priv_ok; [apply Hx|]. now apply upscale_ok.
      + rewrite Z.max_r, Z.div_same, Z.mul_1_r by lia. split; [|reflexivity]. apply add_priv_ok; [|apply HY]. now apply upscale_ok.
      + replace (n_sc y) with (n_sc x) in * by lia. rewrite Z.max_id, Z.div_same, !Z.mul_1_r by lia. split; [|reflexivity]. apply add_priv_ok; [apply Hx|apply HY].
  Qed.

  Variable pr : provider.
  Hypothesis HV : valid n pr.
  Variable D : Z.
  Hypothesis HD : 0 < D.

  Lemma mul1_share a b c x y vx vy : length a = n /\ length b = n /\ length c = n /\ Forall in64 a /\ Forall in64 b /\ Forall in64 c /\ open_a c = wmul (open_a a) (open_a b) ->
    ashare n vx x -> ashare n vy y -> ashare n (vx * vy) (mul1 a b c x y).
  Proof.
    intros (La & Lb & Lc & Fa & Fb & Fc & E) (Lx & Fx & Ex) (Ly & Fy & Ey).
    destruct (mul1_ok n a b c x y Hn La Lb Lc Lx Ly) as [L O]; [rewrite E; apply wmul_eqm|]. repeat split; [assumption| |].
    - unfold mul1. apply add_pub_in64, add_priv_in64.
    - rewrite <- open_a_eqm, O, wmul_eqm, !open_a_eqm, Ex, Ey. reflexivity.
  Qed.

  (** Exact products: one factor has scale 1. *)
  Lemma mul_num_r1 x y vx vy s : 0 < s -> nshare n vx s x -> nshare n vy 1 y -> yields (mul_num (pr := pr) x y) (nshare n (vx * vy) s).
  Proof.
    intros Hs [Hx Sx] [Hy Sy]. unfold mul_num. eapply (yields_bind _ _ (fun t => let '(a, b, c) := t in _)); [intros st; exact (v_mul n pr HV st)|]. intros [[a b] c] T. cbv zeta.
    rewrite Sx, Sy. unfold mul_rescale. cbn [Z.ltb Z.compare Pos.compare Pos.compare_cont]. rewrite Bool.andb_false_r.
    destruct (Z.ltb_spec 1 s); apply yields_ret; (split; [eapply mul1_share; eassumption|cbn [n_sc]; lia]).
  Qed.
  Lemma mul_num_l1 x y vx vy s : 0 < s -> nshare n vx 1 x -> nshare n vy s y -> yields (mul_num (pr := pr) x y) (nshare n (vx * vy) s).
  Proof.
    intros Hs [Hx Sx] [Hy Sy]. unfold mul_num. eapply (yields_bind _ _ (fun t => let '(a, b, c) := t in _)); [intros st; exact (v_mul n pr HV st)|]. intros [[a b] c] T. cbv zeta.
    rewrite Sx, Sy. unfold mul_rescale. cbn [Z.ltb Z.compare Pos.compare Pos.compare_cont andb].
    apply yields_ret; (split; [eapply mul1_share; eassumption|reflexivity]).
  Qed.

  Lemma to_bin_ok v x : ashare n v x -> yields (to_bin (pr := pr) x) (bshare n (wrap v)).
  Proof.
    intros (L & F & E). unfold to_bin. eapply yields_bind; [apply (a2b_ok n pr Hn HV); assumption|]. intros bs (r & -> & B). apply yields_ret. cbn [hd].
    replace (wrap v) with (open_a x); [assumption|]. rewrite open_a_eq. now apply eqm_wrap_eq.
  Qed.

  (** The factor by which a 0/1 comparison result is multiplied, from the scale of the compared difference. *)
  Definition ratio (s : Z) : Z := (if s =? 1 then 1 else D) / s.
  Lemma ratio_1 : ratio 1 = 1. Proof. reflexivity. Qed.
  Lemma ratio_D : ratio D = 1. Proof. unfold ratio. destruct (Z.eqb_spec D 1) as [->|]; [reflexivity|]. apply Z.div_same. lia. Qed.

  Lemma shr63 v : in64 v -> wshr v 63 = if v <? 0 then -1 else 0.
  Proof.
    intros H. unfold wshr. rewrite Z.shiftr_div_pow2 by lia. change (2 ^ 63) with H63. unfold in64 in H. destruct (Z.ltb_spec v 0).
    - symmetry. apply Z.div_unique with (r := v + H63); [left|]; unfold H63 in *; lia.
    - apply Z.div_small. lia.
  Qed.

  Lemma ltz_ok v s x : nshare n v s x -> yields (ltz (pr := pr) D x) (nshare n ((if wrap v <? 0 then 1 else 0) * ratio s) 1).
  Proof.
    intros [H S]. unfold ltz. cbv zeta. eapply yields_bind; [apply to_bin_ok; exact H|]. intros b Hb.
    eapply yields_bind; [eapply (b2a_ok n pr Hn HV); [lia|apply bshr_ok; [lia|exact Hb]]|]. intros r Hr. apply yields_ret. split; [|reflexivity]. cbn [n_sh].
    rewrite S in Hr. apply (ashare_eqm _ _ _ _ Hr). apply eqm_refl_eq. rewrite shr63 by apply wrap_in64. unfold ratio. now destruct (wrap v <? 0).
  Qed.

  Lemma wrapv v : in64 v -> wrap v = v. Proof. apply wrap_id. Qed.

  (** lt etc. on the difference [d] of the scaled values *)
  Lemma n_lt_ok v x y : 0 < n_sc x -> nshare n v (n_sc x) x -> wf_arg n y ->
    let S := common x y in let a := v * (S / n_sc x) in in64 (a - aval y S) ->
    yields (n_lt (pr := pr) D x y) (nshare n ((if a <? aval y S then 1 else 0) * ratio S) 1).
  Proof.
    intros Px Hx Hy S a HI. unfold n_lt. pose proof (sub_num_ok v x y Px Hx Hy) as H. fold S in H. fold a in H. apply ltz_ok in H. rewrite wrapv in H by assumption.
    replace (a <? aval y S) with (a - aval y S <? 0); [exact H|]. destruct (Z.ltb_spec (a - aval y S) 0), (Z.ltb_spec a (aval y S)); lia || reflexivity.
  Qed.
  Lemma n_gt_ok v x y : 0 < n_sc x -> nshare n v (n_sc x) x -> wf_arg n y ->
    let S := common x y in let a := v * (S / n_sc x) in in64 (aval y S - a) ->
    yields (n_gt (pr := pr) D x y) (nshare n ((if aval y S <? a then 1 else 0) * ratio S) 1).
  Proof.
    intros Px Hx Hy S a HI. unfold n_gt. pose proof (neg_num_ok _ _ _ Hx) as Hx'. pose proof (add_num_ok (- v) (neg_num x) y Px Hx' Hy) as H.
    replace (common (neg_num x) y) with S in H by (destruct y; reflexivity). cbn [neg_num n_sc] in H.
    apply (nshare_eqm _ (aval y S - a)) in H; [|apply eqm_refl_eq; unfold a; ring]. apply ltz_ok in H. rewrite wrapv in H by assumption.
    replace (aval y S <? a) with (aval y S - a <? 0); [exact H|]. destruct (Z.ltb_spec (aval y S - a) 0), (Z.ltb_spec (aval y S) a); lia || reflexivity.
  Qed.
  Lemma n_ge_ok v x y : 0 < n_sc x -> nshare n v (n_sc x) x -> wf_arg n y ->
    let S := common x y in let a := v * (S / n_sc x) in in64 (a - aval y S) ->
    yields (n_ge (pr := pr) D x y) (nshare n (1 - (if a <? aval y S then 1 else 0) * ratio S) 1).
  Proof. intros Px Hx Hy S a HI. unfold n_ge. eapply yields_bind; [exact (n_lt_ok v x y Px Hx Hy HI)|]. intros r Hr. apply yields_ret. now apply one_minus_ok in Hr. Qed.
  Lemma n_le_ok v x y : 0 < n_sc x -> nshare n v (n_sc x) x -> wf_arg n y ->
    let S := common x y in let a := v * (S / n_sc x) in in64 (aval y S - a) ->
    yields (n_le (pr := pr) D x y) (nshare n (1 - (if aval y S <? a then 1 else 0) * ratio S) 1).
  Proof. intros Px Hx Hy S a HI. unfold n_le. eapply yields_bind; [exact (n_gt_ok v x y Px Hx Hy HI)|]. intros r Hr. apply yields_ret. now apply one_minus_ok in Hr. Qed.

  (** Same scale, encrypted operand. *)
  Lemma n_ge_same v w s x y : 0 < s -> nshare n v s x -> nshare n w s y -> in64 (v - w) ->
    yields (n_ge (pr := pr) D x (AEnc y)) (nshare n (1 - (if v <? w then 1 else 0) * ratio s) 1).
  Proof.
    intros Hs Hx Hy HI. unfold n_ge, n_lt. pose proof (sub_enc_ok v w s x y Hx Hy) as H. apply ltz_ok in H. rewrite wrapv in H by assumption.
    eapply yields_bind; [exact H|]. intros r Hr. apply yields_ret. apply one_minus_ok in Hr. revert Hr. apply nshare_eqm. apply eqm_refl_eq.
    destruct (Z.ltb_spec (v - w) 0), (Z.ltb_spec v w); lia.
  Qed.

  (** ** Equality *)
  Lemma eqz_2pc_ok v s x : n = 2%nat -> nshare n v s x ->
    yields (eqz_2pc (pr := pr) D x) (nshare n ((if wrap v =? 0 then 1 else 0) * (D / s)) 1).
  Proof.
    intros N2 [(L & F & E) S]. unfold eqz_2pc. destruct (n_sh x) as [|a [|b [|]]]; cbn [length] in L; try lia. cbn [nth].
    pose proof (Forall_inv F) as Fa. pose proof (Forall_inv (Forall_inv_tail F)) as Fb.
    eapply yields_bind; [apply (bencrypt_ok n pr Hn HV); [lia|exact Fa]|]. intros x0 H0.
    eapply yields_bind; [apply (bencrypt_ok n pr Hn HV); [lia|apply wrap_in64]|]. intros x1 H1.
    eapply yields_bind; [eapply (beq_ok n pr Hn HV); [exact H0|exact H1]|]. intros e He.
    eapply yields_bind; [eapply (b2a_ok n pr Hn HV); [lia|exact He]|]. intros r Hr. apply yields_ret. split; [|reflexivity]. cbn [n_sh]. rewrite S in Hr.
    apply (ashare_eqm _ _ _ _ Hr). apply eqm_refl_eq. f_equal.
    replace (wrap v =? 0) with (a =? wneg b); [now destruct (a =? wneg b)|].
    assert (Ez : wrap v = wrap (a + b)). { apply eqm_wrap_eq. rewrite <- E. cbn. apply eqm_refl_eq; ring. }
    rewrite Ez. destruct (Z.eqb_spec a (wneg b)) as [Ea|Ne], (Z.eqb_spec (wrap (a + b)) 0) as [E0|N0]; try reflexivity; exfalso.
    - apply N0. rewrite <- (wrap_id 0) by apply in64_0. apply eqm_wrap_eq. rewrite Ea, wneg_eqm. apply eqm_refl_eq; ring.
    - apply Ne. apply eqm_in64_eq; [assumption|apply wrap_in64|]. rewrite wneg_eqm. pose proof (wrap_eqm (a + b)) as W. rewrite E0 in W.
      replace a with ((a + b) - b) by ring. rewrite <- W. apply eqm_refl_eq; ring.
  Qed.

  Definition neval (d S : Z) : Z := ((if wrap d <? 0 then 1 else 0) + (if wrap (- d) <? 0 then 1 else 0)) * ratio S.
  Lemma ne_many_ok v x y : 0 < n_sc x -> nshare n v (n_sc x) x -> wf_arg n y ->
    let S := common x y in yields (ne_many (pr := pr) D x y) (nshare n (neval (v * (S / n_sc x) - aval y S) S) 1).
  Proof.
    intros Px Hx Hy S. unfold ne_many. cbv zeta. pose proof (sub_num_ok v x y Px Hx Hy) as Hd. fold S in Hd.
    eapply yields_bind; [apply ltz_ok; exact Hd|]. intros p [Hp _].
    eapply yields_bind; [apply ltz_ok; exact (neg_num_ok _ _ _ Hd)|]. intros q [Hq _]. apply yields_ret. split; [|reflexivity]. cbn [n_sh].
    eapply ashare_eqm; [apply add_priv_ok; eassumption|]. apply eqm_refl_eq. unfold neval. ring.
  Qed.

  Lemma neval_ok d S : ratio S = 1 -> wrap d <> - H63 -> neval d S = if wrap d =? 0 then 0 else 1.
  Proof.
    intros R Hd. unfold neval. rewrite R, Z.mul_1_r. assert (E : wrap (- d) = - wrap d).
    { apply wrap_unique; [pose proof (wrap_in64 d); unfold in64 in *; lia|]. rewrite wrap_eqm. reflexivity. }
    rewrite E. destruct (Z.ltb_spec (wrap d) 0), (Z.ltb_spec (- wrap d) 0), (Z.eqb_spec (wrap d) 0); lia.
  Qed.
  Lemma neval_corner d S : ratio S = 1 -> wrap d = - H63 -> neval d S = 2.
  Proof.
    intros R Hd. unfold neval. rewrite R. assert (E : wrap (- d) = - H63).
    { apply wrap_unique; [unfold in64, H63; lia|]. rewrite <- (wrap_eqm d), Hd. reflexivity. }
    rewrite E, Hd. reflexivity.
  Qed.

  Lemma n_eq_2 v x y : n = 2%nat -> 0 < n_sc x -> nshare n v (n_sc x) x -> wf_arg n y ->
    let S := common x y in yields (n_eq (pr := pr) D x y) (nshare n ((if wrap (v * (S / n_sc x) - aval y S) =? 0 then 1 else 0) * (D / S)) 1).
  Proof.
    intros N2 Px Hx Hy S. unfold n_eq. destruct Hx as [Hx' Sx]. rewrite (proj1 Hx'), (proj2 (Nat.eqb_eq n 2) N2). apply eqz_2pc_ok; [assumption|].
    apply sub_num_ok; [assumption|split; assumption|assumption].
  Qed.
  Lemma n_ne_2 v x y : n = 2%nat -> 0 < n_sc x -> nshare n v (n_sc x) x -> wf_arg n y ->
    let S := common x y in yields (n_ne (pr := pr) D x y) (nshare n (1 - (if wrap (v * (S / n_sc x) - aval y S) =? 0 then 1 else 0) * (D / S)) 1).
  Proof.
    intros N2 Px Hx Hy S. unfold n_ne. rewrite (proj1 (proj1 Hx)), (proj2 (Nat.eqb_eq n 2) N2).
    eapply yields_bind; [exact (n_eq_2 v x y N2 Px Hx Hy)|]. intros r Hr. apply yields_ret. now apply one_minus_ok in Hr.
  Qed.
  Lemma n_ne_many v x y : n <> 2%nat -> 0 < n_sc x -> nshare n v (n_sc x) x -> wf_arg n y ->
    let S := common x y in yields (n_ne (pr := pr) D x y) (nshare n (neval (v * (S / n_sc x) - aval y S) S) 1).
  Proof. intros N2 Px Hx Hy S. unfold n_ne. rewrite (proj1 (proj1 Hx)), (proj2 (Nat.eqb_neq n 2) N2). exact (ne_many_ok v x y Px Hx Hy). Qed.
  Lemma n_eq_many v x y : n <> 2%nat -> 0 < n_sc x -> nshare n v (n_sc x) x -> wf_arg n y ->
    let S := common x y in yields (n_eq (pr := pr) D x y) (nshare n (1 - neval (v * (S / n_sc x) - aval y S) S) 1).
  Proof.
    intros N2 Px Hx Hy S. unfold n_eq. rewrite (proj1 (proj1 Hx)), (proj2 (Nat.eqb_neq n 2) N2).
    eapply yields_bind; [exact (ne_many_ok v x y Px Hx Hy)|]. intros r Hr. apply yields_ret. now apply one_minus_ok in Hr.
  Qed.

  (** ** Piecewise-linear functions *)
  Lemma n_sign_ok v s x : ratio s = 1 -> in64 v -> nshare n v s x -> yields (n_sign (pr := pr) D x) (nshare n (if v <? 0 then -1 else 1) 1).
  Proof.
    intros R HI H. unfold n_sign. eapply yields_bind; [apply ltz_ok; exact H|]. intros r Hr. apply yields_ret. apply (muli_num_ok 2), one_minus_ok in Hr.
    rewrite wrapv, R in Hr by assumption. destruct (v <? 0); exact Hr.
  Qed.
  Lemma n_abs_ok v s x : 0 < s -> ratio s = 1 -> in64 v -> nshare n v s x -> yields (n_abs (pr := pr) D x) (nshare n (Z.abs v) s).
  Proof.
    intros Hs R HI H. unfold n_abs. eapply yields_bind; [eapply n_sign_ok; eassumption|]. intros sg Hsg. eapply yields_weaken; [eapply mul_num_r1; eassumption|].
    intros r. apply nshare_eqm, eqm_refl_eq. destruct (Z.ltb_spec v 0); lia.
  Qed.
  Lemma n_relu_ok v s x : 0 < s -> ratio s = 1 -> in64 v -> nshare n v s x -> yields (n_relu (pr := pr) D x) (nshare n (Z.max v 0) s).
  Proof.
    intros Hs R HI H. unfold n_relu, n_ge, n_lt. pose proof (sub_int_ok v s 0 x H) as Hd. apply ltz_ok in Hd. rewrite Z.mul_0_l, Z.sub_0_r, wrapv, R in Hd by assumption.
    eapply (yields_bind _ _ (nshare n (1 - (if v <? 0 then 1 else 0)) 1)).
    - eapply yields_bind; [exact Hd|]. intros r Hr. apply yields_ret. apply one_minus_ok in Hr. now rewrite Z.mul_1_r in Hr.
    - intros g Hg. eapply yields_weaken; [eapply mul_num_r1; eassumption|]. intros r. apply nshare_eqm, eqm_refl_eq. destruct (Z.ltb_spec v 0); lia.
  Qed.
  Definition public (y : arg) : Prop := match y with AEnc _ => False | _ => True end.
  Lemma sub_public v s x y : public y -> nshare n v s x -> nshare n (v - aval y s) s (sub_num x y).
  Proof.
    intros P H. destruct y as [k|q|]; [now apply sub_int_ok| |contradiction]. destruct H as [H S]. split; [|assumption]. cbn [sub_num n_sh aval]. rewrite S. now apply sub_pub_ok.
  Qed.
  Lemma add_public v s x y : public y -> nshare n v s x -> nshare n (v + aval y s) s (add_num x y).
  Proof.
    intros P H. destruct y as [k|q|]; [now apply add_int_ok| |contradiction]. destruct H as [H S]. split; [|assumption]. cbn [add_num n_sh aval]. rewrite S. now apply add_pub_ok.
  Qed.
  Lemma hardtanh_ok v s x lo hi : 0 < s -> ratio s = 1 -> nshare n v s x -> public lo -> public hi ->
    in64 (v - aval lo s) -> in64 (v - aval hi s) ->
    yields (hardtanh (pr := pr) D x lo hi) (nshare n (Z.max (v - aval lo s) 0 - Z.max (v - aval hi s) 0 + aval lo s) s).
  Proof.
    intros Hs R H Plo Phi I1 I2. unfold hardtanh.
    eapply yields_bind; [apply n_relu_ok; [exact Hs|exact R|exact I1|now apply sub_public]|]. intros a Ha.
    eapply yields_bind; [apply n_relu_ok; [exact Hs|exact R|exact I2|now apply sub_public]|]. intros b Hb. apply yields_ret.
    apply add_public; [assumption|]. now apply sub_enc_ok.
  Qed.
  Lemma where_enc_ok vx vy c s x cd y : 0 < s -> c = 0 \/ c = 1 -> nshare n vx s x -> nshare n c 1 cd -> nshare n vy s y ->
    yields (where_enc (pr := pr) x cd y) (nshare n (if c =? 1 then vx else vy) s).
  Proof.
    intros Hs Hc Hx Hcd Hy. unfold where_enc. eapply yields_bind; [eapply mul_num_l1; [exact Hs|apply one_minus_ok; exact Hcd|exact Hy]|]. intros ym Hym.
    eapply yields_bind; [eapply mul_num_r1; [exact Hs|exact Hx|exact Hcd]|]. intros xm Hxm. apply yields_ret.
    eapply nshare_eqm; [|apply add_enc_ok; [exact Hxm|exact Hym]]. apply eqm_refl_eq. destruct Hc as [-> | ->]; cbn [Z.eqb Z.sub Pos.eqb]; ring.
  Qed.
  Lemma cwhere_ok vx vy c s x cd y : 0 < s -> c = 0 \/ c = 1 -> nshare n vx s x -> nshare n c 1 cd -> nshare n vy s y ->
    yields (cwhere (pr := pr) cd x y) (nshare n (if c =? 1 then vx else vy) s).
  Proof.
    intros Hs Hc Hx Hcd Hy. unfold cwhere.
    eapply yields_bind; [eapply mul_num_l1; [exact Hs|exact Hcd|exact Hx]|]. intros xm Hxm.
    eapply yields_bind; [eapply mul_num_l1; [exact Hs|apply one_minus_ok; exact Hcd|exact Hy]|]. intros ym Hym. apply yields_ret.
    eapply nshare_eqm; [|apply add_enc_ok; [exact Hxm|exact Hym]]. apply eqm_refl_eq. destruct Hc as [-> | ->]; cbn [Z.eqb Z.sub Pos.eqb]; ring.
  Qed.
  Lemma where_float_ok vx c s x cd q : 1 < s -> c = 0 \/ c = 1 -> nshare n vx s x -> nshare n c 1 cd ->
    yields (where_float (pr := pr) x cd q) (nshare n (if c =? 1 then vx else encodeQ 1 q * s) s).
  Proof.
    intros Hs Hc Hx Hcd. unfold where_float, mulf_num. pose proof (one_minus_ok _ _ _ Hcd) as Ho. destruct Ho as [Ho So]. rewrite So. cbn [mul_pub_rescale Z.ltb Z.compare Pos.compare Pos.compare_cont].
    eapply (yields_bind _ _ (nshare n ((1 - c) * encodeQ 1 q) 1)); [apply yields_ret; split; [exact (mul_int_ok n (encodeQ 1 q) _ _ Ho)|reflexivity]|]. intros ym [Hym Sym].
    eapply yields_bind; [eapply mul_num_r1; [|exact Hx|exact Hcd]; lia|]. intros xm [Hxm Sxm]. apply yields_ret.
    cbn [add_num]. rewrite Sxm, Sym. destruct (Z.ltb_spec 1 s); [|lia]. split; [|reflexivity]. cbn [n_sh].
    eapply ashare_eqm; [apply add_priv_ok; [exact Hxm|]; eapply (upscale_ok _ 1 s ym); split; [exact Hym|exact Sym]|].
    apply eqm_refl_eq. rewrite Z.div_1_r. destruct Hc as [-> | ->]; cbn [Z.eqb Z.sub Pos.eqb]; ring.
  Qed.
End N.

(** Property theorems C21-C27: XOR sharings, circuits and conversions. *)
Require Import ZArith List Lia.
From Verif Require Import Ring64 Sharing Arith Arith_proofs Beaver Provider Binary Binary_proofs Circuit_proofs Convert_proofs Tfp Tfp_proofs P_Sharing P_Tfp.
Import ListNotations.
Open Scope Z_scope.

(** [x] is held by [n] parties as 64-bit words; the right operand is a 64-bit public word or such a sharing, worth [opv y]. *)
Definition words (n : nat) (x : list Z) : Prop := length x = n /\ Forall in64 x.
Definition opwords (n : nat) (y : operand) : Prop := match y with Pub z => in64 z | Priv sh => words n sh end.
Definition opv (y : operand) : Z := match y with Pub z => z | Priv sh => open_b sh end.

Section Claims.
  Variables (n : nat) (pr : provider).
  Hypothesis Hn : (0 < n)%nat.
  Hypothesis HV : valid n pr.

  Lemma words_b x : words n x -> bshare n (open_b x) x.
  Proof. intros [L F]. now apply bshare_of. Qed.
  Lemma words_op y : opwords n y -> opval n y (opv y).
  Proof. destruct y as [z|sh]; cbn; [auto|]. apply words_b. Qed.
  Lemma of_b v sh : bshare n v sh -> words n sh /\ open_b sh = v.
  Proof. intros H. split; [|now apply bshare_open in H]. split; apply H. Qed.
  Lemma of_y (m : run pr (list Z)) v s : yields m (bshare n v) -> words n (fst (m s)) /\ open_b (fst (m s)) = v.
  Proof. intros H. apply of_b, H. Qed.

  (** C21 *)
  Theorem C21_xor : forall x y, words n x -> opwords n y -> words n (bxor x y) /\ open_b (bxor x y) = Z.lxor (open_b x) (opv y).
  Proof. intros x y Hx Hy. apply of_b, bxor_ok; [exact Hn|now apply words_b|now apply words_op]. Qed.
  Theorem C21_and : forall x y s, words n x -> opwords n y -> words n (fst (band x y s : _ * pst pr)) /\ open_b (fst (band x y s : _ * pst pr)) = Z.land (open_b x) (opv y).
  Proof. intros x y s Hx Hy. apply of_y, band_ok; auto using words_b, words_op. Qed.
  Theorem C21_or : forall x y s, words n x -> opwords n y -> words n (fst (bor x y s : _ * pst pr)) /\ open_b (fst (bor x y s : _ * pst pr)) = Z.lor (open_b x) (opv y).
  Proof. intros x y s Hx Hy. apply of_y, bor_ok; auto using words_b, words_op. Qed.
  Theorem C21_ior : forall x y s, words n x -> opwords n y -> words n (fst (bior x y s : _ * pst pr)) /\ open_b (fst (bior x y s : _ * pst pr)) = Z.lor (open_b x) (opv y).
  Proof. intros x y s Hx Hy. apply of_y, bior_ok; auto using words_b, words_op. Qed.
  Theorem C21_not : forall x, words n x -> words n (binv x) /\ open_b (binv x) = Z.lnot (open_b x).
  Proof. intros x Hx. apply of_b, binv_ok; auto using words_b. Qed.
  Theorem C21_shl : forall x k, 0 <= k -> words n x -> words n (bshl x k) /\ open_b (bshl x k) = wrap (open_b x * 2 ^ k).
  Proof. intros x k Hk Hx. rewrite <- Z.shiftl_mul_pow2 by lia. apply of_b, bshl_ok; auto using words_b. Qed.
  Theorem C21_shr : forall x k, 0 <= k -> words n x -> words n (bshr x k) /\ open_b (bshr x k) = open_b x / 2 ^ k.
  Proof. intros x k Hk Hx. rewrite <- Z.shiftr_div_pow2 by lia. apply of_b, bshr_ok; auto using words_b. Qed.
  Theorem C21_where_public : forall x c y s, c = 0 \/ c = 1 -> words n x -> opwords n y ->
    open_b (fst (bwhere_pub x c y s : _ * pst pr)) = if c =? 1 then open_b x else opv y.
  Proof. intros x c y s Hc Hx Hy. apply of_y, (bwhere_pub_ok n pr Hn HV); auto using words_b, words_op. Qed.
  Theorem C21_where_shared : forall x c y s, words n c -> open_b c = 0 \/ open_b c = 1 -> words n x -> opwords n y ->
    open_b (fst (bwhere x c y s : _ * pst pr)) = if open_b c =? 1 then open_b x else opv y.
  Proof.
    intros x c y s Hc Hb Hx Hy. replace (open_b c =? 1) with (Z.testbit (open_b c) 0) by (destruct Hb as [-> | ->]; reflexivity).
    apply of_y, (bwhere_ok n pr Hn HV); auto using words_b, words_op.
  Qed.

  (** C22 *)
  Theorem C22_add : forall x y s, words n x -> opwords n y -> words n (fst (badd x y s : _ * pst pr)) /\ open_b (fst (badd x y s : _ * pst pr)) = wrap (open_b x + opv y).
  Proof. intros x y s Hx Hy. apply of_y, (badd_ok n pr Hn HV); auto using words_b, words_op. Qed.

  (** C23 *)
  Theorem C23_compare : forall x y s, words n x -> opwords n y ->
    open_b (fst (beq x y s : _ * pst pr)) = (if open_b x =? opv y then 1 else 0) /\
    open_b (fst (bne x y s : _ * pst pr)) = (if open_b x =? opv y then 0 else 1) /\
    open_b (fst (blt x y s : _ * pst pr)) = (if open_b x <? opv y then 1 else 0) /\
    open_b (fst (ble x y s : _ * pst pr)) = (if open_b x <=? opv y then 1 else 0) /\
    open_b (fst (bgt x y s : _ * pst pr)) = (if opv y <? open_b x then 1 else 0) /\
    open_b (fst (bge x y s : _ * pst pr)) = (if opv y <=? open_b x then 1 else 0).
  Proof.
    intros x y s Hx Hy. apply words_b in Hx. apply words_op in Hy.
    pose proof (proj2 (of_y _ _ s (beq_ok n pr Hn HV x _ y _ Hx Hy))) as E1. pose proof (proj2 (of_y _ _ s (bne_ok n pr Hn HV x _ y _ Hx Hy))) as E2.
    pose proof (proj2 (of_y _ _ s (blt_ok n pr Hn HV x _ y _ Hx Hy))) as E3. pose proof (proj2 (of_y _ _ s (ble_ok n pr Hn HV x _ y _ Hx Hy))) as E4.
    pose proof (proj2 (of_y _ _ s (bgt_ok n pr Hn HV x _ y _ Hx Hy))) as E5. pose proof (proj2 (of_y _ _ s (bge_ok n pr Hn HV x _ y _ Hx Hy))) as E6.
    rewrite E1, E2, E3, E4, E5, E6. unfold Z.b2z. destruct (open_b x =? opv y); cbn [negb]; repeat split.
  Qed.

  (** C24 *)
  Theorem C24_sum : forall xs s, xs <> [] -> Forall (words n) xs ->
    exists r, fst (bsum xs s : _ * pst pr) = [r] /\ words n r /\ open_b r = wrap (zsum (map open_b xs)).
  Proof.
    intros xs s Ne F. assert (H : Forall2 (bshare n) (map open_b xs) xs) by (clear Ne; induction F; cbn [map]; constructor; auto using words_b).
    destruct (bsum_ok n pr Hn HV _ xs Ne H s) as (r & E & B). exists r. split; [exact E|]. now apply of_b.
  Qed.

  (** C25 *)
  Theorem C25_a2b : forall x s, words n x -> exists r, fst (a2b x s : _ * pst pr) = [r] /\ words n r /\ open_b r = open_a x.
  Proof. intros x s [L F]. destruct (a2b_ok n pr Hn HV x L F s) as (r & E & B). exists r. split; [exact E|]. now apply of_b. Qed.
  Theorem C25_a2b_fallback : forall x s, words n x -> words n (fst (a2b_seq x s : _ * pst pr)) /\ open_b (fst (a2b_seq x s : _ * pst pr)) = open_a x.
  Proof. intros x s [L F]. apply of_y, (a2b_seq_ok n pr Hn HV); assumption. Qed.

  (** C26 *)
  Theorem C26_b2a : forall bits sa sb x s, (1 <= bits <= 64)%nat -> words n x ->
    words n (fst (b2a bits sa sb x s : _ * pst pr)) /\ open_a (fst (b2a bits sa sb x s : _ * pst pr)) = wrap (open_b x mod 2 ^ Z.of_nat bits * (sa / sb)).
  Proof.
    intros bits sa sb x s Hb Hx. pose proof (b2a_ok n pr Hn HV bits sa sb x _ Hb (words_b x Hx) s) as (L & F & E). split; [split; assumption|].
    rewrite open_a_eq. now apply eqm_wrap_eq.
  Qed.
  Theorem C26_b2a_full : forall sa sb x s, words n x ->
    open_a (fst (b2a 64 sa sb x s : _ * pst pr)) = wrap (open_b x * (sa / sb)).
  Proof.
    intros sa sb x s Hx. rewrite (proj2 (C26_b2a 64 sa sb x s ltac:(lia) Hx)). apply eqm_wrap_eq. change (2 ^ Z.of_nat 64) with M64.
    apply eqm_mul; [|reflexivity]. unfold eqm. apply Z.mod_mod. unfold M64. lia.
  Qed.

  (** C27 *)
  Theorem C27_round_trip : forall sa sb x s, words n x ->
    exists r, fst (a2b2a sa sb x s : _ * pst pr) = [r] /\ words n r /\ open_a r = wrap (open_a x * (sa / sb)).
  Proof.
    intros sa sb x s Hx. unfold a2b2a, bind. pose proof (C25_a2b x s Hx) as (b & E & Wb & Ob). destruct (a2b x s) as [bs s1]. cbn [fst] in E. subst bs.
    cbn [mapM]. unfold bind, ret. pose proof (C26_b2a 64 sa sb b s1 ltac:(lia) Wb) as [W _]. pose proof (C26_b2a_full sa sb b s1 Wb) as E.
    destruct (b2a 64 sa sb b s1) as [r s2]. cbn [fst] in *. exists r. rewrite Ob in E. auto.
  Qed.
  Theorem C27_same_precision : forall sc x s, 0 < sc -> words n x -> exists r, fst (a2b2a sc sc x s : _ * pst pr) = [r] /\ open_a r = open_a x.
  Proof.
    intros sc x s Hs Hx. destruct (C27_round_trip sc sc x s Hx) as (r & E & _ & O). exists r. split; [exact E|]. rewrite O, Z.div_same, Z.mul_1_r by lia. apply wrap_id, open_a_in64.
  Qed.
  (** Converting to a lower precision than the source's loses the whole value. *)
  Theorem C27_lower_precision_annihilates : forall sa sb x s, 0 < sa < sb -> words n x -> exists r, fst (a2b2a sa sb x s : _ * pst pr) = [r] /\ open_a r = 0.
  Proof.
    intros sa sb x s Hs Hx. destruct (C27_round_trip sa sb x s Hx) as (r & E & _ & O). exists r. split; [exact E|]. rewrite O, Z.div_small, Z.mul_0_r by lia. reflexivity.
  Qed.
End Claims.
Print Assumptions C21_xor.
Print Assumptions C21_and.
Print Assumptions C21_or.
Print Assumptions C21_ior.
Print Assumptions C21_not.
Print Assumptions C21_shl.
Print Assumptions C21_shr.
Print Assumptions C21_where_public.
Print Assumptions C21_where_shared.
Print Assumptions C22_add.
Print Assumptions C23_compare.
Print Assumptions C24_sum.
Print Assumptions C25_a2b.
Print Assumptions C25_a2b_fallback.
Print Assumptions C26_b2a.
Print Assumptions C26_b2a_full.
Print Assumptions C27_round_trip.
Print Assumptions C27_same_precision.
Print Assumptions C27_lower_precision_annihilates.

(** The hypotheses are met by the first-party provider of three parties, in a state reached by a mixed history. *)
Lemma len_lcg : forall g k, length (fst (lcg_draw g k)) = k. Proof. apply lcg_ring. Qed.
Lemma in_lcg : forall g k, Forall in64 (fst (lcg_draw g k)). Proof. apply lcg_ring. Qed.
Lemma len_bits : forall g k, length (fst (lcg_bits g k)) = k. Proof. apply lcg_bit. Qed.
Lemma in_bits : forall g k, Forall (fun b => b = 0 \/ b = 1) (fst (lcg_bits g k)). Proof. apply lcg_bit. Qed.
Lemma three_pos : (0 < 3)%nat. Proof. lia. Qed.
Definition demo_provider : provider := tfp_provider lcg_draw lcg_bits len_lcg in_lcg len_bits in_bits 3 three_pos.
Example demo_valid : valid 3 demo_provider.
Proof. apply tfp_provider_valid. Qed.
Definition demo_st0 : tfp_state Z := tfp_history Z lcg_draw lcg_bits (fun s => s) demo_requests (42, demo_world).
Lemma demo_good : good 3 (snd demo_st0).
Proof.
  apply (tfp_history_good lcg_draw lcg_bits len_lcg in_lcg len_bits in_bits (fun s => s) 3 demo_requests (42, demo_world) three_pos).
  apply (setup_good (fun s => s) [1001; -5; 77] [4; 5; 6] demo_world). reflexivity.
Qed.
Definition demo_state : pst demo_provider := exist (fun st => good 3 (snd st)) demo_st0 demo_good.
Definition demo_x : list Z := [5; H63 - 1; -77].
Definition demo_y : list Z := [- H63; 12345; 3].
Example demo_words : words 3 demo_x /\ words 3 demo_y.
Proof. unfold words, demo_x, demo_y. repeat split; repeat constructor; unfold H63; lia. Qed.
Example C22_case : open_b (fst (badd demo_x (Priv demo_y) demo_state)) = wrap (open_b demo_x + open_b demo_y).
Proof. vm_compute. reflexivity. Qed.
Example C23_case : open_b (fst (blt demo_x (Priv demo_y) demo_state)) = 1 /\ open_b demo_x < open_b demo_y /\ open_b (fst (bgt demo_x (Pub (- H63)) demo_state)) = 1.
Proof. vm_compute. repeat split. Qed.
Example C25_case : match fst (a2b demo_x demo_state) with [r] => open_b r = H63 - 73 | _ => False end.
Proof. vm_compute. reflexivity. Qed.
Example C26_case : open_a (fst (b2a 6 65536 1 demo_x demo_state)) = (open_b demo_x mod 64) * 65536 /\ open_b demo_x mod 64 <> 0.
Proof. vm_compute. split; [reflexivity|discriminate]. Qed.

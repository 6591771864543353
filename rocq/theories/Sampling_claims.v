(** Proofs of C97: with which probability bernoulli samples one and dropout drops, and what they return. *)
Require Import ZArith QArith Qabs List Lia Lqa Bool FinFun.
From Verif Require Import Ring64 Encoder Encoder_proofs Arith Arith_proofs Beaver Trunc Trunc_proofs Provider Binary Binary_proofs Convert_proofs Compare Compare_proofs Compare_claims Maximum Maximum_proofs Maximum_claims Regular Regular_proofs Regular_num_proofs Regular_claims Sampling.
Import ListNotations.
Local Open Scope Z_scope.

(** the draws [us] of the parties with that of party [i] replaced by [z] *)
Definition with_draw (us : list Z) (i : nat) (z : Z) : list Z := firstn i us ++ z :: skipn (S i) us.
(** exactly [c] of the [D] draws of party [i] have the property *)
Definition of_draws (D c : Z) (P : Z -> Prop) : Prop := exists L, NoDup L /\ Z.of_nat (length L) = c /\ forall z, In z L <-> 0 <= z < D /\ P z.
Definition ones (m : num) : Prop := open_a (n_sh m) = 1.
Definition zero (m : num) : Prop := open_a (n_sh m) = 0.

(** ** Lemmas *)
Definition below (c : Z) : list Z := map Z.of_nat (seq 0 (Z.to_nat c)).
Lemma below_in c z : In z (below c) <-> 0 <= z < c.
Proof.
  unfold below. rewrite in_map_iff. split.
  - intros (k & <- & Hk). apply in_seq in Hk. lia.
  - intros H. exists (Z.to_nat z). split; [lia|]. apply in_seq. lia.
Qed.
Lemma below_nodup c : NoDup (below c). Proof. apply Injective_map_NoDup; [intros a b H; lia|apply seq_NoDup]. Qed.
Lemma below_len c : 0 <= c -> Z.of_nat (length (below c)) = c. Proof. intros H. unfold below. rewrite map_length, seq_length. lia. Qed.
Lemma of_draws_ext D c P Q : (forall z, 0 <= z < D -> (P z <-> Q z)) -> of_draws D c P -> of_draws D c Q.
Proof. intros E (L & N & Len & H). exists L. split; [exact N|]. split; [exact Len|]. intros z. rewrite H. split; intros [R A]; (split; [exact R|]); now apply E. Qed.

Lemma yo_lift1 {pr A} T (m : run pr A) (Q : A -> Prop) : yields m Q -> yo T (lift m) Q.
Proof. intros H. eapply yields_bind; [exact H|]. intros a Ha. apply yields_ret. exact Ha. Qed.
Lemma quotient_error D E k v q : 0 < D -> (q < 1)%Q -> Z.abs (k * D - v * encodeQ D (/ (1 - q))) < E * D ->
  (Qabs (inject_Z k / inject_Z D - inject_Z v / inject_Z D / (1 - q)) <= ulps E D + Qabs (inject_Z v / inject_Z D) / inject_Z D)%Q.
Proof.
  intros PD Q1 B. set (e := encodeQ D (/ (1 - q))) in *.
  assert (D1 : (0 < 1 - q)%Q) by lra. assert (D2 : (0 <= / (1 - q))%Q) by (apply Qlt_le_weak, Qinv_lt_0_compat, D1). destruct (encode_error_nonneg D (/ (1 - q)) PD D2) as (_ & A1 & A2). fold e in A1, A2.
  assert (DD : (0 < inject_Z D)%Q) by (change 0%Q with (inject_Z 0); rewrite <- Zlt_Qlt; lia).
  assert (Ee : (e # Z.to_pos D == inject_Z e / inject_Z D)%Q) by (rewrite Qmake_Qdiv, Z2Pos.id by lia; reflexivity).
  assert (E1 : (1 # Z.to_pos D == 1 / inject_Z D)%Q) by (rewrite Qmake_Qdiv, Z2Pos.id by lia; reflexivity). rewrite Ee in A1, A2. rewrite E1 in A2.
  assert (X : (inject_Z k / inject_Z D - inject_Z v / inject_Z D / (1 - q) == (inject_Z (k * D - v * e) / inject_Z D) / inject_Z D - inject_Z v / inject_Z D * (/ (1 - q) - inject_Z e / inject_Z D))%Q).
  { unfold Z.sub. rewrite inject_Z_plus, inject_Z_opp, !inject_Z_mult. field. split; lra. }
  rewrite X. eapply Qle_trans; [apply Qabs_triangle|]. rewrite Qabs_opp. apply Qplus_le_compat.
  + unfold Qdiv. rewrite !Qabs_Qmult. rewrite !(Qabs_pos (/ inject_Z D)) by (apply Qlt_le_weak, Qinv_lt_0_compat, DD). unfold ulps, Qdiv. apply Qmult_le_compat_r; [|apply Qlt_le_weak, Qinv_lt_0_compat, DD].
    apply Qle_shift_div_r; [exact DD|]. rewrite <- inject_Z_mult. change (Qabs (inject_Z (k * D - v * e))) with (inject_Z (Z.abs (k * D - v * e))). rewrite <- Zle_Qle. lia.
  + rewrite Qabs_Qmult. unfold Qdiv at 3. rewrite (Qabs_pos (/ (1 - q) - inject_Z e / inject_Z D)) by exact A1. rewrite Qmult_comm, (Qmult_comm _ (/ inject_Z D)). apply Qmult_le_compat_r; [|apply Qabs_nonneg]. unfold Qdiv in A2 at 2. rewrite Qmult_1_l in A2. apply Qlt_le_weak, A2.
Qed.

Section L.
  Variables (n : nat) (pr : provider) (D : Z) (p : nat).
  Hypothesis Hn : (0 < n)%nat.
  Hypothesis HV : valid n pr.
  Hypothesis Hp : (1 <= p <= 62)%nat.
  Hypothesis HD : D = 2 ^ Z.of_nat p.

  Lemma D_pos' : 0 < D < H63.
  Proof using Hp HD. clear Hn HV. rewrite HD. split; [apply Z.pow_pos_nonneg; lia|]. change H63 with (2 ^ 63). apply Z.pow_lt_mono_r; lia. Qed.
  Lemma xor_range a b : 0 <= a < D -> 0 <= b < D -> 0 <= Z.lxor a b < D.
  Proof using Hn Hp HD. intros Ha Hb. pose proof (zxor_range n Hn D p Hp HD [a; b]) as R. cbn in R. rewrite Z.lxor_0_r in R. apply R. repeat constructor; lia. Qed.
  Lemma with_draw_ok us i z : (i < n)%nat -> length us = n -> Forall (fun z => 0 <= z < D) us -> 0 <= z < D -> length (with_draw us i z) = n /\ Forall (fun z => 0 <= z < D) (with_draw us i z).
  Proof using.
    clear Hp HD Hn HV. intros Hi L F Rz. unfold with_draw. split; [rewrite app_length, firstn_length; cbn [length]; rewrite skipn_length; lia|]. apply Forall_app. split; [now apply Forall_firstn'|]. constructor; [assumption|now apply Forall_skipn'].
  Qed.
  (** as many draws of party i give a number below c as there are numbers below c *)
  Lemma draws_below us i c : (i < n)%nat -> length us = n -> Forall (fun z => 0 <= z < D) us -> of_draws D (Z.max 0 (Z.min c D)) (fun z => zxor (with_draw us i z) < c).
  Proof using Hn Hp HD.
    intros Hi L F. set (o := Z.lxor (zxor (firstn i us)) (zxor (skipn (S i) us))).
    assert (Ro : 0 <= o < D) by (apply xor_range; apply (zxor_range n Hn D p Hp HD); [now apply Forall_firstn'|now apply Forall_skipn']).
    assert (E : forall z, zxor (with_draw us i z) = Z.lxor o z).
    { intros z. unfold with_draw, o. generalize (skipn (S i) us). intros t. clear. induction (firstn i us) as [|a l IH]; cbn [app zxor fold_right]; [rewrite Z.lxor_0_l; apply Z.lxor_comm|].
      fold (zxor (l ++ z :: t)). fold (zxor l). rewrite IH. now rewrite !Z.lxor_assoc. }
    assert (J : forall z, Z.lxor o (Z.lxor o z) = z) by (intros z; now rewrite <- Z.lxor_assoc, Z.lxor_nilpotent, Z.lxor_0_l).
    pose proof D_pos' as PD. set (m := Z.max 0 (Z.min c D)). exists (map (Z.lxor o) (below m)). split; [|split].
    - apply Injective_map_NoDup; [|apply below_nodup]. intros a b H. rewrite <- (J a), H. apply J.
    - rewrite map_length. apply below_len. lia.
    - intros z. rewrite in_map_iff. split.
      + intros (y & <- & Hy). apply below_in in Hy. split; [apply xor_range; lia|]. rewrite E, J. lia.
      + intros [Rz H]. rewrite E in H. exists (Z.lxor o z). split; [apply J|]. apply below_in. pose proof (xor_range o z Ro Rz). lia.
  Qed.
  Lemma rand_of us : length us = n -> Forall (fun z => 0 <= z < D) us -> yields (rand_num (pr := pr) D p (ret us)) (nshare n (zxor us) D).
  Proof using Hn HV Hp HD.
    intros L F. pose proof D_pos' as PD. assert (HL : yields (ret (pr := pr) us) (fun u => length u = n /\ Forall (fun z => 0 <= z < D) u /\ zxor u = zxor us)) by (intros st; cbn; auto).
    eapply yields_weaken; [exact (rand_ok n Hn pr HV D (proj1 PD) p Hp HD (ret us) (fun v => v = zxor us) HL)|]. intros r (v & _ & -> & H). exact H.
  Qed.
  (** comparing an encrypted number with a random one *)
  Lemma gt_u v s u x r : s = 1 \/ s = D -> nshare n v s x -> nshare n u D r -> 0 <= u < D -> D - H63 <= v * (D / s) <= H63 ->
    yields (n_gt (pr := pr) D x (AEnc r)) (nshare n (if u <? v * (D / s) then 1 else 0) 1).
  Proof using Hn HV Hp HD.
    intros Hs Hx Hr Ru B. pose proof D_pos' as PD. destruct Hs as [-> | ->].
    - rewrite Z.div_1_r in *. apply (n_gt_mixed n Hn pr HV D (proj1 PD) p Hp HD); try assumption; unfold in64; lia.
    - rewrite Z.div_same, Z.mul_1_r in * by lia. pose proof (n_gt_ok n Hn pr HV D v x (AEnc r)) as G. cbv zeta in G. unfold common, aval in G. destruct Hx as [Hx Sx], Hr as [Hr Sr].
      rewrite Sx, Sr, (ashare_open _ _ _ Hr), (wrap_id u ltac:(unfold in64; lia)), Z.max_id, Z.div_same, !Z.mul_1_r, (ratio_D n Hn D (proj1 PD)), Z.mul_1_r in G by lia.
      apply G; [lia|split; assumption|cbn [wf_arg]; unfold wf_num; split; [apply Hr|split; [apply Hr|lia]]|unfold in64; lia].
  Qed.
  Lemma lt_u v s u x r : s = 1 \/ s = D -> nshare n v s x -> nshare n u D r -> 0 <= u < D -> D - H63 <= v * (D / s) < H63 ->
    in64 v -> yields (n_lt (pr := pr) D r (AEnc x)) (nshare n (if u <? v * (D / s) then 1 else 0) 1).
  Proof using Hn HV Hp HD.
    intros Hs Hx Hr Ru B Iv. pose proof D_pos' as PD. assert (S0 : 0 < s) by (destruct Hs as [-> | ->]; lia). pose proof (n_lt_ok n Hn pr HV D u r (AEnc x)) as G. cbv zeta in G. unfold common, aval in G. destruct Hx as [Hx Sx], Hr as [Hr Sr].
    rewrite Sx, Sr, (ashare_open _ _ _ Hx), (wrap_id v Iv), Z.max_l, Z.div_same, !Z.mul_1_r, (ratio_D n Hn D (proj1 PD)), Z.mul_1_r in G by (destruct Hs as [-> | ->]; lia).
    apply G; [lia|split; assumption|cbn [wf_arg]; unfold wf_num; split; [apply Hx|split; [apply Hx|lia]]|unfold in64; lia].
  Qed.
  Lemma lt_public q u r : nshare n u D r -> 0 <= u < D -> D - H63 <= encodeQ D q <= H63 -> yields (n_lt (pr := pr) D r (AFloat q)) (nshare n (if u <? encodeQ D q then 1 else 0) 1).
  Proof using Hn HV Hp HD.
    intros Hr Ru B. pose proof D_pos' as PD. pose proof (n_lt_ok n Hn pr HV D u r (AFloat q)) as G. cbv zeta in G. unfold common, aval in G. destruct Hr as [Hr Sr].
    rewrite Sr, Z.div_same, !Z.mul_1_r, (ratio_D n Hn D (proj1 PD)), Z.mul_1_r in G by lia. apply G; [lia|split; assumption|exact I|unfold in64; lia].
  Qed.
  Lemma gt_public q u r : nshare n u D r -> 0 <= u < D -> 0 <= encodeQ D q < D -> yields (n_gt (pr := pr) D r (AFloat q)) (nshare n (if encodeQ D q <? u then 1 else 0) 1).
  Proof using Hn HV Hp HD.
    intros Hr Ru B. pose proof D_pos' as PD. pose proof (n_gt_ok n Hn pr HV D u r (AFloat q)) as G. cbv zeta in G. unfold common, aval in G. destruct Hr as [Hr Sr].
    rewrite Sr, Z.div_same, !Z.mul_1_r, (ratio_D n Hn D (proj1 PD)), Z.mul_1_r in G by lia. apply G; [lia|split; assumption|exact I|unfold in64; lia].
  Qed.
  Lemma bit_open (b : bool) x : nshare n (if b then 1 else 0) 1 x -> (open_a (n_sh x) = if b then 1 else 0) /\ n_sc x = 1.
  Proof using. clear Hn HV Hp HD. intros [H S]. split; [|exact S]. rewrite (ashare_open _ _ _ H). apply wrap_id. destruct b; unfold in64, H63; lia. Qed.
  Lemma encode_unit q : (0 < q)%Q -> (q < 1)%Q -> 0 <= encodeQ D q < D.
  Proof using Hp HD.
    clear Hn HV. intros H0 H1. pose proof D_pos' as PD. destruct q as [a b]. unfold Qlt in *. cbn in H0, H1. rewrite Z.mul_1_r in *. unfold encodeQ. cbn [Qnum Qden]. split; [apply Z.quot_pos; nia|].
    apply Z.quot_lt_upper_bound; nia.
  Qed.
End L.

(** ** Claims *)
Section Claims.
  Variables (n : nat) (pr : provider) (D : Z) (p : nat).
  Hypothesis Hn : (0 < n)%nat.
  Hypothesis HV : valid n pr.
  Hypothesis Hp : (1 <= p <= 62)%nat.
  Hypothesis HD : D = 2 ^ Z.of_nat p.

  (** C97: bernoulli gives bits; whatever the other parties draw, exactly as many of party i's 2^p draws give one as the encoded probability says: none below 0, all from 1 on. *)
  Lemma k_C97_bernoulli : forall x us i st, sharing n x -> n_sc x = 1 \/ n_sc x = D -> (i < n)%nat -> length us = n -> Forall (fun z => 0 <= z < D) us ->
    let a := open_a (n_sh x) * (D / n_sc x) in D - H63 <= a <= H63 ->
    let r z := fst (bernoulli (pr := pr) D p (ret (with_draw us i z)) x st) in
    of_draws D (Z.max 0 (Z.min a D)) (fun z => ones (r z)) /\ forall z, 0 <= z < D -> n_sc (r z) = 1 /\ (ones (r z) \/ zero (r z)).
  Proof using Hn HV Hp HD.
    intros x us i st Hx Hs Hi L F a B r. pose proof (nshare_of n x Hx) as Hv. pose proof (D_pos' D p Hp HD) as PD.
    assert (G : forall z, 0 <= z < D -> (open_a (n_sh (r z)) = if zxor (with_draw us i z) <? a then 1 else 0) /\ n_sc (r z) = 1).
    { intros z Rz. destruct (with_draw_ok n D us i z Hi L F Rz) as [L' F']. apply (bit_open n). assert (Y : yields (bernoulli (pr := pr) D p (ret (with_draw us i z)) x) (nshare n (if zxor (with_draw us i z) <? a then 1 else 0) 1)); [|apply Y].
      unfold bernoulli. eapply yields_bind; [exact (rand_of n pr D p Hn HV Hp HD _ L' F')|]. intros u Hu. exact (gt_u n pr D p Hn HV Hp HD _ _ _ x u Hs Hv Hu (zxor_range n Hn D p Hp HD _ F') B). }
    split.
    - eapply of_draws_ext; [|exact (draws_below n D p Hn Hp HD us i a Hi L F)]. intros z Rz. unfold ones. rewrite (proj1 (G z Rz)). destruct (Z.ltb_spec (zxor (with_draw us i z)) a); split; intros; lia.
    - intros z Rz. destruct (G z Rz) as [E S]. split; [exact S|]. unfold ones, zero. rewrite E. destruct (zxor (with_draw us i z) <? a); auto.
  Qed.
  (** C97: so does crypten.bernoulli of an encrypted tensor ... *)
  Lemma k_C97_bernoulli_function : forall x us i st, sharing n x -> n_sc x = 1 \/ n_sc x = D -> (i < n)%nat -> length us = n -> Forall (fun z => 0 <= z < D) us ->
    let a := open_a (n_sh x) * (D / n_sc x) in D - H63 <= a < H63 ->
    let r z := fst (crypten_bernoulli (pr := pr) D p (ret (with_draw us i z)) (AEnc x) st) in
    of_draws D (Z.max 0 (Z.min a D)) (fun z => ones (r z)) /\ forall z, 0 <= z < D -> n_sc (r z) = 1 /\ (ones (r z) \/ zero (r z)).
  Proof using Hn HV Hp HD.
    intros x us i st Hx Hs Hi L F a B r. pose proof (nshare_of n x Hx) as Hv. pose proof (D_pos' D p Hp HD) as PD.
    assert (G : forall z, 0 <= z < D -> (open_a (n_sh (r z)) = if zxor (with_draw us i z) <? a then 1 else 0) /\ n_sc (r z) = 1).
    { intros z Rz. destruct (with_draw_ok n D us i z Hi L F Rz) as [L' F']. apply (bit_open n). assert (Y : yields (crypten_bernoulli (pr := pr) D p (ret (with_draw us i z)) (AEnc x)) (nshare n (if zxor (with_draw us i z) <? a then 1 else 0) 1)); [|apply Y].
      unfold crypten_bernoulli. eapply yields_bind; [exact (rand_of n pr D p Hn HV Hp HD _ L' F')|]. intros u Hu. exact (lt_u n pr D p Hn HV Hp HD _ _ _ x u Hs Hv Hu (zxor_range n Hn D p Hp HD _ F') B (open_a_in64 _)). }
    split.
    - eapply of_draws_ext; [|exact (draws_below n D p Hn Hp HD us i a Hi L F)]. intros z Rz. unfold ones. rewrite (proj1 (G z Rz)). destruct (Z.ltb_spec (zxor (with_draw us i z)) a); split; intros; lia.
    - intros z Rz. destruct (G z Rz) as [E S]. split; [exact S|]. unfold ones, zero. rewrite E. destruct (zxor (with_draw us i z) <? a); auto.
  Qed.
  (** C97: ... and of public probabilities, each encoded with p bits. *)
  Lemma k_C97_bernoulli_public : forall q us i st, (i < n)%nat -> length us = n -> Forall (fun z => 0 <= z < D) us -> let a := encodeQ D q in D - H63 <= a <= H63 ->
    let r z := fst (crypten_bernoulli (pr := pr) D p (ret (with_draw us i z)) (AFloat q) st) in
    of_draws D (Z.max 0 (Z.min a D)) (fun z => ones (r z)) /\ forall z, 0 <= z < D -> n_sc (r z) = 1 /\ (ones (r z) \/ zero (r z)).
  Proof using Hn HV Hp HD.
    intros q us i st Hi L F a B r. pose proof (D_pos' D p Hp HD) as PD.
    assert (G : forall z, 0 <= z < D -> (open_a (n_sh (r z)) = if zxor (with_draw us i z) <? a then 1 else 0) /\ n_sc (r z) = 1).
    { intros z Rz. destruct (with_draw_ok n D us i z Hi L F Rz) as [L' F']. apply (bit_open n). assert (Y : yields (crypten_bernoulli (pr := pr) D p (ret (with_draw us i z)) (AFloat q)) (nshare n (if zxor (with_draw us i z) <? a then 1 else 0) 1)); [|apply Y].
      unfold crypten_bernoulli. eapply yields_bind; [exact (rand_of n pr D p Hn HV Hp HD _ L' F')|]. intros u Hu. exact (lt_public n pr D p Hn HV Hp HD q _ u Hu (zxor_range n Hn D p Hp HD _ F') B). }
    split.
    - eapply of_draws_ext; [|exact (draws_below n D p Hn Hp HD us i a Hi L F)]. intros z Rz. unfold ones. rewrite (proj1 (G z Rz)). destruct (Z.ltb_spec (zxor (with_draw us i z)) a); split; intros; lia.
    - intros z Rz. destruct (G z Rz) as [E S]. split; [exact S|]. unfold ones, zero. rewrite E. destruct (zxor (with_draw us i z) <? a); auto.
  Qed.

  (** C97: weighted_sample returns the weight at the index that weighted_index picks (C59), and the indicator of that index. *)
  Lemma k_C97_weighted_sample : forall ws us st, vector n 1 ws -> Forall (fun w => 0 <= w) (reveals ws) -> 0 < zsum (reveals ws) -> zsum (reveals ws) * D < H63 ->
    length us = n -> Forall (fun z => 0 <= z < D) us -> let W := zsum (reveals ws) in let u := fold_right Z.lxor 0 us in
    let r := fst (weighted_sample (pr := pr) D p (ret us) ws st) in
    exists k, (k < length ws)%nat /\ zsum (firstn k (reveals ws)) * D <= u * W < zsum (firstn (S k) (reveals ws)) * D /\
      open_a (n_sh (fst r)) = nth k (reveals ws) 0 /\ n_sc (fst r) = 1 /\ indicator (length ws) k (snd r).
  Proof using Hn HV Hp HD.
    intros ws us st [N V] NN P B L Fu W u r. pose proof (D_pos' D p Hp HD) as PD.
    assert (HL : yields (pr := pr) (ret us) (fun x => length x = n /\ Forall (fun z => 0 <= z < D) x /\ zxor x = zxor us)) by (apply yields_ret; auto).
    assert (H : Forall2 (fun v x => nshare n v 1 x) (reveals ws) ws) by exact (rep_num n 1 _ _ _ (reps n 1 ws V _ (incl_refl _))). assert (LL : length (reveals ws) = length ws) by (unfold reveals; apply map_length).
    assert (Y : yields (weighted_sample (pr := pr) D p (ret us) ws) (fun r => exists k, (k < length ws)%nat /\ zsum (firstn k (reveals ws)) * D <= zxor us * zsum (reveals ws) < zsum (firstn (S k) (reveals ws)) * D /\
      nshare n (nth k (reveals ws) 0) 1 (fst r) /\ Forall2 (fun v x => nshare n v 1 x) (one_hot (length ws) k) (snd r))).
    { unfold weighted_sample. eapply yields_bind; [exact (weighted_index_ok n Hn pr HV D (proj1 PD) p Hp HD _ (fun v => v = zxor us) HL (reveals ws) ws H NN P B)|]. intros a (u' & k & Ru & -> & Hk & Hw & R & Ha).
      eapply yields_bind; [exact (select_ok n Hn pr HV D p Hp HD 1 (or_introl eq_refl) (reveals ws) ws a k Hk H Ha)|]. intros v Hv. apply yields_ret. exists k. rewrite LL in *. split; [exact Hk|]. split; [exact R|]. split; [exact Hv|exact Ha]. }
    destruct (Y st) as (k & Hk & R & [Hv Sv] & Ha). fold r in Hv, Sv, Ha. exists k. split; [exact Hk|]. split; [exact R|]. split; [|split; [exact Sv|now apply (indicator_of n)]].
    rewrite (ashare_open _ _ _ Hv). apply wrap_id. rewrite <- LL in Hk. apply (nth_In _ 0) in Hk. apply in_map_iff in Hk. destruct Hk as (x & <- & _). apply open_a_in64.
  Qed.

  (** C97: dropout of a fixed-point number in training: exactly floor(q 2^p) + 1 of party i's 2^p draws drop the element, which is then 0; the others give x / (1 - q) up to the truncation and the encoding of 1 / (1 - q). *)
  Lemma k_C97_dropout : forall E x q us i st, 1 <= E -> 4 * E <= D -> sharing n x -> n_sc x = D -> (0 < q)%Q -> (q < 1)%Q -> in64 (open_a (n_sh x) * encodeQ D (/ (1 - q))) ->
    (i < n)%nat -> length us = n -> Forall (fun z => 0 <= z < D) us ->
    let r z := fst (dropout (pr := pr) D p (ret (with_draw us i z)) (within E) x q true st) in
    of_draws D (encodeQ D q + 1) (fun z => zxor (with_draw us i z) <= encodeQ D q) /\
    forall z y, 0 <= z < D -> r z = Some y -> fst (dropout (pr := pr) D p (ret (with_draw us i z)) no_check x q true st) = Some y /\ n_sc y = D /\
      (zxor (with_draw us i z) <= encodeQ D q -> zero y) /\
      (encodeQ D q < zxor (with_draw us i z) -> (Qabs (qval y - qval x / (1 - q)) <= ulps E D + Qabs (qval x) / inject_Z D)%Q).
  Proof using Hn HV Hp HD.
    intros E x q us i st HE H4 Hx Sx Q0 Q1 I Hi L F r. pose proof (D_pos' D p Hp HD) as PD. pose proof (encode_unit D p Hp HD q Q0 Q1) as Eq. split.
    { pose proof (draws_below n D p Hn Hp HD us i (encodeQ D q + 1) Hi L F) as H. replace (Z.max 0 (Z.min (encodeQ D q + 1) D)) with (encodeQ D q + 1) in H by lia. eapply of_draws_ext; [|exact H]. intros z _. cbn beta. lia. }
    intros z y Rz Hy. destruct (with_draw_ok n D us i z Hi L F Rz) as [L' F']. pose proof (sharing_nshare n D x Hx Sx) as Hv.
    assert (N0 : Qeq_bool q 0 = false) by (apply not_true_iff_false; rewrite Qeq_bool_iff; lra). assert (N1 : Qeq_bool q 1 = false) by (apply not_true_iff_false; rewrite Qeq_bool_iff; lra).
    assert (N2 : negb (Qle_bool q 0) && negb (Qle_bool 1 q) = true). { apply andb_true_intro. split; apply negb_true_iff, not_true_iff_false; rewrite Qle_bool_iff; lra. }
    split.
    { revert Hy. unfold r, dropout. rewrite N0, N1, N2. apply weaker_fst. apply weaker_bind; [apply weaker_refl|]. intros u. apply weaker_bind; [apply weaker_refl|]. intros m. apply weaker_bind; [apply mulpv_weak|]. intros d. apply weaker_refl. }
    set (w := zxor (with_draw us i z)) in *. set (e := encodeQ D (/ (1 - q))) in *.
    assert (HF : false = true -> n = 1%nat) by discriminate.
    assert (Y : yo false (dropout (pr := pr) D p (ret (with_draw us i z)) (within E) x q true) (fun y => exists k, Z.abs (k * D - open_a (n_sh x) * e) < E * D /\ nshare n (k * (if encodeQ D q <? w then 1 else 0)) D y)).
    { unfold dropout. rewrite N0, N1, N2. eapply yo_lift; [exact (rand_of n pr D p Hn HV Hp HD _ L' F')|]. intros u Hu.
      eapply yo_lift; [exact (gt_public n pr D p Hn HV Hp HD q _ u Hu (zxor_range n Hn D p Hp HD _ F') Eq)|]. fold w. intros m Hm.
      eapply yo_bind; [unfold div_float; rewrite Sx; fold e; rewrite <- (mulpv_wrap pr E x e); exact (mulpv_acc n Hn pr HV D E false HE H4 HF _ x e Hv I)|]. intros d (k & Hd & B).
      eapply yo_weaken; [apply yo_lift1; exact (mul_num_r1 n Hn pr HV d m k _ D (proj1 PD) Hd Hm)|]. intros y' Hy'. exists k. split; [exact B|exact Hy']. }
    destruct (yo_some false _ _ st y Y Hy) as (k & B & [Ha Sa]). split; [exact Sa|]. split.
    - intros H. unfold zero. rewrite (ashare_open _ _ _ Ha). replace (encodeQ D q <? w) with false by (symmetry; apply Z.ltb_ge; lia). now rewrite Z.mul_0_r.
    - intros H. replace (encodeQ D q <? w) with true in Ha by (symmetry; apply Z.ltb_lt; lia). rewrite Z.mul_1_r in Ha.
      assert (Ik : in64 k). { unfold in64 in *. nia. }
      pose proof (ashare_open _ _ _ Ha) as Ey. rewrite (wrap_id k Ik) in Ey. unfold qval. rewrite Ey, Sa, Sx. set (v := open_a (n_sh x)) in *.
      apply quotient_error; [lia|exact Q1|exact B].
  Qed.
  (** C97: an integer tensor (scale 1) is instead multiplied by the integer part of 1 / (1 - q). *)
  Lemma k_C97_dropout_integer : forall x q us i st, sharing n x -> n_sc x = 1 -> (0 < q)%Q -> (q < 1)%Q -> (i < n)%nat -> length us = n -> Forall (fun z => 0 <= z < D) us -> forall z, 0 <= z < D ->
    exists y, fst (dropout (pr := pr) D p (ret (with_draw us i z)) no_check x q true st) = Some y /\ n_sc y = 1 /\
      open_a (n_sh y) = if encodeQ D q <? zxor (with_draw us i z) then wrap (open_a (n_sh x) * encodeQ 1 (/ (1 - q))) else 0.
  Proof using Hn HV Hp HD.
    intros x q us i st Hx Sx Q0 Q1 Hi L F z Rz. pose proof (D_pos' D p Hp HD) as PD. pose proof (encode_unit D p Hp HD q Q0 Q1) as Eq. destruct (with_draw_ok n D us i z Hi L F Rz) as [L' F']. pose proof (sharing_nshare n 1 x Hx Sx) as Hv.
    assert (N0 : Qeq_bool q 0 = false) by (apply not_true_iff_false; rewrite Qeq_bool_iff; lra). assert (N1 : Qeq_bool q 1 = false) by (apply not_true_iff_false; rewrite Qeq_bool_iff; lra).
    assert (N2 : negb (Qle_bool q 0) && negb (Qle_bool 1 q) = true). { apply andb_true_intro. split; apply negb_true_iff, not_true_iff_false; rewrite Qle_bool_iff; lra. }
    assert (Y : yo true (dropout (pr := pr) D p (ret (with_draw us i z)) no_check x q true) (nshare n (open_a (n_sh x) * encodeQ 1 (/ (1 - q)) * (if encodeQ D q <? zxor (with_draw us i z) then 1 else 0)) 1)).
    { unfold dropout. rewrite N0, N1, N2. eapply yo_lift; [exact (rand_of n pr D p Hn HV Hp HD _ L' F')|]. intros u Hu.
      eapply yo_lift; [exact (gt_public n pr D p Hn HV Hp HD q _ u Hu (zxor_range n Hn D p Hp HD _ F') Eq)|]. intros m Hm.
      eapply yo_bind; [unfold div_float; rewrite Sx; exact (mulpv_1 n pr no_check _ _ x Hv)|]. intros d Hd. apply yo_lift1. exact (mul_num_r1 n Hn pr HV d m _ _ 1 ltac:(lia) Hd Hm). }
    destruct (yo_true _ _ st Y) as (y & Ey & Ha & Sa). exists y. split; [exact Ey|]. split; [exact Sa|]. rewrite (ashare_open _ _ _ Ha). destruct (encodeQ D q <? zxor (with_draw us i z)); [now rewrite Z.mul_1_r|now rewrite Z.mul_0_r].
  Qed.
  (** C97: outside training dropout returns x, for 0 <= q < 1; whether in training or not, it returns x for q = 0, raises unless 0 <= q <= 1, and for q = 1 returns 0. *)
  Lemma k_C97_dropout_cases : forall chk bits x q training st, sharing n x ->
    let r := fst (dropout (pr := pr) D p bits chk x q training st) in
    ((0 <= q)%Q -> (q < 1)%Q -> training = false -> r = Some x) /\ ((q == 0)%Q -> r = Some x) /\ ((q < 0)%Q \/ (1 < q)%Q -> r = None) /\
    ((q == 1)%Q -> exists y, r = Some y /\ zero y /\ n_sc y = n_sc x).
  Proof using Hn HV Hp HD.
    intros chk bits x q training st Hx r. unfold r, dropout.
    destruct (Qeq_bool q 0) eqn:N0; [apply Qeq_bool_iff in N0|apply not_true_iff_false in N0; rewrite Qeq_bool_iff in N0].
    { split; [reflexivity|]. split; [reflexivity|]. split; [intros [H|H]; exfalso; lra|intros H; exfalso; lra]. }
    destruct (Qeq_bool q 1) eqn:N1; [apply Qeq_bool_iff in N1|apply not_true_iff_false in N1; rewrite Qeq_bool_iff in N1].
    { split; [intros; exfalso; lra|]. split; [intros; exfalso; lra|]. split; [intros [H|H]; exfalso; lra|]. intros _. eexists. split; [reflexivity|]. pose proof (sub_enc_ok n _ _ _ _ _ (nshare_of n x Hx) (nshare_of n x Hx)) as [Ha Sa].
      split; [|exact Sa]. unfold zero. rewrite (ashare_open _ _ _ Ha). now rewrite Z.sub_diag. }
    destruct (negb (Qle_bool q 0) && negb (Qle_bool 1 q)) eqn:N2.
    - apply andb_prop in N2 as [A B]. apply negb_true_iff, not_true_iff_false in A, B. rewrite Qle_bool_iff in A, B. split; [intros _ _ ->; reflexivity|]. split; [contradiction|]. split; [intros [H|H]; exfalso; lra|contradiction].
    - apply andb_false_iff in N2. assert (C : (q <= 0)%Q \/ (1 <= q)%Q) by (destruct N2 as [N2|N2]; apply negb_false_iff, Qle_bool_iff in N2; auto). split; [intros; exfalso; destruct C; lra|]. split; [contradiction|]. split; [reflexivity|contradiction].
  Qed.
  (** C97: when x requires a gradient a public random number u decides, with the same accuracy. *)
  Lemma k_C97_dropout_tracked : forall E x q u st y, 1 <= E -> 4 * E <= D -> sharing n x -> n_sc x = D -> (0 <= q)%Q -> (q < 1)%Q -> in64 (open_a (n_sh x) * encodeQ D (/ (1 - q))) ->
    fst (dropout_tracked (pr := pr) (within E) x q true u st) = Some y -> fst (dropout_tracked (pr := pr) no_check x q true u st) = Some y /\ n_sc y = D /\
      ((u <= q)%Q -> (Qabs (qval y) <= ulps E D)%Q) /\ ((q < u)%Q -> (Qabs (qval y - qval x / (1 - q)) <= ulps E D + Qabs (qval x) / inject_Z D)%Q).
  Proof using Hn HV Hp HD.
    intros E x q u st y HE H4 Hx Sx Q0 Q1 I Hy. pose proof (D_pos' D p Hp HD) as PD. split; [revert Hy; unfold dropout_tracked; apply weaker_fst, mulpv_weak|]. unfold dropout_tracked in Hy. rewrite Sx in Hy.
    set (e := encodeQ D (if Qle_bool u q then 0 else / (1 - q))) in *. assert (HF : false = true -> n = 1%nat) by discriminate. pose proof (sharing_nshare n D x Hx Sx) as Hv.
    assert (Ie : in64 (open_a (n_sh x) * e)). { unfold e. destruct (Qle_bool u q); [|exact I]. replace (encodeQ D 0) with 0; [rewrite Z.mul_0_r; unfold in64, H63; lia|]. unfold encodeQ. cbn [Qnum Qden]. now rewrite Z.mul_0_r. }
    rewrite <- (mulpv_wrap pr E x e) in Hy. destruct (yo_some false _ _ st y (mulpv_acc n Hn pr HV D E false HE H4 HF _ x e Hv Ie) Hy) as (k & [Ha Sa] & B). split; [exact Sa|].
    assert (Ik : in64 k) by (unfold in64 in *; nia). pose proof (ashare_open _ _ _ Ha) as Ey. rewrite (wrap_id k Ik) in Ey. unfold qval. rewrite Ey, Sa, Sx.
    assert (DD : (0 < inject_Z D)%Q) by (change 0%Q with (inject_Z 0); rewrite <- Zlt_Qlt; lia). split; intros H.
    - apply Qle_bool_iff in H. unfold e in B. rewrite H in B. replace (encodeQ D 0) with 0 in B by (unfold encodeQ; cbn [Qnum Qden]; now rewrite Z.mul_0_r). rewrite Z.mul_0_r, Z.sub_0_r in B. assert (Z.abs k < E) by nia.
      unfold ulps, Qdiv. rewrite Qabs_Qmult, (Qabs_pos (/ inject_Z D)) by (apply Qlt_le_weak, Qinv_lt_0_compat, DD). apply Qmult_le_compat_r; [|apply Qlt_le_weak, Qinv_lt_0_compat, DD].
      change (Qabs (inject_Z k)) with (inject_Z (Z.abs k)). rewrite <- Zle_Qle. lia.
    - unfold e in B. replace (Qle_bool u q) with false in B by (symmetry; apply not_true_iff_false; rewrite Qle_bool_iff; lra). apply quotient_error; [lia|exact Q1|exact B].
  Qed.
  (** C97: so outside training the two disagree for q = 1: dropout without a gradient returns 0. *)
  Lemma k_C97_eval_refuted : exists q, (0 <= q <= 1)%Q /\ forall chk bits x u st st', sharing n x -> ~ zero x ->
    fst (dropout_tracked (pr := pr) chk x q false u st) = Some x /\ exists y, fst (dropout (pr := pr) D p bits chk x q false st') = Some y /\ zero y.
  Proof using Hn HV Hp HD.
    exists 1%Q. split; [lra|]. intros chk bits x u st st' Hx _. split; [reflexivity|]. destruct (k_C97_dropout_cases chk bits x 1 false st' Hx) as (_ & _ & _ & H). destruct (H ltac:(reflexivity)) as (y & Ey & Hy & _). exists y. now split.
  Qed.
End Claims.

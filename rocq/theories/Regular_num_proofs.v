(** Lemmas about products, polynomials, means and variances of fixed-point numbers; concatenation and padding. *)
Require Import ZArith QArith Qabs List Lia Bool.
From Verif Require Import Ring64 Encoder Arith Arith_proofs Beaver Beaver_proofs Trunc Trunc_proofs Provider Binary Binary_proofs Circuit_proofs Convert_proofs Compare Compare_proofs Maximum Maximum_proofs Regular Regular_proofs.
Import ListNotations.
Open Scope Z_scope.

Lemma concat_length_const {A} (l : list (list A)) N : Forall (fun r => length r = N) l -> length (concat l) = (length l * N)%nat.
Proof. intros H. induction H as [|r l Hr H IH]; [reflexivity|]. cbn [concat length]. rewrite app_length, IH. lia. Qed.
Lemma Forall2_lengths {A B} (R : A -> B -> Prop) vrows rows N : Forall2 (Forall2 R) vrows rows -> Forall (fun r => length r = N) vrows -> Forall (fun r => length r = N) rows.
Proof. intros H F. induction H as [|v r vs rs Hv H IH]; [constructor|]. constructor; [rewrite <- (Forall2_length _ _ _ Hv); now apply Forall_inv in F|apply IH; now apply Forall_inv_tail in F]. Qed.
Lemma Forall2_impl_in {A B} (R R' : A -> B -> Prop) (P : A -> Prop) l m : Forall P l -> (forall a b, P a -> R a b -> R' a b) -> Forall2 R l m -> Forall2 R' l m.
Proof. intros F K H. induction H; constructor; [apply K; [now apply Forall_inv in F|assumption]|apply IHForall2; now apply Forall_inv_tail in F]. Qed.
Lemma yo_zip_in {pr A A' B B' C} T (f : A' -> B' -> runo pr C) (P : A * B -> Prop) (R1 : A -> A' -> Prop) (R2 : B -> B' -> Prop) (R3 : A -> B -> C -> Prop) vs xs ws ys :
  Forall2 R1 vs xs -> Forall2 R2 ws ys -> length vs = length ws -> Forall P (combine vs ws) -> (forall v x w y, P (v, w) -> R1 v x -> R2 w y -> yo T (f x y) (R3 v w)) ->
  yo T (zipO f xs ys) (fun zs => Forall2 (fun vw z => R3 (fst vw) (snd vw) z) (combine vs ws) zs).
Proof.
  intros H. revert ws ys. induction H as [|v x vs xs Hv H IH]; intros ws ys H2 L F K; destruct H2 as [|w y ws ys Hw H2]; cbn [length] in L; try discriminate; cbn [zipO combine] in *; [apply yo_ok; constructor|].
  eapply yo_bind; [apply K; [exact (Forall_inv F)|exact Hv|exact Hw]|]. intros c Hc. eapply yo_bind; [apply IH; [exact H2|lia|exact (Forall_inv_tail F)|exact K]|]. intros cs Hcs. apply yo_ok. constructor; [exact Hc|exact Hcs].
Qed.
Lemma zsum_abs_le l B : Forall (fun v => Z.abs v <= B) l -> Z.abs (zsum l) <= Z.of_nat (length l) * B.
Proof. intros H. induction H as [|v l Hv H IH]; [cbn; lia|]. cbn [zsum fold_right length]. fold (zsum l). rewrite Nat2Z.inj_succ. lia. Qed.

Section Inst.
  Variable n : nat.
  Hypothesis Hn : (0 < n)%nat.
  Variable pr : provider.
  Hypothesis HV : valid n pr.

  (** *** Scale 1 *)
  Section One.
    Variable chk : check.
    Hypothesis Hchk : forall v, chk 1 1 v v = true.
    Lemma prodv_1 vs xs : vs <> [] -> Forall2 (fun v x => nshare n v 1 x) vs xs -> yo true (prodv (pr := pr) chk xs) (nshare n (fold_right Z.mul 1 vs) 1).
    Proof.
      apply (prodv_gen true chk Z Z.mul 1 (fun v x => nshare n v 1 x)); intros; try ring. now apply (mulv_1 n Hn pr HV chk).
    Qed.
    Definition cval1 (c : coeff) : Z := match c with KInt k => k | KFloat q => encodeQ 1 q | KEnc y => open_a (n_sh y) end.
    Definition wf_coeff (s : Z) (c : coeff) : Prop := match c with KEnc y => length (n_sh y) = n /\ Forall in64 (n_sh y) /\ n_sc y = s | _ => True end.
    Lemma mulc_1 c v x : wf_coeff 1 c -> nshare n v 1 x -> yo true (mulc (pr := pr) chk x c) (nshare n (cval1 c * v) 1).
    Proof.
      intros Hc Hx. destruct c as [k|q|y]; cbn [mulc cval1]; rewrite ?(proj2 Hx).
      - eapply yo_weaken; [apply (mulpv_1 n pr chk); exact Hx|]. intros z. apply nshare_eqm. unfold encodeZ. rewrite wmul_eqm. apply eqm_refl_eq. ring.
      - eapply yo_weaken; [apply (mulpv_1 n pr chk); exact Hx|]. intros z. apply nshare_eqm. apply eqm_refl_eq. ring.
      - destruct Hc as (L & F & S). eapply yo_weaken; [apply (mulv_1 n Hn pr HV chk); [exact Hx|split; [apply ashare_of; eassumption|exact S]]|]. intros z. apply nshare_eqm, eqm_refl_eq. ring.
    Qed.
    Fixpoint horner (cs : list Z) (v : Z) : Z := match cs with [] => 0 | c :: r => v * (c + horner r v) end.
    Lemma horner_sum v cs : forall a, zsum (map (fun ic => cval1 (snd ic) * v ^ Z.of_nat (fst ic)) (combine (seq (S a) (length cs)) cs)) = v ^ Z.of_nat a * horner (map cval1 cs) v.
    Proof.
      induction cs as [|c cs IH]; intros a; [cbn; ring|]. cbn [length seq combine map zsum fold_right fst snd horner]. fold (zsum (map (fun ic => cval1 (snd ic) * v ^ Z.of_nat (fst ic)) (combine (seq (S (S a)) (length cs)) cs))).
      rewrite IH, Nat2Z.inj_succ, Z.pow_succ_r by lia. ring.
    Qed.
    Lemma polynomial_1 v x cs : cs <> [] -> Forall (wf_coeff 1) cs -> nshare n v 1 x -> yo true (polynomial (pr := pr) chk x cs) (nshare n (horner (map cval1 cs) v) 1).
    Proof.
      intros Hne HC Hx. eapply yo_weaken.
      - apply (polynomial_gen true chk Z Z.mul (fun v x => nshare n v 1 x)) with (pw := fun i => v ^ Z.of_nat i) (C := wf_coeff 1) (Q := fun i c z => nshare n (cval1 c * v ^ Z.of_nat i) 1 z); try assumption.
        + intros. now apply (mulv_1 n Hn pr HV chk).
        + intros i j. rewrite Nat2Z.inj_add, Z.pow_add_r by lia. reflexivity.
        + intros y. change (v ^ Z.of_nat 1) with (v ^ 1). change (v ^ Z.of_nat 2) with (v ^ 2). rewrite Z.pow_1_r, Z.pow_2_r. apply (squarev_1 n Hn pr HV chk Hchk).
        + intros i c y _ Hc Hy. now apply mulc_1.
        + change (v ^ Z.of_nat 1) with (v ^ 1). now rewrite Z.pow_1_r.
      - intros z (zs & Hz & H). pose proof (horner_sum v cs 0) as HS. rewrite Z.pow_0_r, Z.mul_1_l in HS. rewrite <- HS. apply Forall2_map_l with (R := fun u z => nshare n u 1 z) in H.
        destruct Hz as [-> | ->].
        + apply sum_num_ok; [|exact H]. destruct cs; [congruence|discriminate].
        + apply Forall2_length in H as L. destruct (map _ _) as [|u [|? ?]]; try discriminate. apply Forall2_cons_l in H as (b & m' & Eb & Hb & _). inversion Eb; subst. cbn [zsum fold_right]. now rewrite Z.add_0_r.
    Qed.
  End One.

  (** *** Fixed point *)
  Section Fixed.
    Variables (s E : Z) (T : bool).
    Hypothesis HE : 1 <= E.
    Hypothesis Hs : 4 * E <= s.
    Hypothesis Hs2 : s <= 2 ^ 31.
    Hypothesis HT : T = true -> n = 1%nat.
    Definition zmul2 (a b : Z * Z) : Z * Z := (fst a + fst b, snd a * snd b).
    Definition appr2 (eX : Z * Z) (x : num) : Prop := approx n s E (fst eX) (snd eX) x.
    Lemma appr2_mul v w x y : appr2 v x -> appr2 w y -> yo T (mulv (pr := pr) (within E) x y) (appr2 (zmul2 v w)).
    Proof. intros H K. exact (mulv_approx n Hn pr HV s E T HE Hs Hs2 HT _ _ _ _ _ _ H K). Qed.
    Lemma big2 vs : big (Z * Z) zmul2 (0, 1) (map (fun v => (1, v)) vs) = (Z.of_nat (length vs), fold_right Z.mul 1 vs).
    Proof. induction vs as [|v vs IH]; [reflexivity|]. cbn [map]. rewrite big_cons, IH. unfold zmul2. cbn [fst snd length fold_right]. f_equal. rewrite Nat2Z.inj_succ. ring. Qed.
    Lemma approx_1 v x : nshare n v s x -> Z.abs v <= s - 2 * E -> approx n s E 1 v x.
    Proof.
      intros H B. split; [lia|]. exists v. split; [exact H|]. split; [exact B|]. change (1 - 1) with 0. rewrite Z.pow_0_r, Z.pow_1_r. split; [replace (v * 1 - v) with 0 by ring; lia|lia].
    Qed.
    Lemma prodv_approx vs xs : vs <> [] -> Forall2 (fun v x => nshare n v s x) vs xs -> Forall (fun v => Z.abs v <= s - 2 * E) vs ->
      yo T (prodv (pr := pr) (within E) xs) (approx n s E (Z.of_nat (length vs)) (fold_right Z.mul 1 vs)).
    Proof.
      intros Hne H F. eapply yo_weaken; [apply (prodv_gen T (within E) (Z * Z) zmul2 (0, 1) appr2) with (vs := map (fun v => (1, v)) vs)|].
      - intros [] []. unfold zmul2. cbn [fst snd]. f_equal; ring.
      - intros [] [] []. unfold zmul2. cbn [fst snd]. f_equal; ring.
      - intros []. unfold zmul2. cbn [fst snd]. f_equal; ring.
      - exact appr2_mul.
      - destruct vs; [congruence|discriminate].
      - apply Forall2_map_l. eapply Forall2_impl_in; [exact F| |exact H]. intros v x Bv Hx. now apply approx_1.
      - intros z. rewrite big2. intros Hz. exact Hz.
    Qed.

    Definition cval (c : coeff) : Z := match c with KInt k => k * s | KFloat q => encodeQ s q | KEnc y => open_a (n_sh y) end.
    Definition term_ok (v : Z) (i : nat) (c : coeff) (z : num) : Prop :=
      exists r, nshare n r s z /\ Z.abs (r * s ^ Z.of_nat i - cval c * v ^ Z.of_nat i) <= (s + Z.abs (cval c) * (Z.of_nat i - 1)) * E * s ^ (Z.of_nat i - 1).
    Lemma mulpv_acc v x k : nshare n v s x -> in64 (v * k) -> yo T (mulpv (pr := pr) (within E) x (wrap k)) (fun z => exists r, nshare n r s z /\ Z.abs (r * s - v * k) < E * s).
    Proof.
      intros [Hx Sx] I. unfold mulpv. cbv zeta. unfold mul_pub_rescale. rewrite Sx. replace (1 <? s) with true by (symmetry; apply Z.ltb_lt; lia).
      eapply yo_weaken; [apply (divv_acc n Hn pr HV E T HE HT (v * k)); [lia|exact I|]|].
      - cbn [n_sh]. pose proof (proj1 (muli_num_ok n (wrap k) v s x (conj Hx Sx))) as M. cbn [n_sh muli_num] in M. eapply ashare_eqm; [exact M|]. now rewrite wrap_eqm.
      - cbn [n_sc]. intros z (q & A & _ & B). exists q. split; assumption.
    Qed.
    Lemma mulpv_wrap x k : mulpv (pr := pr) (within E) x (wrap k) = mulpv (within E) x k.
    Proof. unfold mulpv. cbv zeta. replace (mul_int (wrap k) (n_sh x)) with (mul_int k (n_sh x)); [reflexivity|]. unfold mul_int. apply map_ext. intros a. unfold wmul. apply eqm_wrap_eq. now rewrite wrap_eqm. Qed.
    Lemma mulc_acc c v x : wf_coeff s c -> Z.abs (cval c) * s < H63 -> nshare n v s x -> Z.abs v <= s - 2 * E ->
      yo T (mulc (pr := pr) (within E) x c) (fun z => exists r, nshare n r s z /\ Z.abs (r * s - v * cval c) < E * s).
    Proof.
      intros Hc Bc Hx Bv. assert (I : in64 (v * cval c)).
      { assert (Z.abs (v * cval c) <= s * Z.abs (cval c)) by (rewrite Z.abs_mul; apply Z.mul_le_mono_nonneg_r; lia). unfold in64. lia. }
      destruct c as [k|q|y]; cbn [mulc]; rewrite ?(proj2 Hx).
      - unfold encodeZ, wmul. rewrite Z.mul_comm. apply mulpv_acc; assumption.
      - rewrite <- mulpv_wrap. apply mulpv_acc; assumption.
      - destruct Hc as (L & F & S). destruct Hx as [Hx Sx]. unfold mulv.
        eapply (yo_lift _ _ _ (fun t => let '(a, b, c) := t in _)); [intros st; exact (v_mul n pr HV st)|]. intros [[ta tb] tc] Ht. rewrite Sx, S. cbv zeta.
        unfold mul_rescale. replace (1 <? s) with true by (symmetry; apply Z.ltb_lt; lia). cbn [andb].
        eapply yo_weaken; [eapply (divv_acc n Hn pr HV E T HE HT (v * cval (KEnc y))); [lia|exact I|cbn [n_sh]; eapply (mul1_share n Hn); [eassumption|eassumption|apply ashare_of; assumption]]|].
        cbn [n_sc]. intros z (r & A & _ & B). exists r. split; assumption.
    Qed.
    Lemma mulc_term c v i x : (1 <= i)%nat -> wf_coeff s c -> Z.abs (cval c) * s < H63 -> approx n s E (Z.of_nat i) (v ^ Z.of_nat i) x -> yo T (mulc (pr := pr) (within E) x c) (term_ok v i c).
    Proof.
      intros Hi Hc Bc (_ & a & Ha & Ba & Ea & _). eapply yo_weaken; [apply mulc_acc; eassumption|]. intros z (r & Hr & Br). exists r. split; [exact Hr|].
      set (X := v ^ Z.of_nat i) in *. set (P := s ^ (Z.of_nat i - 1)) in *. assert (HP : 0 < P) by (apply Z.pow_pos_nonneg; clear - HE Hs Hi; lia).
      assert (EP : s ^ Z.of_nat i = s * P) by (unfold P; apply (pow_pred s); clear - Hi; lia). rewrite EP.
      replace (r * (s * P) - cval c * X) with ((r * s - a * cval c) * P + cval c * (a * P - X)) by ring.
      assert (A1 : Z.abs ((r * s - a * cval c) * P) <= E * s * P) by (rewrite Z.abs_mul, (Z.abs_eq P) by (clear - HP; lia); apply Z.mul_le_mono_nonneg_r; [clear - HP; lia|clear - Br; lia]).
      assert (A2 : Z.abs (cval c * (a * P - X)) <= Z.abs (cval c) * ((Z.of_nat i - 1) * E * P)) by (rewrite Z.abs_mul; apply Z.mul_le_mono_nonneg_l; [apply Z.abs_nonneg|exact Ea]).
      replace ((s + Z.abs (cval c) * (Z.of_nat i - 1)) * E * P) with (E * s * P + Z.abs (cval c) * ((Z.of_nat i - 1) * E * P)) by ring. clear - A1 A2. lia.
    Qed.
    Lemma polynomial_approx v x cs : cs <> [] -> Forall (fun c => wf_coeff s c /\ Z.abs (cval c) * s < H63) cs -> nshare n v s x -> Z.abs v <= s - 2 * E ->
      yo T (polynomial (pr := pr) (within E) x cs) (fun z => exists rs, nshare n (zsum rs) s z /\
        Forall2 (fun ic r => Z.abs (r * s ^ Z.of_nat (fst ic) - cval (snd ic) * v ^ Z.of_nat (fst ic)) <= (s + Z.abs (cval (snd ic)) * (Z.of_nat (fst ic) - 1)) * E * s ^ (Z.of_nat (fst ic) - 1)) (combine (seq 1 (length cs)) cs) rs).
    Proof.
      intros Hne HC Hx Bv. eapply yo_weaken.
      - apply (polynomial_gen T (within E) (Z * Z) zmul2 appr2) with (pw := fun i => (Z.of_nat i, v ^ Z.of_nat i)) (C := fun c => wf_coeff s c /\ Z.abs (cval c) * s < H63) (Q := term_ok v); try assumption.
        + exact appr2_mul.
        + intros i j. unfold zmul2. cbn [fst snd]. rewrite Nat2Z.inj_add, Z.pow_add_r by lia. reflexivity.
        + intros y Hy. unfold appr2 in *. cbn [fst snd] in *. change (Z.of_nat 2) with (1 + 1). change (Z.of_nat 1) with 1 in Hy. rewrite Z.pow_1_r in Hy. rewrite (Z.pow_add_r v 1 1), Z.pow_1_r by lia. now apply (squarev_approx n Hn pr HV s E T HE Hs Hs2 HT).
        + intros i c y Hi [H1 H2] Hy. now apply mulc_term.
        + unfold appr2. cbn [fst snd]. change (Z.of_nat 1) with 1. rewrite Z.pow_1_r. now apply approx_1.
      - intros z (zs & Hz & H).
        assert (G : exists rs, Forall2 (fun r z => nshare n r s z) rs zs /\ Forall2 (fun ic r => Z.abs (r * s ^ Z.of_nat (fst ic) - cval (snd ic) * v ^ Z.of_nat (fst ic)) <= (s + Z.abs (cval (snd ic)) * (Z.of_nat (fst ic) - 1)) * E * s ^ (Z.of_nat (fst ic) - 1)) (combine (seq 1 (length cs)) cs) rs).
        { clear Hz. induction H as [|ic y l ys (r & Hr & Br) H IH]; [exists []; split; constructor|]. destruct IH as (rs & R1 & R2). exists (r :: rs). split; constructor; assumption. }
        destruct G as (rs & G1 & G2). exists rs. split; [|exact G2]. pose proof (Forall2_length _ _ _ G2) as L. rewrite combine_length, seq_length, Nat.min_id in L.
        destruct Hz as [-> | ->].
        + apply sum_num_ok; [|exact G1]. destruct cs; [congruence|]. intros ->. discriminate.
        + destruct rs as [|r rs]; [apply Forall2_length in G1; discriminate|]. apply Forall2_cons_l in G1 as (b & m' & Eb & Hb & G1). inversion Eb; subst. destruct rs; [|apply Forall2_length in G1; discriminate]. cbn [zsum fold_right]. now rewrite Z.add_0_r.
    Qed.
  End Fixed.

  (** *** Means and variances *)
  Section Mean.
    Variables (s E : Z) (T : bool).
    Hypothesis HE : 1 <= E.
    Hypothesis Hs : 1 <= s.
    Hypothesis HT : T = true -> n = 1%nat.
    Notation sh := (fun v x => nshare n v s x).
    Variables (N : nat).
    Hypothesis HN : (0 < N)%nat.

    Lemma nelement_div {A} (rows : list (list A)) : rows <> [] -> Forall (fun r => length r = N) rows -> (nelement rows / length rows)%nat = N.
    Proof. intros H F. unfold nelement. rewrite (concat_length_const _ N F). rewrite Nat.mul_comm. apply Nat.div_mul. destruct rows; [congruence|discriminate]. Qed.

    Lemma meanv_acc vrows rows : vrows <> [] -> Forall (fun r => length r = N) vrows -> Forall (fun r => in64 (zsum r)) vrows -> Forall2 (Forall2 sh) vrows rows ->
      yo T (meanv (pr := pr) (within E) rows) (Forall2 (fun vs z => exists m, nshare n m s z /\ in64 m /\ Z.abs (m * Z.of_nat N - zsum vs) < E * Z.of_nat N) vrows).
    Proof.
      intros Hne FN FI H. unfold meanv. cbv zeta. rewrite map_length. pose proof (Forall2_length _ _ _ H) as L. assert (Hne' : rows <> []) by (intros ->; destruct vrows; [congruence|discriminate]).
      destruct (Nat.eqb_spec (length rows) 0) as [E0|_]; [destruct rows; [congruence|discriminate]|].
      rewrite nelement_div by (try assumption; eapply Forall2_lengths; eassumption).
      eapply (yo_map T _ (fun vs x => in64 (zsum vs) /\ nshare n (zsum vs) s x)).
      - clear L Hne Hne'. induction H as [|vs xs l m Hv H IH]; cbn [map]; constructor; [|apply IH; eapply Forall_inv_tail; eassumption]. split; [now apply Forall_inv in FI|]. apply sum_num_ok; [|exact Hv]. apply Forall_inv in FN. intros ->. cbn in FN. lia.
      - intros vs x [I [Hx Sx]]. eapply yo_weaken; [apply (divv_acc n Hn pr HV E T HE HT (zsum vs)); [lia|exact I|exact Hx]|]. intros z (q & A & I' & B). rewrite Sx in A. exists q. split; [exact A|split; assumption].
    Qed.

    Definition sqdev (vs : list Z) (m : Z) : Z := zsum (map (fun v => (v - m) * (v - m)) vs).
    Lemma squarev_acc v x : in64 (v * v) -> nshare n v s x -> yo T (squarev (pr := pr) (within E) x) (fun z => exists q, nshare n q s z /\ Z.abs (q * s - v * v) < E * s).
    Proof.
      intros I [Hx Sx]. unfold squarev. eapply (yo_lift _ _ _ (fun t => let '(r, r2) := t in _)); [intros st; exact (v_square n pr HV st)|]. intros [r r2] Hr. rewrite Sx.
      eapply yo_bind; [eapply (divv_acc n Hn pr HV E T HE HT (v * v)); [lia|exact I|cbn [n_sh]; apply square_share; assumption]|].
      intros z (q & [Hq _] & _ & Bq). apply yo_ok. exists q. split; [split; [exact Hq|reflexivity]|exact Bq].
    Qed.

    (** what [var] returns for one group, the divisor being [dv] *)
    Definition var_ok (dv : Z) (vs : list Z) (z : num) : Prop :=
      exists m q, Z.abs (m * Z.of_nat N - zsum vs) < E * Z.of_nat N /\ nshare n q s z /\ in64 q /\
        if (dv =? 0) || (dv =? 1) then Z.abs (q * s - sqdev vs m) <= Z.of_nat N * E * s
        else Z.abs (q * s * dv - sqdev vs m) <= (Z.of_nat N + dv) * E * s.

    Variable B : Z.
    Hypothesis HB : 0 <= B.
    Hypothesis Fit : Z.of_nat N * ((2 * B + 2 * E) * (2 * B + 2 * E)) < H63.

    Lemma mean_small vs m : length vs = N -> Forall (fun v => Z.abs v <= B) vs -> Z.abs (m * Z.of_nat N - zsum vs) < E * Z.of_nat N -> Z.abs m <= B + E.
    Proof.
      intros L F H. clear HT. pose proof (zsum_abs_le vs B F) as Z1. rewrite L in Z1. assert (Z.abs m * Z.of_nat N < (B + E) * Z.of_nat N).
      { replace (Z.abs m * Z.of_nat N) with (Z.abs (m * Z.of_nat N)) by (rewrite Z.abs_mul, (Z.abs_eq (Z.of_nat N)); lia). lia. }
      apply Z.lt_le_incl. apply (Z.mul_lt_mono_pos_r (Z.of_nat N)); lia.
    Qed.
    Lemma sq_fit u : Z.abs u <= 2 * B + E -> u * u <= (2 * B + E) * (2 * B + E).
    Proof. intros H. clear - H HE HB. rewrite <- Z.abs_square. apply Z.mul_le_mono_nonneg; lia. Qed.
    Lemma fit1 : (2 * B + 2 * E) * (2 * B + 2 * E) < H63.
    Proof. nia. Qed.

    Lemma sq_sum_ok vs qs m : length vs = N -> Forall (fun v => Z.abs v <= B) vs -> Z.abs m <= B + E -> Forall2 (fun v q => Z.abs (q * s - (v - m) * (v - m)) < E * s) vs qs ->
      in64 (zsum qs) /\ Z.abs (zsum qs * s - sqdev vs m) <= Z.of_nat N * E * s.
    Proof.
      intros L F Hm H. clear HT. rewrite <- L in *. clear L.
      assert (G : Z.abs (zsum qs) <= Z.of_nat (length vs) * ((2 * B + 2 * E) * (2 * B + 2 * E)) /\ Z.abs (zsum qs * s - sqdev vs m) <= Z.of_nat (length vs) * E * s).
      { clear HN Fit. induction H as [|v q vs qs Hq H IH]; [cbn; lia|]. destruct IH as [I1 I2]; [now apply Forall_inv_tail in F|]. apply Forall_inv in F.
        unfold sqdev in *. cbn [zsum fold_right map length]. fold (zsum qs). fold (zsum (map (fun v => (v - m) * (v - m)) vs)). rewrite Nat2Z.inj_succ.
        pose proof (sq_fit (v - m) ltac:(lia)) as SF. assert (Bq : Z.abs q <= (2 * B + 2 * E) * (2 * B + 2 * E)).
        { assert (S0 : 0 <= (v - m) * (v - m)) by apply Z.square_nonneg. set (w := (v - m) * (v - m)) in *. assert (HX : Z.abs q * s < (w + E) * s).
          { replace (Z.abs q * s) with (Z.abs (q * s)) by (rewrite Z.abs_mul, (Z.abs_eq s); lia). assert (w <= w * s) by (clear - S0 Hs; nia). lia. }
          apply Z.mul_lt_mono_pos_r in HX; [|lia]. assert ((2 * B + E) * (2 * B + E) + E <= (2 * B + 2 * E) * (2 * B + 2 * E)) by (clear - HE HB; nia). lia. }
        split; [lia|]. replace ((q + zsum qs) * s) with (q * s + zsum qs * s) by ring. set (w := (v - m) * (v - m)) in *. replace (Z.succ (Z.of_nat (length vs)) * E * s) with (E * s + Z.of_nat (length vs) * E * s) by ring. lia. }
      split; [unfold in64; lia|apply G].
    Qed.

    Lemma varv_acc u vrows rows : vrows <> [] -> Forall (fun r => length r = N) vrows -> Forall (Forall (fun v => Z.abs v <= B)) vrows -> Forall2 (Forall2 sh) vrows rows ->
      yo T (varv (pr := pr) (within E) u rows) (Forall2 (var_ok (if u then Z.of_nat N else Z.of_nat N - 1)) vrows).
    Proof.
      intros Hne FN FB H. pose proof fit1 as F1.
      assert (FI : Forall (fun r => in64 (zsum r)) vrows).
      { rewrite Forall_forall in *. intros r Hr. pose proof (zsum_abs_le r B (FB r Hr)) as Z1. rewrite (FN r Hr) in Z1. assert (Z.of_nat N * B <= Z.of_nat N * ((2 * B + 2 * E) * (2 * B + 2 * E))) by (apply Z.mul_le_mono_nonneg_l; nia). unfold in64. lia. }
      unfold varv. eapply yo_bind; [apply meanv_acc; eassumption|]. intros ms Hms.
      (* the means, as integers *)
      assert (HM : exists zms, Forall2 sh zms ms /\ Forall2 (fun vs m => Z.abs (m * Z.of_nat N - zsum vs) < E * Z.of_nat N) vrows zms).
      { clear - Hms. induction Hms as [|vs z l zs (m & A & _ & K) Hms IH]; [exists []; split; constructor|]. destruct IH as (zms & I1 & I2). exists (m :: zms). split; constructor; assumption. }
      destruct HM as (zms & HM1 & HM2). clear Hms. pose proof (Forall2_length _ _ _ HM2) as LM.
      assert (FM : Forall (fun vm => length (fst vm) = N /\ Forall (fun v => Z.abs v <= B) (fst vm) /\ Z.abs (snd vm * Z.of_nat N - zsum (fst vm)) < E * Z.of_nat N) (combine vrows zms)).
      { clear - FN FB HM2. induction HM2; cbn [combine]; constructor; [cbn [fst snd]; split; [now apply Forall_inv in FN|split; [now apply Forall_inv in FB|assumption]]|]. apply IHHM2; eapply Forall_inv_tail; eassumption. }
      eapply yo_bind; [eapply (yo_zip_in T _ (fun vm => length (fst vm) = N /\ Forall (fun v => Z.abs v <= B) (fst vm) /\ Z.abs (snd vm * Z.of_nat N - zsum (fst vm)) < E * Z.of_nat N) (Forall2 sh) sh
          (fun vs m zs => Forall2 (fun v z => exists q, nshare n q s z /\ Z.abs (q * s - (v - m) * (v - m)) < E * s) vs zs) vrows rows zms ms); [exact H|exact HM1|exact LM|exact FM|]|].
      - intros vs xs m y (Lv & FBv & Em) Hxs Hy. cbn [fst snd] in *. pose proof (mean_small vs m Lv FBv Em) as Bm.
        eapply (yo_map T _ (fun v x => Z.abs v <= B /\ nshare n v s x)); [eapply Forall2_impl_in; [exact FBv| |exact Hxs]; auto|].
        intros v x [Bv Hx]. apply squarev_acc.
        + pose proof (sq_fit (v - m) ltac:(lia)). pose proof (Z.square_nonneg (v - m)). assert ((2 * B + E) * (2 * B + E) <= (2 * B + 2 * E) * (2 * B + 2 * E)) by nia. unfold in64. lia.
        + apply sub_enc_ok; assumption.
      - intros sq Hsq. cbv zeta. rewrite map_length.
        assert (Lsq : length sq = length rows) by (apply Forall2_length in Hsq; rewrite combine_length in Hsq; apply Forall2_length in H; lia).
        assert (Hne' : rows <> []) by (intros ->; destruct vrows; [congruence|apply Forall2_length in H; discriminate]).
        rewrite Lsq, (nelement_div rows Hne' (Forall2_lengths _ _ _ _ H FN)).
        set (dv := if u then Z.of_nat N else Z.of_nat N - 1).
        assert (HR : Forall2 (fun vs z => exists m t, Z.abs (m * Z.of_nat N - zsum vs) < E * Z.of_nat N /\ nshare n t s z /\ in64 t /\ Z.abs (t * s - sqdev vs m) <= Z.of_nat N * E * s) vrows (map sum_num sq)).
        { clear Lsq. revert sq Hsq. clear - FM LM HN HE HB Hs Fit Hn. revert zms LM FM. induction vrows as [|vs l IH]; intros [|m zms] LM FM sq Hsq; try discriminate; cbn [combine] in *.
          - apply Forall2_nil_l in Hsq. subst. constructor.
          - apply Forall2_cons_l in Hsq as (zs & sq' & -> & Hzs & Hsq). cbn [map]. constructor; [|apply (IH zms); [cbn in LM; lia|now apply Forall_inv_tail in FM|exact Hsq]].
            apply Forall_inv in FM. cbn [fst snd] in *. destruct FM as (Lv & FBv & Em). pose proof (mean_small vs m Lv FBv Em) as Bm.
            assert (G : exists qs, Forall2 sh qs zs /\ Forall2 (fun v q => Z.abs (q * s - (v - m) * (v - m)) < E * s) vs qs).
            { clear - Hzs. induction Hzs as [|v z l zs (q & A & K) Hzs IH]; [exists []; split; constructor|]. destruct IH as (qs & I1 & I2). exists (q :: qs). split; constructor; assumption. }
            destruct G as (qs & G1 & G2). destruct (sq_sum_ok vs qs m Lv FBv Bm G2) as [S1 S2]. exists m, (zsum qs). split; [exact Em|]. split; [|split; assumption].
            apply sum_num_ok; [|exact G1]. apply Forall2_length in G2. intros ->. cbn in G2. lia. }
        unfold var_ok. destruct ((dv =? 0) || (dv =? 1)) eqn:Edv; [apply yo_ok; exact HR|].
        assert (Hdv : 2 <= dv) by (unfold dv in *; apply orb_false_iff in Edv as [E0 E1]; apply Z.eqb_neq in E0, E1; destruct u; lia).
        eapply yo_map; [exact HR|]. intros vs x (m & t & A & [Hx Sx] & I & K). eapply yo_weaken; [apply (divv_acc n Hn pr HV E T HE HT t); [lia|exact I|exact Hx]|].
        intros z (q & Q1 & Q2 & Q3). rewrite Sx in Q1. exists m, q. split; [exact A|]. split; [exact Q1|]. split; [exact Q2|].
        replace (q * s * dv - sqdev vs m) with ((q * dv - t) * s + (t * s - sqdev vs m)) by ring. assert (Z.abs ((q * dv - t) * s) <= E * dv * s) by (rewrite Z.abs_mul, (Z.abs_eq s) by lia; apply Z.mul_le_mono_nonneg_r; lia).
        replace ((Z.of_nat N + dv) * E * s) with (E * dv * s + Z.of_nat N * E * s) by ring. lia.
    Qed.
  End Mean.
End Inst.

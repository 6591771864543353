(** Proofs of C110: how likely training on encrypted data goes wrong with three or more parties. *)
Require Import ZArith QArith Qabs List Lia Bool.
From Verif Require Import Ring64 Encoder Arith Arith_proofs Beaver Trunc Trunc_proofs Provider Binary Binary_proofs Convert_proofs Compare Compare_proofs Compare_claims Maximum Maximum_proofs Maximum_claims Regular Regular_proofs Regular_num_proofs Regular_claims Optim Program Program_claims Training Training_claims Chance Chance_claims Trainchance.
Import ListNotations.
Open Scope Z_scope.

(** ** The probability the analysis finds: for every truncation the magnitude of what is truncated, plus [extra] *)
Definition thazard (extra s : Z) (x : tinstr) (bs : list bound) : Z :=
  match x with
  | Plain x => hazard extra s x bs
  | Mask _ | Gate _ _ => 0
  | Clip i _ => let b := nth i bs (0, 0) in Z.max 0 (top b * top b) + extra
  end.
Fixpoint thazards (extra s E : Z) (hints : list (option Z)) (prog : list tinstr) (st : list bound * list bool) : Z :=
  match prog with
  | [] => 0
  | x :: r => thazard extra s x (fst st) + match trule s E (hd None hints) x st with Some st' => thazards extra s E (tl hints) r st' | None => 0 end
  end.
Lemma thazard_nonneg extra s x bs : 0 <= extra -> 0 <= thazard extra s x bs.
Proof. intros H. destruct x; cbn [thazard]; try lia. now apply hazard_nonneg. Qed.
Lemma thazards_nonneg extra s E prog : 0 <= extra -> forall hints st, 0 <= thazards extra s E hints prog st.
Proof.
  intros H. induction prog as [|x prog IH]; intros hints st; cbn [thazards]; [lia|]. pose proof (thazard_nonneg extra s x (fst st) H). destruct (trule _ _ _ _ _) as [st'|]; [|lia]. specialize (IH (tl hints) st'). lia.
Qed.
Definition tfor_many (n : nat) (E : Z) (x : tinstr) : Prop := match x with Plain x => for_many n E x | _ => True end.

Section Many.
  Variable n : nat.
  Hypothesis Hn : (2 < n)%nat.
  Hypothesis Hn32 : Z.of_nat n <= 2 ^ 32.
  Variable pr : provider.
  Hypothesis HV : valid n pr.
  Notation P := (taped_masks n pr).
  Variables (s E : Z) (p : nat).
  Hypothesis HE : Z.of_nat n <= E.
  Hypothesis Hp : (1 <= p <= 62)%nat.
  Hypothesis Hs : s = 2 ^ Z.of_nat p.
  Variable local_bits : run P (list Z).
  Hypothesis Hlocal : yields local_bits (fun u => length u = n /\ Forall (fun z => 0 <= z < s) u /\ True).
  Variables log_steps cascade_steps isqrt : nat -> nat.
  Hypothesis Hsqrt : forall m, (2 <= m)%nat -> (1 <= isqrt m < m)%nat.
  Variable me : method.
  Local Notation st := (tstep (pr := P) s p local_bits log_steps cascade_steps isqrt me (within E)).
  Local Notation tstate := (tstate n s).
  Local Notation binding := (risky_bind (pst pr) (pass (next_and pr)) (pass (next_mul pr)) (pass (next_square pr)) (next_wrap_taped n pr) (pass (next_b2a pr)) (pass (next_zero pr)) (pass (next_bzero pr))).
  Lemma t_pos : (0 < n)%nat. Proof using Hn. clear - Hn. lia. Qed.

  Lemma still_mulv x g : n_sc g = 1 -> risky 0 0 (mulv (pr := P) (within E) x g).
  Proof using.
    intros Hg. unfold mulv. apply (binding 0%nat 0 0%nat 0 _ _ (fun _ => True)); [apply Z.le_refl|apply yo_any|apply risky_lift, moves_pass|]. intros [[a b] c] _. rewrite Hg. unfold mul_rescale. replace (1 <? 1) with false by reflexivity. rewrite Bool.andb_false_r. destruct (1 <? n_sc x); apply risky_ok.
  Qed.
  Lemma then_ok {A B} k c (m : runo P A) (f : A -> B) : risky k c m -> risky k c (a <~ m ;; okr (pr := P) (f a)).
  Proof using. intros H. rewrite <- (Nat.add_0_r k), <- (Z.add_0_r c). apply (binding k c 0%nat 0 _ _ (fun _ => True)); [apply Z.le_refl|apply yo_any|exact H|]. intros a _. apply risky_ok. Qed.
  Lemma still_gt x y : moves 0 (n_gt (pr := P) s x y).
  Proof using. unfold n_gt. apply still_ltz; apply moves_pass. Qed.
  Lemma lt_scale x y : yields (n_lt (pr := P) s x y) (fun g => n_sc g = 1).
  Proof using. unfold n_lt. apply ltz_scale. Qed.
  Lemma risky_squarev x v B : nshare n v s x -> Z.abs v <= B -> B * B < H63 -> risky n (Z.max 0 (B * B) + 2 * Z.of_nat n) (squarev (pr := P) (within E) x).
  Proof using Hn Hn32 HV HE Hp Hs.
    intros Hv Tv F. unfold squarev. rewrite (proj2 Hv). match goal with |- risky _ ?cost _ => apply (binding 0 0 n cost _ _ (fun t => let '(r, r2) := t in length r = n /\ length r2 = n /\ Forall in64 r /\ Forall in64 r2 /\ open_a r2 = wmul (open_a r) (open_a r))) end;
      [lia|apply yo_lift1; intros s0; exact (v_square n P (taped_masks_valid n Hn pr HV) s0)|apply risky_lift, moves_pass|].
    intros [r r2] Ht. apply then_ok. apply (risky_scale n Hn Hn32 pr HV s E p HE Hp Hs _ (v * v)); [now apply abs_mul_le|exact F|]. cbn [n_sh]. apply (square_share n t_pos); [exact Ht|exact (proj1 Hv)].
  Qed.

  Lemma trule_risky hint x a q r a' : tfor_many n E x -> tstate a q r -> trule s E hint x a = Some a' -> risky (tmask_draws n x) (thazard (2 * Z.of_nat n) s x (fst a)) (st x r).
  Proof using Hn Hn32 HV HE Hp Hs Hlocal Hsqrt.
    destruct a as [bs ks], q as [qs ms], r as [rs gs]. intros Hx [H HM] R. cbn [fst snd] in H, HM. unfold trule in R. cbn [tstep fst]. destruct x as [x|i|i k|i t]; cbn [tmask_draws thazard].
    - destruct (rule s E x bs) as [b|] eqn:Eb; [|discriminate]. apply then_ok. exact (rule_risky_many n Hn Hn32 pr HV s E p HE Hp Hs local_bits log_steps cascade_steps isqrt me x bs qs rs b Hx H Eb).
    - apply then_ok. apply risky_lift, still_gt.
    - destruct (both _ _) as [[b known]|] eqn:Eb; [|discriminate]. apply both_spec in Eb as [_ Hk]. cbn [snd] in Hk. destruct HM as (_ & _ & HM). destruct (HM k known Hk) as (g & Hg & _). apply then_ok. apply still_mulv, (proj2 Hg).
    - destruct (nth_error bs i) as [b|] eqn:Hi; [|discriminate]. cbv zeta in R. destruct ((top b * top b <? H63) && _) eqn:K; [|discriminate]. apply andb_true_iff in K as [K1 _]. apply Z.ltb_lt in K1. rewrite (mag_get _ _ _ Hi).
      destruct (mgood_get n Hn s p Hp bs qs rs i b H Hi) as (v & Hv & Tv & _). apply then_ok. unfold thresholded. rewrite <- (Nat.add_0_r n) at 1. rewrite <- (Z.add_0_r (Z.max 0 (top b * top b) + 2 * Z.of_nat n)).
      apply (binding n _ 0%nat 0 _ _ (fun _ => True)); [lia|apply yo_any|exact (risky_squarev _ v (top b) Hv Tv K1)|]. intros z _.
      apply (binding 0%nat 0 0%nat 0 _ _ (fun g => n_sc g = 1)); [lia|apply yo_lift1, lt_scale|apply risky_lift; unfold n_lt; apply still_ltz; apply moves_pass|]. intros g Hg. now apply still_mulv.
  Qed.
  Lemma texec_risky prog : Forall (tfor_many n E) prog -> forall hints a q r a', tstate a q r -> tanalyse s E hints prog a = Some a' -> tsound s hints prog q ->
    risky (tdraws n prog) (thazards (2 * Z.of_nat n) s E hints prog a) (texec (pr := P) s p local_bits log_steps cascade_steps isqrt me (within E) prog r).
  Proof using Hn Hn32 HV HE Hp Hs Hlocal Hsqrt.
    induction 1 as [|x prog Hx _ IH]; intros hints a q r a' H A Hh; cbn [tanalyse texec tsound thazards tdraws fold_right] in *; [apply risky_ok|].
    destruct (trule s E (hd None hints) x a) as [a1|] eqn:R; [|discriminate]. destruct Hh as [Hh1 Hh2]. fold (tdraws n prog).
    apply (binding _ _ _ _ _ _ (tstate a1 (tideal x q))); [apply thazards_nonneg; lia| |now apply (trule_risky (hd None hints) x a q r a1)|].
    - exact (trule_ok n t_pos P (taped_masks_valid n Hn pr HV) s E p false ltac:(lia) ltac:(discriminate) Hp Hs local_bits Hlocal log_steps cascade_steps isqrt Hsqrt me (hd None hints) x a q r a1 H R Hh1).
    - intros r1 H1. exact (IH (tl hints) a1 (tideal x q) r1 a' H1 A Hh2).
  Qed.
End Many.

(** ** The instructions of a training loop: the only division is that of the loss by the number of its terms *)
Definition no_div (N : Z) (x : tinstr) : Prop := match x with Plain (IMax _) => False | Plain (IDiv _ d) => d = N | _ => True end.
Lemma block_no_div N r c f : (forall a i, no_div N (f a i)) -> Forall (no_div N) (block r c f).
Proof. intros H. unfold block. apply Forall_flat_map, Forall_forall. intros a _. apply Forall_map, Forall_forall. intros i _. apply H. Qed.
Ltac no_divs := repeat match goal with |- Forall _ (block _ _ _) => apply block_no_div; intros; exact I | |- Forall _ (_ ++ _) => apply Forall_app; split end.
Lemma loss_no_div B m Y one X next masks : Forall (no_div (Z.of_nat (B * m))) (p_code (loss_pass B m Y one X next masks)).
Proof. unfold loss_pass. cbn [p_code]. repeat (apply Forall_app; split); try (apply block_no_div; intros; exact I). repeat constructor. Qed.
Lemma layers_no_div B m Y one ls : forall X next masks, Forall (no_div (Z.of_nat (B * m))) (p_code (layers_pass B m Y one ls X next masks)).
Proof.
  induction ls as [|[o k W b|k] ls IH]; intros X next masks; cbn [layers_pass]; [apply loss_no_div| |]; cbv zeta; cbn [p_code]; no_divs; apply IH.
Qed.
Lemma update_param_no_div N threshold rate r c W g next : Forall (no_div N) (fst (update_param threshold rate r c W g next)).
Proof. unfold update_param. destruct threshold; cbn [fst]; repeat (apply Forall_app; split); apply block_no_div; intros; exact I. Qed.
Lemma update_no_div N threshold rate ls : forall gs next, Forall (no_div N) (fst (update_layers threshold rate ls gs next)).
Proof.
  induction ls as [|[o k W b|k] ls IH]; intros [|[dW db] gs] next; cbn [update_layers]; try constructor.
  - destruct (update_param threshold rate o k W dW next) as [c1 W'] eqn:E1. destruct (update_param _ _ 1 o _ _ _) as [c2 b'] eqn:E2. destruct (update_layers _ _ ls gs _) as [c3 r'] eqn:E3. cbn [fst]. repeat (apply Forall_app; split).
    + change c1 with (fst (c1, W')). rewrite <- E1. apply update_param_no_div. + change c2 with (fst (c2, b')). rewrite <- E2. apply update_param_no_div. + change c3 with (fst (c3, r')). rewrite <- E3. apply IH.
  - specialize (IH gs next). destruct (update_layers _ _ ls gs next) as [c r']. exact IH.
Qed.
Lemma train_no_div B m one threshold rate batches : forall ls next masks, Forall (no_div (Z.of_nat (B * m))) (fst (fst (train B m one threshold rate batches ls next masks))).
Proof.
  induction batches as [|[X Y] batches IH]; intros ls next masks; cbn [train]; [constructor|]. pose proof (layers_no_div B m Y one ls X next masks) as L. pose proof (update_no_div (Z.of_nat (B * m)) threshold rate ls (p_grads (layers_pass B m Y one ls X next masks)) (p_next (layers_pass B m Y one ls X next masks))) as U.
  destruct (update_layers _ _ _ _ _) as [c ls']. specialize (IH ls' (p_next (layers_pass B m Y one ls X next masks) + length c)%nat (p_masks (layers_pass B m Y one ls X next masks))). destruct (train _ _ _ _ _ batches _ _ _) as [[c' out] lost]. cbn [fst] in *. repeat (apply Forall_app; split); assumption.
Qed.
Lemma no_div_many n E N prog : (N | 2 ^ 62) \/ 3 * Z.of_nat n + 2 <= E -> Forall (no_div N) prog -> Forall (tfor_many n E) prog.
Proof. intros H F. eapply Forall_impl; [|exact F]. intros [x| | |] K; try exact I. destruct x; cbn in *; try exact I; [now subst|contradiction]. Qed.

Section Claims.
  Variables (n : nat) (pr : provider) (s : Z) (p : nat) (log_steps cascade_steps isqrt : nat -> nat) (me : method).
  Hypothesis Hn : (2 < n)%nat.
  Hypothesis Hn32 : Z.of_nat n <= 2 ^ 32.
  Hypothesis HV : valid n pr.
  Hypothesis Hp : (1 <= p <= 62)%nat.
  Hypothesis Hs : s = 2 ^ Z.of_nat p.
  Hypothesis Hsqrt : forall m, (2 <= m)%nat -> (1 <= isqrt m < m)%nat.
  (** C110: three or more parties: of all draws of the masks of truncation, those for which training does not end with the parameters and losses of gradient descent, up to the errors the analysis gives, are at most the fraction thazards / (2^64 - 1). *)
  Lemma k_C110_training : forall local_bits E B m k one threshold rate batches qb ls qls hints bs qs xs code ls' lost a' s0, (forall st, let u := fst (local_bits st) in length u = n /\ Forall (fun z => 0 <= z < s) u) ->
    Z.of_nat n <= E -> (Z.of_nat (B * m) | 2 ^ 62) \/ 3 * Z.of_nat n + 2 <= E -> all_represent n s bs qs xs -> is_at qs one 1 -> layers_at qs ls qls -> shaped k m qls -> Forall2 (batch_at qs B k m) batches qb ->
    train B m one threshold rate batches ls (length xs) 0 = (code, ls', lost) -> tanalyse s E hints code (bs, []) = Some a' -> tsound s hints code (qs, []) ->
    few (tdraws n code) (thazards (2 * Z.of_nat n) s E hints code (bs, []))
      (fun t => ~ exists zs, fst (texec (pr := taped_masks n pr) s p local_bits log_steps cascade_steps isqrt me no_check code (xs, []) (s0, t)) = Some zs /\
        trained n s (fst a') (fst zs) ls' (sgd B m threshold rate qb qls) /\ Forall2 (num_at n s (fst a') (fst zs)) lost (losses B m threshold rate qb qls)).
  Proof using Hn Hn32 HV Hp Hs Hsqrt.
    intros local_bits E B m k one threshold rate batches qb ls qls hints bs qs xs code ls' lost a' s0 Hlocal HE HN H H1 L Sh F Et A Hh. assert (Hn0 : (0 < n)%nat) by lia.
    assert (Hl : yields local_bits (fun u => length u = n /\ Forall (fun z => 0 <= z < s) u /\ True)) by (intros st; destruct (Hlocal st) as [L0 F0]; auto).
    assert (FM : Forall (tfor_many n E) code). { apply (no_div_many n E (Z.of_nat (B * m)) code HN). pose proof (train_no_div B m one threshold rate batches ls (length xs) 0) as D. rewrite Et in D. exact D. }
    destruct (texec_risky n Hn Hn32 pr HV s E p HE Hp Hs local_bits Hl log_steps cascade_steps isqrt Hsqrt me code FM hints (bs, []) (qs, []) (xs, []) a' (start_state n s p Hn0 Hp Hs bs qs xs H) A Hh s0) as [Fw _].
    eapply few_sub; [exact Fw|]. intros t _ Hb. cbv beta. destruct (fst (texec (pr := taped_masks n pr) s p local_bits log_steps cascade_steps isqrt me (within E) code (xs, []) (s0, t))) as [zs|] eqn:Ez; [exfalso|exact Ez]. apply Hb. exists zs.
    exact (k_C108_training n (taped_masks n pr) s p local_bits log_steps cascade_steps isqrt me Hn0 (taped_masks_valid n Hn pr HV) Hp Hs Hlocal Hsqrt E B m k one threshold rate batches qb ls qls hints bs qs xs code ls' lost a' (s0, t) zs ltac:(lia) H H1 L Sh F Et A Hh Ez).
  Qed.
End Claims.

(** Proofs of C108: training on encrypted data follows gradient descent. *)
Require Import ZArith QArith Qabs List Lia Lqa Bool.
From Verif Require Import Ring64 Encoder Arith Arith_proofs Beaver Beaver_proofs Trunc Trunc_proofs Provider Binary Binary_proofs Convert_proofs Compare Compare_proofs Compare_claims Maximum Maximum_proofs Maximum_claims Regular Regular_proofs Regular_num_proofs Regular_claims Optim Program Program_claims Training.
Import ListNotations.
Open Scope Z_scope.

(** ** What the instructions mean
    Over the rationals: the values of the registers and of the masks. *)
Definition positive (q : Q) : bool := negb (Qle_bool q 0).
Definition gated (open : bool) (q : Q) : Q := if open then q else 0%Q.
(** zero for gradients of magnitude [t] and more *)
Definition clipped (t : Z) (q : Q) : Q := if Qle_bool (inject_Z t * inject_Z t) (q * q) then 0%Q else q.
Definition tideal (x : tinstr) (st : list Q * list bool) : list Q * list bool :=
  let '(qs, ms) := st in
  match x with
  | Plain x => (qs ++ [ideal x qs], ms)
  | Mask i => (qs, ms ++ [positive (value qs i)])
  | Gate i k => (qs ++ [gated (nth k ms false) (value qs i)], ms)
  | Clip i t => (qs ++ [clipped t (value qs i)], ms)
  end.
Definition tideals (prog : list tinstr) (st : list Q * list bool) : list Q * list bool := fold_left (fun st x => tideal x st) prog st.

(** ** The analysis
    Magnitudes and errors of the registers as in C93; for every mask whether it is known to be the exact one.  The hint of a [Mask] is a lower bound on
    the magnitude of the number whose sign is taken; the mask is known if that is more than the number's error. *)
Definition square_bound (s E : Z) (b : bound) : bound := (cdiv (fst b * fst b) s, cdiv (product_error b b) s + E).
Definition trule (s E : Z) (hint : option Z) (x : tinstr) (st : list bound * list bool) : option (list bound * list bool) :=
  let '(bs, ks) := st in
  let push b := match settle hint b with Some b' => Some (bs ++ [b'], ks) | None => None end in
  match x with
  | Plain x => match rule s E x bs with Some b => push b | None => None end
  | Mask i => match nth_error bs i with Some b => Some (bs, ks ++ [match hint with Some m => snd b <? m | None => false end]) | None => None end
  | Gate i k => match both (nth_error bs i) (nth_error ks k) with Some (b, known) => push (fst b, if known then snd b else top b) | None => None end
  | Clip i t =>
      match nth_error bs i with
      | Some b => let c := square_bound s E b in
          if (top b * top b <? H63) && (top c + t * t * s <? H63) then
            push (fst b, if (top c <? t * t * s) && (fst b * fst b <? (t * s) * (t * s)) then snd b else top b)
          else None
      | None => None
      end
  end.
Fixpoint tanalyse (s E : Z) (hints : list (option Z)) (prog : list tinstr) (st : list bound * list bool) : option (list bound * list bool) :=
  match prog with
  | [] => Some st
  | x :: r => match trule s E (hd None hints) x st with Some st' => tanalyse s E (tl hints) r st' | None => None end
  end.
(** the hints are true of the exact values *)
Definition sound_hint (s : Z) (hint : option Z) (x : tinstr) (st : list Q * list bool) : Prop :=
  match hint with
  | None => True
  | Some m => match x with Mask i => (ulps m s <= Qabs (value (fst st) i))%Q | _ => (Qabs (last (fst (tideal x st)) 0) <= ulps m s)%Q end
  end.
Fixpoint tsound (s : Z) (hints : list (option Z)) (prog : list tinstr) (st : list Q * list bool) : Prop :=
  match prog with [] => True | x :: r => sound_hint s (hd None hints) x st /\ tsound s (tl hints) r (tideal x st) end.

Lemma last_snoc {A} (l : list A) a d : last (l ++ [a]) d = a. Proof. apply last_last. Qed.

(** ** Soundness of the analysis *)
Section Sound.
  Variable n : nat.
  Hypothesis Hn : (0 < n)%nat.
  Variable pr : provider.
  Hypothesis HV : valid n pr.
  Variables (s E : Z) (p : nat) (T : bool).
  Hypothesis HE : 1 <= E.
  Hypothesis HT : T = true -> n = 1%nat.
  Hypothesis Hp : (1 <= p <= 62)%nat.
  Hypothesis Hs : s = 2 ^ Z.of_nat p.
  Variable local_bits : run pr (list Z).
  Hypothesis Hlocal : yields local_bits (fun u => length u = n /\ Forall (fun z => 0 <= z < s) u /\ True).
  Variables log_steps cascade_steps isqrt : nat -> nat.
  Hypothesis Hsqrt : forall m, (2 <= m)%nat -> (1 <= isqrt m < m)%nat.
  Variable me : method.
  Local Notation st := (tstep (pr := pr) s p local_bits log_steps cascade_steps isqrt me (within E)).
  Local Notation S := (inject_Z s).
  Local Notation good := (good n s).
  Local Notation pre := (pre n s).
  Local Notation state := (state n s).

  Definition bit (b : bool) : Z := if b then 1 else 0.
  Definition mask_state (ks ms : list bool) (gs : list num) : Prop :=
    length ks = length gs /\ length ms = length gs /\
    forall k known, nth_error ks k = Some known -> exists g, nshare n (bit g) 1 (reg gs k) /\ (known = true -> g = nth k ms false).
  Definition tstate (a : list bound * list bool) (q : list Q * list bool) (r : list num * list num) : Prop :=
    state (fst a) (fst q) (fst r) /\ mask_state (snd a) (snd q) (snd r).

  Lemma s_pos : (0 < S)%Q. Proof using Hn HT Hp Hs. apply injZ_pos. pose proof (s1 n Hn s p T HT Hp Hs). lia. Qed.
  Lemma mul_mask v w x y : nshare n v s x -> nshare n w 1 y -> yo T (mulv (pr := pr) (within E) x y) (nshare n (v * w) s).
  Proof using Hn HV HT Hp Hs.
    intros [Hx Sx] [Hy Sy]. pose proof (s1 n Hn s p T HT Hp Hs) as S1. unfold mulv. eapply (yo_lift _ _ _ (fun t => let '(a, b, c) := t in _)); [intros st; exact (v_mul n pr HV st)|]. intros [[a b'] c] Ht'. rewrite Sx, Sy. cbv zeta.
    unfold mul_rescale. assert (E1 : (1 <? s) = true) by (apply Z.ltb_lt; lia). rewrite E1. cbn [Z.ltb Z.compare Pos.compare Pos.compare_cont andb]. apply yo_ok. split; [|reflexivity]. cbn [n_sh]. eapply (mul1_share n Hn); eassumption.
  Qed.
  Lemma mask_push ks ms gs k m g : mask_state ks ms gs -> (exists b, nshare n (bit b) 1 g /\ (k = true -> b = m)) -> mask_state (ks ++ [k]) (ms ++ [m]) (gs ++ [g]).
  Proof.
    intros (L1 & L2 & H) G. split; [rewrite !app_length; cbn; lia|]. split; [rewrite !app_length; cbn; lia|]. intros i c Hc. unfold reg. destruct (Nat.lt_ge_cases i (length ks)) as [Hi|Hi].
    - rewrite nth_error_app1 in Hc by assumption. rewrite !app_nth1 by lia. now apply H.
    - rewrite nth_error_app2 in Hc by assumption. rewrite !app_nth2 by lia. replace (length ms) with (length ks) by lia. replace (length gs) with (length ks) by lia. destruct (i - length ks)%nat; [|destruct n0; discriminate]. injection Hc as <-. exact G.
  Qed.
  (** a number kept or replaced by zero, when it is known which, and when it is not *)
  Lemma keep_same b q v (g : bool) z : good b q z -> nshare n v s z -> holds s b q v -> near (snd b) (v * bit g) (S * gated g q) /\ small (fst b) (S * gated g q).
  Proof.
    intros _ _ H. destruct (holds_pos n Hn s p T HT Hp _ _ _ H) as (P1 & P2 & _). destruct H as (N & M & _). rewrite Zle_Qle in P1, P2. change (inject_Z 0) with 0%Q in *.
    assert (Z0 : (S * 0 == 0)%Q) by ring. unfold near, small in *. destruct g; cbn [bit gated]; rewrite ?Z.mul_1_r, ?Z.mul_0_r, ?Z0; change (inject_Z 0) with 0%Q; repeat split; lra.
  Qed.
  Lemma keep_any b q v (g g' : bool) : holds s b q v -> near (top b) (v * bit g) (S * gated g' q) /\ small (fst b) (S * gated g' q).
  Proof.
    intros H. destruct (holds_pos n Hn s p T HT Hp _ _ _ H) as (P1 & P2 & P3). pose proof (holds_top _ _ _ _ H) as Tv. destruct H as (N & M & _). unfold top in *. rewrite Zle_Qle in P1, P2. change (inject_Z 0) with 0%Q in *.
    assert (Tv' : (- (inject_Z (fst b) + inject_Z (snd b)) <= inject_Z v <= inject_Z (fst b) + inject_Z (snd b))%Q) by (rewrite <- inject_Z_plus, <- inject_Z_opp, <- !Zle_Qle; lia).
    assert (Z0 : (S * 0 == 0)%Q) by ring. unfold near, small in *. rewrite inject_Z_plus.
    destruct g, g'; cbn [bit gated]; rewrite ?Z.mul_1_r, ?Z.mul_0_r, ?Z0; change (inject_Z 0) with 0%Q; repeat split; lra.
  Qed.
  Lemma sign_known b q v m : holds s b q v -> (ulps m s <= Qabs q)%Q -> snd b < m -> (0 <? v) = positive q.
  Proof using Hn HT Hp Hs.
    intros (N & M & _) Hm Hlt. pose proof s_pos as P. unfold near in N. rewrite Zlt_Qlt in Hlt.
    assert (Hm' : (inject_Z m <= S * Qabs q)%Q). { apply (Qmult_le_l _ _ _ P) in Hm. unfold ulps in Hm. setoid_replace (S * (inject_Z m / S))%Q with (inject_Z m) in Hm by (field; lra). exact Hm. }
    unfold positive. destruct (Qle_bool q 0) eqn:L; cbn [negb].
    - apply Qle_bool_iff in L. rewrite Qabs_neg in Hm' by exact L. apply Z.ltb_ge. rewrite Zle_Qle. change (inject_Z 0) with 0%Q. setoid_replace (S * - q)%Q with (- (S * q))%Q in Hm' by ring. lra.
    - apply Qle_bool_false in L. rewrite Qabs_pos in Hm' by lra. apply Z.ltb_lt. rewrite Zlt_Qlt. change (inject_Z 0) with 0%Q. lra.
  Qed.
  Lemma clip_same t (b : bound) q : small (fst b) (S * q) -> fst b * fst b < t * s * (t * s) -> clipped t q = q.
  Proof using Hn HT Hp Hs.
    intros M H. unfold clipped. destruct (Qle_bool _ _) eqn:L; [|reflexivity]. apply Qle_bool_iff in L. exfalso. pose proof s_pos as P. pose proof (small_nonneg _ _ M) as P1. unfold small in M. rewrite Zlt_Qlt in H. rewrite !inject_Z_mult in H. rewrite Zle_Qle in P1. change (inject_Z 0) with 0%Q in P1.
    set (F := inject_Z (fst b)) in *. set (t' := inject_Z t) in *. assert (A : ((S * q) * (S * q) <= F * F)%Q) by nra. assert (A' : (S * S * (t' * t') <= S * S * (q * q))%Q) by (apply Qmult_le_l; [nra|exact L]).
    setoid_replace (S * q * (S * q))%Q with (S * S * (q * q))%Q in A by ring. setoid_replace (t' * S * (t' * S))%Q with (S * S * (t' * t'))%Q in H by ring. lra.
  Qed.
  Lemma clipped_gated t q : exists g, clipped t q = gated g q.
  Proof. unfold clipped. destruct (Qle_bool _ _); [exists false|exists true]; reflexivity. Qed.

  Lemma clip_good b q x t : good b q x -> top b * top b < H63 -> top (square_bound s E b) + t * t * s < H63 ->
    yo T (thresholded (pr := pr) s (within E) t x) (pre (fst b, if (top (square_bound s E b) <? t * t * s) && (fst b * fst b <? t * s * (t * s)) then snd b else top b) (clipped t q)).
  Proof using Hn HV HE HT Hp Hs.
    intros Hx F1 F2. pose proof (s1 n Hn s p T HT Hp Hs) as S1. unfold thresholded. eapply yo_bind; [apply (squarev_good n Hn pr HV s E p T HE HT Hp Hs b q x Hx F1)|]. fold (square_bound s E b). set (c := square_bound s E b) in *.
    intros z (q0 & Hz & Nq & Mq). pose proof (near_top _ _ _ _ Nq Mq) as Tq. fold (top c) in Tq. assert (0 <= t * t * s) by nia.
    assert (Iq : in64 (q0 - t * t * s)) by (unfold in64; lia).
    eapply yo_lift; [unfold n_lt; apply (ltz_ok n Hn pr HV s (q0 - t * t * s) s); exact (sub_int_ok n Hn q0 s (t * t) z Hz)|]. intros g Hg. rewrite (wrap_id _ Iq), (s_ratio1 n Hn s p T HT Hp Hs), Z.mul_1_r in Hg.
    destruct Hx as (v & Hx & Hv).
    assert (Hg' : exists w : bool, w = (q0 - t * t * s <? 0) /\ nshare n (bit w) 1 g) by (exists (q0 - t * t * s <? 0); split; [reflexivity|]; now destruct (q0 - t * t * s <? 0)). destruct Hg' as (w & Ew & Hw).
    eapply yo_weaken; [exact (mul_mask _ _ _ _ Hx Hw)|]. intros y Hy. exists (v * bit w). split; [exact Hy|]. cbn [fst snd].
    destruct ((top c <? t * t * s) && (fst b * fst b <? t * s * (t * s))) eqn:K.
    - apply andb_true_iff in K as [K1 K2]. apply Z.ltb_lt in K1, K2. destruct Hv as (N & M & _). rewrite (clip_same t b q M K2). assert (w = true) as -> by (rewrite Ew; apply Z.ltb_lt; lia). cbn [bit]. rewrite Z.mul_1_r. auto.
    - destruct (clipped_gated t q) as [g' ->]. now apply keep_any.
  Qed.

  Lemma trule_ok hint x a q r a' : tstate a q r -> trule s E hint x a = Some a' -> sound_hint s hint x q -> yo T (st x r) (tstate a' (tideal x q)).
  Proof using Hn HV HE HT Hp Hs Hlocal Hsqrt.
    destruct a as [bs ks], q as [qs ms], r as [rs gs]. intros [H HM] R Hh. pose proof (s1 n Hn s p T HT Hp Hs) as S1. cbn [fst snd] in H, HM.
    assert (E0 : encodeQ s 0 = 0) by (unfold encodeQ; cbn; now rewrite ?Z.mul_0_r). unfold trule in R. cbn [tstep tideal].
    assert (Push : forall b, match settle hint b with Some b' => Some (bs ++ [b'], ks) | None => None end = Some a' -> forall q z, match hint with Some m => (Qabs q <= ulps m s)%Q | None => True end -> pre b q z -> tstate a' (qs ++ [q], ms) (rs ++ [z], gs)).
    { intros b R' q z Hq Hz. destruct (settle hint b) as [b'|] eqn:Eb; [|discriminate]. injection R' as <-. split; cbn [fst snd]; [|exact HM]. apply (state_push n Hn s p T HT Hp); [exact H|]. eapply (settle_good n Hn s p T HT Hp Hs); eassumption. }
    destruct x as [x|i|i k|i t].
    - destruct (rule s E x bs) as [b|] eqn:Eb; [|discriminate]. eapply yo_bind; [exact (rule_ok n Hn pr HV s E p T HE HT Hp Hs local_bits Hlocal log_steps cascade_steps isqrt Hsqrt me x bs qs rs b H Eb)|]. intros z Hz. apply yo_ok. eapply Push; [exact R| |exact Hz].
      unfold sound_hint in Hh. destruct hint; [|exact I]. cbn [tideal fst] in Hh. now rewrite last_snoc in Hh.
    - destruct (nth_error bs i) as [b|] eqn:Hi; [|discriminate]. injection R as <-. destruct (state_get _ _ _ _ _ _ _ H Hi) as (v & Hx & Hv). pose proof (holds_top _ _ _ _ Hv) as Tv. pose proof Hv as (Nv & Mv & Fv).
      eapply (yo_lift _ _ _ (nshare n (bit (0 <? v)) 1)).
      + eapply yields_weaken; [apply (n_gt_ok n Hn pr HV s v (reg rs i) (AFloat 0))|].
        * rewrite (proj2 Hx). lia.
        * now rewrite (proj2 Hx).
        * exact I.
        * cbn [common aval]. rewrite (proj2 Hx). unfold in64. rewrite Z.div_same by lia. rewrite E0. lia.
        * cbn [common aval]. rewrite (proj2 Hx), Z.div_same by lia. rewrite (s_ratio1 n Hn s p T HT Hp Hs), !Z.mul_1_r. intros g Hg. rewrite E0 in Hg. exact Hg.
      + intros g Hg. apply yo_ok. split; cbn [fst snd]; [exact H|]. apply mask_push; [exact HM|]. exists (0 <? v). split; [exact Hg|]. destruct hint as [m|]; [|discriminate]. intros K. apply Z.ltb_lt in K. exact (sign_known _ _ _ _ Hv Hh K).
    - destruct (both _ _) as [[b known]|] eqn:Eb; [|discriminate]. apply both_spec in Eb as [Hi Hk]. cbn [fst snd] in Hi, Hk. pose proof (state_get _ _ _ _ _ _ _ H Hi) as G. destruct G as (v & Hx & Hv). pose proof HM as (_ & _ & HM'). destruct (HM' k known Hk) as (g & Hg & Kg).
      eapply yo_bind; [exact (mul_mask _ _ _ _ Hx Hg)|]. intros z Hz. apply yo_ok. eapply Push; [exact R| |].
      + unfold sound_hint in Hh. destruct hint; [|exact I]. cbn [tideal fst] in Hh. now rewrite last_snoc in Hh.
      + exists (v * bit g). split; [exact Hz|]. cbn [fst snd]. destruct known; [rewrite <- (Kg eq_refl); apply (keep_same b _ v g (reg rs i)); [now exists v|exact Hx|exact Hv]|now apply keep_any].
    - destruct (nth_error bs i) as [b|] eqn:Hi; [|discriminate]. cbv zeta in R. destruct ((top b * top b <? H63) && _) eqn:K; [|discriminate]. apply andb_true_iff in K as [K1 K2]. apply Z.ltb_lt in K1, K2.
      eapply yo_bind; [exact (clip_good b _ _ t (state_get _ _ _ _ _ _ _ H Hi) K1 K2)|]. intros z Hz. apply yo_ok. eapply Push; [exact R| |exact Hz].
      unfold sound_hint in Hh. destruct hint; [|exact I]. cbn [tideal fst] in Hh. now rewrite last_snoc in Hh.
  Qed.
  Lemma texec_good prog : forall hints a q r a', tstate a q r -> tanalyse s E hints prog a = Some a' -> tsound s hints prog q ->
    yo T (texec (pr := pr) s p local_bits log_steps cascade_steps isqrt me (within E) prog r) (tstate a' (tideals prog q)).
  Proof using Hn HV HE HT Hp Hs Hlocal Hsqrt.
    induction prog as [|x prog IH]; intros hints a q r a' H A Hh; cbn [tanalyse texec tsound] in *; [injection A as <-; now apply yo_ok|].
    destruct (trule s E (hd None hints) x a) as [a1|] eqn:R; [|discriminate]. destruct Hh as [Hh1 Hh2]. eapply yo_bind; [exact (trule_ok _ _ _ _ _ _ H R Hh1)|]. intros r1 H1. exact (IH (tl hints) a1 (tideal x q) r1 a' H1 A Hh2).
  Qed.
End Sound.

(** ** A run that passes the checks is a run of the default configuration *)
Section Weak.
  Context {pr : provider}.
  Variables (D : Z) (p : nat) (local_bits : run pr (list Z)) (log_steps cascade_steps isqrt : nat -> nat) (me : method) (chk : check).
  Lemma tstep_weak x st : weaker (tstep D p local_bits log_steps cascade_steps isqrt me chk x st) (tstep D p local_bits log_steps cascade_steps isqrt me no_check x st).
  Proof.
    destruct st as [rs ms], x as [x|i|i k|i t]; cbn [tstep]; [apply weaker_bind; [apply step_weak|]|apply weaker_refl|apply weaker_bind; [apply mulv_weak|]|apply weaker_bind; [|]]; try (intros z; apply weaker_refl).
    unfold thresholded. apply weaker_bind; [apply squarev_weak|]. intros q. apply weaker_bind; [apply weaker_refl|]. intros b. apply mulv_weak.
  Qed.
  Lemma texec_weak prog : forall st, weaker (texec D p local_bits log_steps cascade_steps isqrt me chk prog st) (texec D p local_bits log_steps cascade_steps isqrt me no_check prog st).
  Proof. induction prog as [|x prog IH]; intros st; cbn [texec]; [apply weaker_refl|]. apply weaker_bind; [apply tstep_weak|]. intros z. apply IH. Qed.
End Weak.

(** ** Gradient descent
    A network of linear layers and relus over the rationals, the mean squared error of a batch, its gradient, and the descent; matrices are functions of
    row and column. *)
Definition sumn (k : nat) (f : nat -> Q) : Q := sumQ (map f (seq 0 k)).
Notation qmatrix := (nat -> nat -> Q).
Inductive qlayer := QDense (o k : nat) (W : qmatrix) (b : nat -> Q) | QAct (k : nat).
Definition dense (k : nat) (W : qmatrix) (b : nat -> Q) (X : qmatrix) : qmatrix := fun a j => (sumn k (fun i => X a i * W j i) + b j)%Q.
Definition rectified (X : qmatrix) : qmatrix := fun a j => gated (positive (X a j)) (X a j).
Fixpoint net (ls : list qlayer) (X : qmatrix) : qmatrix :=
  match ls with [] => X | QDense o k W b :: r => net r (dense k W b X) | QAct k :: r => net r (rectified X) end.
Definition size (B m : nat) : Q := inject_Z (Z.of_nat (B * m)).
Definition mse (B m : nat) (Y Z : qmatrix) : Q := (sumn B (fun a => sumn m (fun j => (Z a j - Y a j) * (Z a j - Y a j))) / size B m)%Q.
(** gradients of the parameters of every layer (zero for a relu), gradient of the input *)
Fixpoint gradient (B m : nat) (Y : qmatrix) (ls : list qlayer) (X : qmatrix) : list (qmatrix * (nat -> Q)) * qmatrix :=
  match ls with
  | [] => ([], fun a j => 2 * (X a j - Y a j) / size B m)
  | QDense o k W b :: r => let (gs, G) := gradient B m Y r (dense k W b X) in
      ((fun j i => sumn B (fun a => G a j * X a i), fun j => sumn B (fun a => G a j)) :: gs, fun a i => sumn o (fun j => G a j * W j i))
  | QAct k :: r => let (gs, G) := gradient B m Y r (rectified X) in ((fun _ _ => 0, fun _ => 0) :: gs, fun a i => gated (positive (X a i)) (G a i))
  end%Q.
Definition limited (threshold : option Z) (g : Q) : Q := match threshold with Some t => clipped t g | None => g end.
Fixpoint descend (threshold : option Z) (rate : Q) (ls : list qlayer) (gs : list (qmatrix * (nat -> Q))) : list qlayer :=
  match ls, gs with
  | QDense o k W b :: r, (dW, db) :: gr => QDense o k (fun j i => W j i - rate * limited threshold (dW j i))%Q (fun j => b j - rate * limited threshold (db j))%Q :: descend threshold rate r gr
  | QAct k :: r, _ :: gr => QAct k :: descend threshold rate r gr
  | _, _ => []
  end.
(** one step per batch *)
Definition sgd_step (B m : nat) (threshold : option Z) (rate : Q) (ls : list qlayer) (batch : qmatrix * qmatrix) : list qlayer :=
  descend threshold rate ls (fst (gradient B m (snd batch) ls (fst batch))).
Definition sgd (B m : nat) (threshold : option Z) (rate : Q) (batches : list (qmatrix * qmatrix)) (ls : list qlayer) : list qlayer :=
  fold_left (sgd_step B m threshold rate) batches ls.
(** the loss of every batch, with the parameters before its step *)
Fixpoint losses (B m : nat) (threshold : option Z) (rate : Q) (batches : list (qmatrix * qmatrix)) (ls : list qlayer) : list Q :=
  match batches with [] => [] | (X, Y) :: r => mse B m Y (net ls X) :: losses B m threshold rate r (sgd_step B m threshold rate ls (X, Y)) end.
(** the widths fit: from [k] inputs to [m] outputs *)
Fixpoint shaped (k m : nat) (ls : list qlayer) : Prop :=
  match ls with [] => k = m | QDense o k' _ _ :: r => k' = k /\ shaped o m r | QAct k' :: r => k' = k /\ shaped k m r end.

(** ** What the compiled training loop computes over the rationals *)
Definition is_at (qs : list Q) (i : nat) (q : Q) : Prop := (i < length qs)%nat /\ (value qs i == q)%Q.
Definition mat_at (qs : list Q) (r c : nat) (X : matrix) (F : qmatrix) : Prop := forall a i, (a < r)%nat -> (i < c)%nat -> is_at qs (X a i) (F a i).
Fixpoint layers_at (qs : list Q) (ls : list tlayer) (qls : list qlayer) : Prop :=
  match ls, qls with
  | [], [] => True
  | Dense o k W b :: r, QDense o' k' Wq bq :: r' => o' = o /\ k' = k /\ mat_at qs o k W Wq /\ (forall j, (j < o)%nat -> is_at qs (b j) (bq j)) /\ layers_at qs r r'
  | Act k :: r, QAct k' :: r' => k' = k /\ layers_at qs r r'
  | _, _ => False
  end.
Fixpoint grads_at (qs : list Q) (ls : list tlayer) (gs : list (matrix * (nat -> nat))) (gq : list (qmatrix * (nat -> Q))) : Prop :=
  match ls, gs, gq with
  | [], [], [] => True
  | Dense o k _ _ :: r, (dW, db) :: gr, (qW, qb) :: qr => mat_at qs o k dW qW /\ (forall j, (j < o)%nat -> is_at qs (db j) (qb j)) /\ grads_at qs r gr qr
  | Act _ :: r, _ :: gr, _ :: qr => grads_at qs r gr qr
  | _, _, _ => False
  end.

Lemma is_at_app qs e i q : is_at qs i q -> is_at (qs ++ e) i q.
Proof. intros [H E]. split; [rewrite app_length; lia|now rewrite value_app]. Qed.
Lemma mat_app qs e r c X F : mat_at qs r c X F -> mat_at (qs ++ e) r c X F. Proof. intros H a i Ha Hi. now apply is_at_app, H. Qed.
Lemma layers_app qs e ls : forall qls, layers_at qs ls qls -> layers_at (qs ++ e) ls qls.
Proof. induction ls as [|[o k W b|k] r IH]; intros [|[o' k' Wq bq|k'] r']; cbn [layers_at]; try tauto; [|now intros [? ?]; auto]. intros (A & B & C & D & F). split; [exact A|]. split; [exact B|]. split; [now apply mat_app|]. split; [intros j Hj; now apply is_at_app, D|now apply IH]. Qed.
Lemma grads_app qs e ls : forall gs gq, grads_at qs ls gs gq -> grads_at (qs ++ e) ls gs gq.
Proof. induction ls as [|[o k W b|k] r IH]; intros [|[dW db] gr] [|[qW qb] qr]; cbn [grads_at]; try tauto; auto. intros (A & B & C). split; [now apply mat_app|]. split; [intros j Hj; now apply is_at_app, B|now apply IH]. Qed.
Lemma is_at_ext qs i q q' : (q == q')%Q -> is_at qs i q -> is_at qs i q'. Proof. intros H [A B]. split; [exact A|now rewrite B]. Qed.

Lemma sumn_ext k f g : (forall i, (i < k)%nat -> f i == g i)%Q -> (sumn k f == sumn k g)%Q.
Proof.
  unfold sumn. intros H. assert (G : forall l, (forall i, In i l -> (i < k)%nat) -> (sumQ (map f l) == sumQ (map g l))%Q).
  { induction l as [|i l IH]; intros Hl; [reflexivity|]. cbn [map sumQ fold_right]. fold (sumQ (map f l)). fold (sumQ (map g l)). rewrite (H i (Hl i (or_introl eq_refl))), IH; [reflexivity|]. intros j Hj. apply Hl. now right. }
  apply G. intros i Hi. apply in_seq in Hi. lia.
Qed.
Lemma positive_ext q q' : (q == q')%Q -> positive q = positive q'. Proof. intros H. unfold positive. now rewrite (Qleb_comp _ _ H 0%Q 0%Q (Qeq_refl 0)). Qed.
Lemma gated_ext g q q' : (q == q')%Q -> (gated g q == gated g q')%Q. Proof. intros H. destruct g; [exact H|reflexivity]. Qed.
Lemma clipped_ext t q q' : (q == q')%Q -> (clipped t q == clipped t q')%Q.
Proof. intros H. unfold clipped. rewrite (Qleb_comp _ _ (Qeq_refl (inject_Z t * inject_Z t)%Q) (q * q)%Q (q' * q')%Q) by (now rewrite H). destruct (Qle_bool _ _); [reflexivity|exact H]. Qed.

(** *** Instructions that append one register, whatever has been appended after what they read *)
Definition gives (x : tinstr) (qs : list Q) (ms : list bool) (q : Q) : Prop := forall e, exists v, tideal x (qs ++ e, ms) = ((qs ++ e) ++ [v], ms) /\ (v == q)%Q.
Ltac at_ H := let A := fresh "A" in let B := fresh "B" in pose proof (is_at_app _ _ _ _ H) as [A B].
Lemma g_sub qs ms i j q r : is_at qs i q -> is_at qs j r -> gives (Plain (ISub i j)) qs ms (q - r).
Proof. intros H1 H2 e. eexists. split; [reflexivity|]. cbn [ideal]. now rewrite (proj2 (is_at_app _ e _ _ H1)), (proj2 (is_at_app _ e _ _ H2)). Qed.
Lemma g_add qs ms i j q r : is_at qs i q -> is_at qs j r -> gives (Plain (IAdd i j)) qs ms (q + r).
Proof. intros H1 H2 e. eexists. split; [reflexivity|]. cbn [ideal]. now rewrite (proj2 (is_at_app _ e _ _ H1)), (proj2 (is_at_app _ e _ _ H2)). Qed.
Lemma g_mul qs ms i j q r : is_at qs i q -> is_at qs j r -> gives (Plain (IMul i j)) qs ms (q * r).
Proof. intros H1 H2 e. eexists. split; [reflexivity|]. cbn [ideal]. now rewrite (proj2 (is_at_app _ e _ _ H1)), (proj2 (is_at_app _ e _ _ H2)). Qed.
Lemma g_square qs ms i q : is_at qs i q -> gives (Plain (ISquare i)) qs ms (q * q).
Proof. intros H1 e. eexists. split; [reflexivity|]. cbn [ideal]. now rewrite (proj2 (is_at_app _ e _ _ H1)). Qed.
Lemma g_mulq qs ms i q r : is_at qs i q -> gives (Plain (IMulQ i r)) qs ms (q * r).
Proof. intros H1 e. eexists. split; [reflexivity|]. cbn [ideal]. now rewrite (proj2 (is_at_app _ e _ _ H1)). Qed.
Lemma g_div qs ms i q d : is_at qs i q -> gives (Plain (IDiv i d)) qs ms (q / inject_Z d).
Proof. intros H1 e. eexists. split; [reflexivity|]. cbn [ideal]. now rewrite (proj2 (is_at_app _ e _ _ H1)). Qed.
Lemma g_clip qs ms i q t : is_at qs i q -> gives (Clip i t) qs ms (clipped t q).
Proof. intros H1 e. eexists. split; [reflexivity|]. apply clipped_ext, (is_at_app _ e _ _ H1). Qed.
Lemma g_gate qs ms i k q b : is_at qs i q -> nth k ms false = b -> gives (Gate i k) qs ms (gated b q).
Proof. intros H1 <- e. eexists. split; [reflexivity|]. apply gated_ext, (is_at_app _ e _ _ H1). Qed.
Lemma g_dot qs ms k f g F G : (forall i, (i < k)%nat -> is_at qs (f i) (F i)) -> (forall i, (i < k)%nat -> is_at qs (g i) (G i)) -> gives (Plain (IDot (map (fun i => (f i, g i)) (seq 0 k)))) qs ms (sumn k (fun i => F i * G i)%Q).
Proof.
  intros H1 H2 e. eexists. split; [reflexivity|]. cbn [ideal]. rewrite map_map. cbn [fst snd]. apply (sumn_ext k (fun i => value (qs ++ e) (f i) * value (qs ++ e) (g i))%Q). intros i Hi.
  now rewrite (proj2 (is_at_app _ e _ _ (H1 i Hi))), (proj2 (is_at_app _ e _ _ (H2 i Hi))).
Qed.
Lemma g_sum qs ms k f F : (forall i, (i < k)%nat -> is_at qs (f i) (F i)) -> gives (Plain (ISum (map f (seq 0 k)))) qs ms (sumn k F).
Proof. intros H1 e. eexists. split; [reflexivity|]. cbn [ideal]. rewrite map_map. apply (sumn_ext k (fun i => value (qs ++ e) (f i))). intros i Hi. now rewrite (proj2 (is_at_app _ e _ _ (H1 i Hi))). Qed.
Lemma sumQ_app l l' : (sumQ (l ++ l') == sumQ l + sumQ l')%Q.
Proof. induction l as [|a l IH]; cbn [app sumQ fold_right]; [fold (sumQ l'); ring|]. fold (sumQ (l ++ l')). fold (sumQ l). rewrite IH. ring. Qed.
Lemma g_sum2 qs ms r c X F : mat_at qs r c X F -> gives (Plain (ISum (flat_map (fun a => map (X a) (seq 0 c)) (seq 0 r)))) qs ms (sumn r (fun a => sumn c (F a))).
Proof.
  intros H1 e. eexists. split; [reflexivity|]. cbn [ideal].
  assert (G : forall l, (sumQ (map (value (qs ++ e)) (flat_map (fun a => map (X a) (seq 0 c)) l)) == sumQ (map (fun a => sumn c (fun i => value (qs ++ e) (X a i))) l))%Q).
  { induction l as [|a l IH]; [reflexivity|]. cbn [flat_map map]. rewrite map_app, sumQ_app, IH, map_map. reflexivity. }
  rewrite G. apply (sumn_ext r). intros a Ha. apply sumn_ext. intros i Hi. now rewrite (proj2 (is_at_app _ e _ _ (H1 a i Ha Hi))).
Qed.
Lemma gives_ext x qs ms q q' : (q == q')%Q -> gives x qs ms q -> gives x qs ms q'. Proof. intros H G e. destruct (G e) as (v & E & Hv). exists v. split; [exact E|now rewrite Hv]. Qed.

Lemma tideals_app c1 c2 st : tideals (c1 ++ c2) st = tideals c2 (tideals c1 st). Proof. apply fold_left_app. Qed.
(** *** Blocks *)
Lemma run_list qs ms xs : forall vs, Forall2 (fun x v => gives x qs ms v) xs vs -> forall e0, exists e, tideals xs (qs ++ e0, ms) = (qs ++ e0 ++ e, ms) /\ Forall2 Qeq e vs.
Proof.
  induction xs as [|x xs IH]; intros vs F e0; inversion F as [|? v ? vs' H F']; subst; [exists []; rewrite app_nil_r; split; [reflexivity|constructor]|].
  destruct (H e0) as (w & E & Hw). destruct (IH vs' F' (e0 ++ [w])) as (e & E' & He). exists (w :: e). split; [|constructor; assumption].
  change (tideals (x :: xs) (qs ++ e0, ms)) with (tideals xs (tideal x (qs ++ e0, ms))). rewrite E. rewrite <- app_assoc, E'. rewrite <- !app_assoc. reflexivity.
Qed.
Lemma nth_flat {A} (d : A) c F : forall r a0 a i, (a < r)%nat -> (i < c)%nat -> nth (a * c + i) (flat_map (fun a => map (F a) (seq 0 c)) (seq a0 r)) d = F (a0 + a)%nat i.
Proof.
  induction r as [|r IH]; intros a0 a i Ha Hi; [lia|]. cbn [seq flat_map]. destruct a as [|a].
  - rewrite app_nth1 by (rewrite map_length, seq_length; lia). rewrite (nth_indep _ d (F a0 0%nat)) by (rewrite map_length, seq_length; lia). rewrite map_nth, seq_nth by lia. f_equal. lia.
  - rewrite app_nth2 by (rewrite map_length, seq_length; lia). rewrite map_length, seq_length. replace (S a * c + i - c)%nat with (a * c + i)%nat by lia. rewrite IH by lia. f_equal. lia.
Qed.
Lemma flat_length {A} c (F : nat -> nat -> A) : forall r a0, length (flat_map (fun a => map (F a) (seq 0 c)) (seq a0 r)) = (r * c)%nat.
Proof. induction r as [|r IH]; intros a0; [reflexivity|]. cbn [seq flat_map]. rewrite app_length, map_length, seq_length, IH. lia. Qed.
Lemma block_length r c f : length (block r c f) = (r * c)%nat. Proof. apply flat_length. Qed.
Lemma flat_forall2 {A C} (R : A -> C -> Prop) f F r c : (forall a i, (a < r)%nat -> (i < c)%nat -> R (f a i) (F a i)) ->
  Forall2 R (flat_map (fun a => map (f a) (seq 0 c)) (seq 0 r)) (flat_map (fun a => map (F a) (seq 0 c)) (seq 0 r)).
Proof.
  intros H. assert (G : forall l, (forall a, In a l -> (a < r)%nat) -> Forall2 R (flat_map (fun a => map (f a) (seq 0 c)) l) (flat_map (fun a => map (F a) (seq 0 c)) l)).
  { induction l as [|a l IH]; intros Hl; [constructor|]. cbn [flat_map]. apply Forall2_app; [|apply IH; intros b Hb; apply Hl; now right].
    assert (G' : forall l', (forall i, In i l' -> (i < c)%nat) -> Forall2 R (map (f a) l') (map (F a) l')).
    { induction l' as [|i l' IH']; intros Hi; [constructor|]. cbn [map]. constructor; [apply H; [apply Hl; now left|apply Hi; now left]|apply IH'; intros b Hb; apply Hi; now right]. }
    apply G'. intros i Hi. apply in_seq in Hi. lia. }
  apply G. intros a Ha. apply in_seq in Ha. lia.
Qed.
Lemma Forall2_nth_q l l' : Forall2 Qeq l l' -> forall k, (nth k l 0 == nth k l' 0)%Q.
Proof. induction 1 as [|a b l l' H F IH]; intros [|k]; cbn; try reflexivity; [exact H|apply IH]. Qed.
Lemma block_ok r c f F qs ms next : next = length qs -> (forall a i, (a < r)%nat -> (i < c)%nat -> gives (f a i) qs ms (F a i)) ->
  exists e, tideals (block r c f) (qs, ms) = (qs ++ e, ms) /\ length e = (r * c)%nat /\ mat_at (qs ++ e) r c (placed next c) F.
Proof.
  intros -> H. destruct (run_list qs ms (block r c f) _ (flat_forall2 _ f F r c H) []) as (e & E & He). rewrite app_nil_r in E. cbn [app] in E. exists e. split; [exact E|].
  assert (L : length e = (r * c)%nat) by (rewrite (Forall2_length _ _ _ He); apply flat_length). split; [exact L|]. intros a i Ha Hi. unfold placed, is_at. assert (a * c + i < r * c)%nat by nia. split; [rewrite app_length; lia|].
  unfold value. rewrite app_nth2 by lia. replace (length qs + a * c + i - length qs)%nat with (a * c + i)%nat by lia. rewrite (Forall2_nth_q _ _ He), (nth_flat 0%Q c F r 0 a i Ha Hi). reflexivity.
Qed.
Lemma one_ok x q qs ms next : next = length qs -> gives x qs ms q -> exists v, tideals [x] (qs, ms) = (qs ++ [v], ms) /\ is_at (qs ++ [v]) next q.
Proof.
  intros -> H. destruct (H []) as (v & E & Hv). rewrite app_nil_r in E. exists v. split; [exact E|]. split; [rewrite app_length; cbn; lia|]. unfold value. rewrite app_nth2 by lia. now rewrite Nat.sub_diag.
Qed.
Lemma mask_list qs xs : forall is, xs = map Mask is -> forall ms, tideals xs (qs, ms) = (qs, ms ++ map (fun i => positive (value qs i)) is).
Proof.
  induction xs as [|x xs IH]; intros [|i is] E ms; try discriminate; [now rewrite app_nil_r|]. injection E as -> E. change (tideals (Mask i :: xs) (qs, ms)) with (tideals xs (qs, ms ++ [positive (value qs i)])). rewrite (IH is E). now rewrite <- app_assoc.
Qed.
Lemma mask_block r c X F qs ms masks : masks = length ms -> mat_at qs r c X F ->
  exists e, tideals (block r c (fun a i => Mask (X a i))) (qs, ms) = (qs, ms ++ e) /\ length e = (r * c)%nat /\ forall a i, (a < r)%nat -> (i < c)%nat -> nth (placed masks c a i) (ms ++ e) false = positive (F a i) /\ (placed masks c a i < length (ms ++ e))%nat.
Proof.
  intros -> H. assert (E : block r c (fun a i => Mask (X a i)) = map Mask (flat_map (fun a => map (X a) (seq 0 c)) (seq 0 r))).
  { unfold block. induction (seq 0 r) as [|a l IH]; [reflexivity|]. cbn [flat_map]. now rewrite map_app, map_map, IH. }
  rewrite (mask_list qs _ _ E). eexists. split; [reflexivity|]. split; [rewrite map_length; apply flat_length|]. intros a i Ha Hi. assert (a * c + i < r * c)%nat by nia. unfold placed. split; [|rewrite app_length, map_length, flat_length; lia].
  rewrite app_nth2 by lia. replace (length ms + a * c + i - length ms)%nat with (a * c + i)%nat by lia. rewrite (nth_indep _ false (positive (value qs 0%nat))) by (rewrite map_length, flat_length; lia).
  rewrite (map_nth (fun i => positive (value qs i))), (nth_flat 0%nat c X r 0 a i Ha Hi). apply positive_ext, (H a i Ha Hi).
Qed.
Ltac up := first [assumption | apply is_at_app; up | apply mat_app; up | apply grads_app; up | apply layers_app; up].
Ltac len := repeat rewrite app_length; cbn [length]; lia.
Section Pass.
  Variables (B m : nat) (Y : matrix) (Yq : qmatrix) (one : nat).
  Lemma loss_pass_ok X Xq qs ms next masks : next = length qs -> mat_at qs B m X Xq -> mat_at qs B m Y Yq -> is_at qs one 1 ->
    let q := loss_pass B m Y one X next masks in
    exists e, tideals (p_code q) (qs, ms) = (qs ++ e, ms) /\ p_next q = length (qs ++ e) /\ p_masks q = masks /\ mat_at (qs ++ e) B m (p_in q) (snd (gradient B m Yq [] Xq)) /\ is_at (qs ++ e) (p_loss q) (mse B m Yq Xq) /\ p_grads q = [].
  Proof.
    intros Hn HX HY H1. cbv zeta. unfold loss_pass, count. cbv zeta. cbn [p_code p_next p_in p_loss p_masks p_grads gradient snd]. set (N := (B * m)%nat).
    destruct (block_ok B m (fun a j => Plain (ISub (X a j) (Y a j))) (fun a j => Xq a j - Yq a j)%Q qs ms next Hn (fun a i Ha Hi => g_sub _ _ _ _ _ _ (HX a i Ha Hi) (HY a i Ha Hi))) as (e1 & E1 & L1 & M1).
    set (q1 := qs ++ e1) in *. assert (N1 : (next + N)%nat = length q1) by (unfold q1, N; len).
    destruct (block_ok B m (fun a j => Plain (ISquare (placed next m a j))) (fun a j => (Xq a j - Yq a j) * (Xq a j - Yq a j))%Q q1 ms (next + N)%nat N1 (fun a i Ha Hi => g_square _ _ _ _ (M1 a i Ha Hi))) as (e2 & E2 & L2 & M2).
    set (q2 := q1 ++ e2) in *. assert (N2 : (next + 2 * N)%nat = length q2) by (unfold q2; len).
    destruct (one_ok _ _ q2 ms (next + 2 * N)%nat N2 (g_sum2 q2 ms B m _ _ M2)) as (v1 & E3 & A3). set (q3 := q2 ++ [v1]) in *.
    assert (N3 : (next + 2 * N + 1)%nat = length q3) by (unfold q3; len).
    destruct (one_ok _ _ q3 ms (next + 2 * N + 1)%nat N3 (g_div q3 ms _ _ (Z.of_nat N) A3)) as (v2 & E4 & A4). set (q4 := q3 ++ [v2]) in *.
    assert (N4 : (next + 2 * N + 2)%nat = length q4) by (unfold q4; len).
    assert (H14 : is_at q4 one 1) by (unfold q4, q3, q2, q1; up).
    destruct (block_ok B m (fun a j => Plain (IMulQ one (1 / inject_Z (Z.of_nat N)))) (fun a j => 1 * (1 / inject_Z (Z.of_nat N)))%Q q4 ms _ N4 (fun a i Ha Hi => g_mulq _ _ _ _ _ H14)) as (e5 & E5 & L5 & M5).
    set (q5 := q4 ++ e5) in *. assert (N5 : (next + 3 * N + 2)%nat = length q5) by (unfold q5; len).
    assert (M15 : mat_at q5 B m (placed next m) (fun a j => Xq a j - Yq a j)%Q) by (unfold q5, q4, q3, q2; up).
    destruct (block_ok B m (fun a j => Plain (IMulQ (placed next m a j) 2)) (fun a j => (Xq a j - Yq a j) * 2)%Q q5 ms _ N5 (fun a i Ha Hi => g_mulq _ _ _ _ _ (M15 a i Ha Hi))) as (e6 & E6 & L6 & M6).
    set (q6 := q5 ++ e6) in *. assert (N6 : (next + 4 * N + 2)%nat = length q6) by (unfold q6; len).
    assert (M56 : mat_at q6 B m (placed (next + 2 * N + 2) m) (fun a j => 1 * (1 / inject_Z (Z.of_nat N)))%Q) by (unfold q6; now apply mat_app).
    destruct (block_ok B m (fun a j => Plain (IMul (placed (next + 2 * N + 2) m a j) (placed (next + 3 * N + 2) m a j))) _ q6 ms _ N6 (fun a i Ha Hi => g_mul _ _ _ _ _ _ (M56 a i Ha Hi) (M6 a i Ha Hi))) as (e7 & E7 & L7 & M7).
    exists (e1 ++ e2 ++ [v1] ++ [v2] ++ e5 ++ e6 ++ e7).
    assert (Eq : qs ++ e1 ++ e2 ++ [v1] ++ [v2] ++ e5 ++ e6 ++ e7 = q6 ++ e7) by (unfold q6, q5, q4, q3, q2, q1; now rewrite <- !app_assoc).
    rewrite Eq. split; [|split; [|split; [reflexivity|split; [|split; [|reflexivity]]]]].
    - rewrite tideals_app, E1. rewrite tideals_app, E2. change ([Plain (ISum (flat_map (fun a => map (placed (next + N) m a) (seq 0 m)) (seq 0 B))); Plain (IDiv (next + 2 * N) (Z.of_nat N))])
        with ([Plain (ISum (flat_map (fun a => map (placed (next + N) m a) (seq 0 m)) (seq 0 B)))] ++ [Plain (IDiv (next + 2 * N) (Z.of_nat N))]). rewrite <- app_assoc.
      rewrite tideals_app, E3. rewrite tideals_app, E4. rewrite tideals_app, E5. rewrite tideals_app, E6. exact E7.
    - len.
    - intros a j Ha Hj. eapply is_at_ext; [|exact (M7 a j Ha Hj)]. cbv beta. unfold size. fold N. unfold Qdiv. ring.
    - unfold mse, size. fold N. unfold q6, q5. up.
  Qed.

  (** widths *)
  Lemma layers_pass_ok ls : forall qls k X Xq qs ms next masks, next = length qs -> masks = length ms -> shaped k m qls -> layers_at qs ls qls ->
    mat_at qs B k X Xq -> mat_at qs B m Y Yq -> is_at qs one 1 ->
    let q := layers_pass B m Y one ls X next masks in
    exists e e', tideals (p_code q) (qs, ms) = (qs ++ e, ms ++ e') /\ p_next q = length (qs ++ e) /\ p_masks q = length (ms ++ e') /\
      mat_at (qs ++ e) B k (p_in q) (snd (gradient B m Yq qls Xq)) /\ grads_at (qs ++ e) ls (p_grads q) (fst (gradient B m Yq qls Xq)) /\ is_at (qs ++ e) (p_loss q) (mse B m Yq (net qls Xq)).
  Proof.
    induction ls as [|[o k1 W b|k1] r IH]; intros [|[o' k' Wq bq|k'] r'] k X Xq qs ms next masks Hn Hm Sh L HX HY H1; cbn [layers_at] in L; try contradiction; cbn [shaped] in Sh.
    - subst k. destruct (loss_pass_ok X Xq qs ms next masks Hn HX HY H1) as (e & A1 & A2 & A3 & A4 & A5 & A6). exists e, []. cbv zeta in *. cbn [layers_pass]. rewrite app_nil_r. rewrite A3, A6. repeat split; try assumption; try (now apply A4). exact (proj1 A5). exact (proj2 A5).
    - destruct L as (-> & -> & LW & Lb & Lr). destruct Sh as [-> Sh]. cbv zeta. cbn [layers_pass p_code p_next p_in p_loss p_masks p_grads gradient net].
      destruct (block_ok B o (fun a j => Plain (IDot (map (fun i => (X a i, W j i)) (seq 0 k)))) (fun a j => sumn k (fun i => Xq a i * Wq j i))%Q qs ms next Hn
        (fun a j Ha Hj => g_dot qs ms k (X a) (W j) (Xq a) (Wq j) (fun i Hi => HX a i Ha Hi) (fun i Hi => LW j i Hj Hi))) as (e1 & E1 & L1 & M1).
      set (q1 := qs ++ e1) in *. assert (N1 : (next + B * o)%nat = length q1) by (unfold q1; len).
      destruct (block_ok B o (fun a j => Plain (IAdd (placed next o a j) (b j))) (dense k Wq bq Xq) q1 ms _ N1
        (fun a j Ha Hj => g_add _ _ _ _ _ _ (M1 a j Ha Hj) (is_at_app _ _ _ _ (Lb j Hj)))) as (e2 & E2 & L2 & M2).
      set (q2 := q1 ++ e2) in *. assert (N2 : (next + 2 * (B * o))%nat = length q2) by (unfold q2; len).
      assert (Up : exists f, q2 = qs ++ f) by (exists (e1 ++ e2); unfold q2, q1; now rewrite <- app_assoc). destruct Up as [f2 F2].
      specialize (IH r' o (placed (next + B * o) o) (dense k Wq bq Xq) q2 ms _ masks N2 Hm Sh).
      destruct IH as (e3 & e3' & E3 & N3 & K3 & M3 & G3 & S3); [rewrite F2; now apply layers_app|exact M2|rewrite F2; now apply mat_app|rewrite F2; now apply is_at_app|].
      set (q := layers_pass B m Y one r (placed (next + B * o) o) (next + 2 * (B * o)) masks) in *. destruct (gradient B m Yq r' (dense k Wq bq Xq)) as [gs G]. cbn [fst snd] in *.
      set (q3 := q2 ++ e3) in *. set (ms3 := ms ++ e3') in *.
      destruct (block_ok 1 o (fun _ j => Plain (ISum (map (fun a => p_in q a j) (seq 0 B)))) (fun _ j => sumn B (fun a => G a j)) q3 ms3 _ N3
        (fun a j Ha Hj => g_sum q3 ms3 B (fun a => p_in q a j) (fun a => G a j) (fun a' Ha' => M3 a' j Ha' Hj))) as (e4 & E4 & L4 & M4).
      set (q4 := q3 ++ e4) in *. assert (N4 : (p_next q + o)%nat = length q4) by (unfold q4; len).
      assert (F4 : exists f, q4 = qs ++ f) by (exists (f2 ++ e3 ++ e4); unfold q4, q3; rewrite F2; now rewrite <- !app_assoc). destruct F4 as [f4 F4].
      assert (M34 : mat_at q4 B o (p_in q) G) by (unfold q4; now apply mat_app).
      assert (LW4 : mat_at q4 o k W Wq) by (rewrite F4; now apply mat_app).
      destruct (block_ok B k (fun a i => Plain (IDot (map (fun j => (p_in q a j, W j i)) (seq 0 o)))) (fun a i => sumn o (fun j => G a j * Wq j i))%Q q4 ms3 _ N4
        (fun a i Ha Hi => g_dot q4 ms3 o (p_in q a) (fun j => W j i) (G a) (fun j => Wq j i) (fun j Hj => M34 a j Ha Hj) (fun j Hj => LW4 j i Hj Hi))) as (e5 & E5 & L5 & M5).
      set (q5 := q4 ++ e5) in *. assert (N5 : (p_next q + o + B * k)%nat = length q5) by (unfold q5; len).
      assert (M35 : mat_at q5 B o (p_in q) G) by (unfold q5; now apply mat_app).
      assert (HX5 : mat_at q5 B k X Xq) by (unfold q5; rewrite F4; up).
      destruct (block_ok k o (fun i j => Plain (IDot (map (fun a => (X a i, p_in q a j)) (seq 0 B)))) (fun i j => sumn B (fun a => Xq a i * G a j))%Q q5 ms3 _ N5
        (fun i j Hi Hj => g_dot q5 ms3 B (fun a => X a i) (fun a => p_in q a j) (fun a => Xq a i) (fun a => G a j) (fun a Ha => HX5 a i Ha Hi) (fun a Ha => M35 a j Ha Hj))) as (e6 & E6 & L6 & M6).
      exists (e1 ++ e2 ++ e3 ++ e4 ++ e5 ++ e6), e3'. assert (Eq : qs ++ e1 ++ e2 ++ e3 ++ e4 ++ e5 ++ e6 = q5 ++ e6) by (unfold q5, q4, q3, q2, q1; now rewrite <- !app_assoc). rewrite Eq.
      split; [|split; [|split; [exact K3|split; [|split; [|]]]]].
      + rewrite tideals_app, E1. rewrite tideals_app, E2. rewrite tideals_app, E3. rewrite tideals_app, E4. rewrite tideals_app, E5. exact E6.
      + len.
      + now apply mat_app.
      + cbn [grads_at]. split; [intros j i Hj Hi; eapply is_at_ext; [|exact (M6 i j Hi Hj)]; cbv beta; apply sumn_ext; intros a Ha; ring|]. split; [intros j Hj; unfold q5; now apply is_at_app, is_at_app, (M4 0%nat j); [lia|]|]. unfold q5, q4. up.
      + unfold q5, q4. up.
    - destruct L as (-> & Lr). destruct Sh as [-> Sh]. cbv zeta. cbn [layers_pass p_code p_next p_in p_loss p_masks p_grads gradient net].
      destruct (mask_block B k X Xq qs ms masks Hm HX) as (f & Ef & Lf & Mf). set (ms1 := ms ++ f) in *. assert (K1 : (masks + B * k)%nat = length ms1) by (unfold ms1; len).
      destruct (block_ok B k (fun a i => Gate (X a i) (placed masks k a i)) (rectified Xq) qs ms1 next Hn (fun a i Ha Hi => g_gate _ _ _ _ _ _ (HX a i Ha Hi) (proj1 (Mf a i Ha Hi)))) as (e1 & E1 & L1 & M1).
      set (q1 := qs ++ e1) in *. assert (N1 : (next + B * k)%nat = length q1) by (unfold q1; len).
      specialize (IH r' k (placed next k) (rectified Xq) q1 ms1 _ _ N1 K1 Sh).
      destruct IH as (e3 & e3' & E3 & N3 & K3 & M3 & G3 & S3); [now apply layers_app|exact M1|now apply mat_app|now apply is_at_app|].
      set (q := layers_pass B m Y one r (placed next k) (next + B * k) (masks + B * k)) in *. destruct (gradient B m Yq r' (rectified Xq)) as [gs G]. cbn [fst snd] in *.
      set (q3 := q1 ++ e3) in *. set (ms3 := ms1 ++ e3') in *.
      destruct (block_ok B k (fun a i => Gate (p_in q a i) (placed masks k a i)) (fun a i => gated (positive (Xq a i)) (G a i)) q3 ms3 _ N3
        (fun a i Ha Hi => g_gate q3 ms3 _ _ _ _ (M3 a i Ha Hi) (eq_trans (app_nth1 ms1 e3' false (proj2 (Mf a i Ha Hi))) (proj1 (Mf a i Ha Hi))))) as (e4 & E4 & L4 & M4).
      exists (e1 ++ e3 ++ e4), (f ++ e3'). assert (Eq : qs ++ e1 ++ e3 ++ e4 = q3 ++ e4) by (unfold q3, q1; now rewrite <- !app_assoc). rewrite Eq. replace (ms ++ f ++ e3') with ms3 by (unfold ms3, ms1; now rewrite <- app_assoc).
      split; [|split; [|split; [exact K3|split; [|split; [|]]]]].
      + rewrite tideals_app, Ef. rewrite tideals_app, E1. rewrite tideals_app, E3. exact E4.
      + len.
      + exact M4.
      + cbn [grads_at]. now apply grads_app.
      + now apply is_at_app.
  Qed.
End Pass.

Lemma update_param_ok threshold rate r c W g Wq gq qs ms next : next = length qs -> mat_at qs r c W Wq -> mat_at qs r c g gq ->
  let '(code, W') := update_param threshold rate r c W g next in
  exists e, tideals code (qs, ms) = (qs ++ e, ms) /\ length e = length code /\ mat_at (qs ++ e) r c W' (fun a i => Wq a i - rate * limited threshold (gq a i))%Q.
Proof.
  intros Hn HW Hg.
  assert (Rest : forall g' gq' qs next, next = length qs -> mat_at qs r c W Wq -> mat_at qs r c g' gq' ->
    exists e, tideals (block r c (fun a i => Plain (IMulQ (g' a i) rate)) ++ block r c (fun a i => Plain (ISub (W a i) (placed next c a i)))) (qs, ms) = (qs ++ e, ms) /\ length e = (r * c + r * c)%nat /\
      mat_at (qs ++ e) r c (placed (next + r * c) c) (fun a i => Wq a i - rate * gq' a i)%Q).
  { clear. intros g' gq' qs next Hn HW Hg.
    destruct (block_ok r c (fun a i => Plain (IMulQ (g' a i) rate)) (fun a i => gq' a i * rate)%Q qs ms next Hn (fun a i Ha Hi => g_mulq _ _ _ _ _ (Hg a i Ha Hi))) as (e1 & E1 & L1 & M1).
    assert (N1 : (next + r * c)%nat = length (qs ++ e1)) by len. pose proof (mat_app _ e1 _ _ _ _ HW) as HW1.
    destruct (block_ok r c (fun a i => Plain (ISub (W a i) (placed next c a i))) _ (qs ++ e1) ms _ N1 (fun a i Ha Hi => g_sub _ _ _ _ _ _ (HW1 a i Ha Hi) (M1 a i Ha Hi))) as (e2 & E2 & L2 & M2).
    exists (e1 ++ e2). rewrite (app_assoc qs e1 e2). split; [rewrite tideals_app, E1; exact E2|]. split; [len|]. intros a i Ha Hi. eapply is_at_ext; [|exact (M2 a i Ha Hi)]. cbv beta. ring. }
  destruct threshold as [t|]; cbn [update_param limited]; cbv zeta.
  - destruct (block_ok r c (fun a i => Clip (g a i) t) (fun a i => clipped t (gq a i)) qs ms next Hn (fun a i Ha Hi => g_clip _ _ _ _ _ (Hg a i Ha Hi))) as (e1 & E1 & L1 & M1).
    assert (N1 : (next + r * c)%nat = length (qs ++ e1)) by len.
    destruct (Rest (placed next c) (fun a i => clipped t (gq a i)) (qs ++ e1) _ N1 (mat_app _ e1 _ _ _ _ HW) M1) as (e2 & E2 & L2 & M2).
    exists (e1 ++ e2). rewrite (app_assoc qs e1 e2). split; [rewrite tideals_app, E1; exact E2|]. split; [rewrite !app_length, !block_length; lia|]. replace (next + 2 * (r * c))%nat with (next + r * c + r * c)%nat by lia. exact M2.
  - destruct (Rest g gq qs next Hn HW Hg) as (e2 & E2 & L2 & M2). exists e2. split; [exact E2|]. split; [rewrite !app_length, !block_length; lia|exact M2].
Qed.
Lemma update_layers_ok threshold rate ls : forall qls gs gq qs ms next, next = length qs -> layers_at qs ls qls -> grads_at qs ls gs gq ->
  let '(code, ls') := update_layers threshold rate ls gs next in
  exists e, tideals code (qs, ms) = (qs ++ e, ms) /\ length e = length code /\ layers_at (qs ++ e) ls' (descend threshold rate qls gq).
Proof.
  induction ls as [|[o k W b|k] r IH]; intros [|[o' k' Wq bq|k'] r'] [|[dW db] gr] [|[qW qb] qr] qs ms next Hn L G; cbn [layers_at grads_at] in L, G; try contradiction; cbn [update_layers descend].
  - exists []. rewrite app_nil_r. repeat split.
  - destruct L as (-> & -> & LW & Lb & Lr). destruct G as (GW & Gb & Gr).
    pose proof (update_param_ok threshold rate o k W dW Wq qW qs ms next Hn LW GW) as U1. destruct (update_param threshold rate o k W dW next) as [c1 W']. destruct U1 as (e1 & E1 & L1 & M1).
    assert (N1 : (next + length c1)%nat = length (qs ++ e1)) by len.
    pose proof (update_param_ok threshold rate 1 o (fun _ => b) (fun _ => db) (fun _ => bq) (fun _ => qb) (qs ++ e1) ms _ N1 (fun a j _ Hj => is_at_app _ _ _ _ (Lb j Hj)) (fun a j _ Hj => is_at_app _ _ _ _ (Gb j Hj))) as U2.
    destruct (update_param threshold rate 1 o (fun _ => b) (fun _ => db) (next + length c1)) as [c2 b']. destruct U2 as (e2 & E2 & L2 & M2).
    assert (N2 : (next + length c1 + length c2)%nat = length ((qs ++ e1) ++ e2)) by len.
    specialize (IH r' gr qr ((qs ++ e1) ++ e2) ms _ N2 (layers_app _ _ _ _ (layers_app _ _ _ _ Lr)) (grads_app _ _ _ _ _ (grads_app _ _ _ _ _ Gr))).
    destruct (update_layers threshold rate r gr (next + length c1 + length c2)) as [c3 r'']. destruct IH as (e3 & E3 & L3 & M3). exists (e1 ++ e2 ++ e3).
    replace (qs ++ e1 ++ e2 ++ e3) with (((qs ++ e1) ++ e2) ++ e3) by (now rewrite <- !app_assoc). split; [rewrite tideals_app, E1; rewrite tideals_app, E2; exact E3|]. split; [len|]. cbn [layers_at].
    split; [reflexivity|]. split; [reflexivity|]. split; [now apply mat_app, mat_app|]. split; [intros j Hj; apply is_at_app; apply (M2 0%nat j); [lia|exact Hj]|exact M3].
  - destruct L as (-> & Lr). specialize (IH r' gr qr qs ms next Hn Lr G). destruct (update_layers threshold rate r gr next) as [c3 r'']. destruct IH as (e3 & E3 & L3 & M3). exists e3. split; [exact E3|]. split; [exact L3|]. cbn [layers_at]. auto.
Qed.
Lemma shaped_descend threshold rate m ls : forall k gs, length gs = length ls -> shaped k m ls -> shaped k m (descend threshold rate ls gs).
Proof. induction ls as [|[o k' W b|k'] r IH]; intros k [|[dW db] gr] L; cbn [shaped descend]; try discriminate; auto; intros [A B]; cbn [shaped]; (split; [exact A|]); apply IH; auto. Qed.
Lemma gradient_length B m Y ls : forall X, length (fst (gradient B m Y ls X)) = length ls.
Proof. induction ls as [|[o k W b|k] r IH]; intros X; cbn [gradient]; [reflexivity| |]; match goal with |- context [gradient B m Y r ?Z] => specialize (IH Z); destruct (gradient B m Y r Z) as [gs G] end; cbn [fst length] in *; congruence. Qed.
Definition batch_at (qs : list Q) (B k m : nat) (batch : matrix * matrix) (q : qmatrix * qmatrix) : Prop := mat_at qs B k (fst batch) (fst q) /\ mat_at qs B m (snd batch) (snd q).
Lemma train_ok B m one threshold rate k batches : forall qb ls qls qs ms next masks, next = length qs -> masks = length ms -> shaped k m qls -> layers_at qs ls qls -> is_at qs one 1 -> Forall2 (batch_at qs B k m) batches qb ->
  let '(code, ls', lost) := train B m one threshold rate batches ls next masks in
  exists e e', tideals code (qs, ms) = (qs ++ e, ms ++ e') /\ layers_at (qs ++ e) ls' (sgd B m threshold rate qb qls) /\ Forall2 (is_at (qs ++ e)) lost (losses B m threshold rate qb qls).
Proof.
  induction batches as [|[X Y] more IH]; intros qb ls qls qs ms next masks Hn Hm Sh L H1 F; inversion F as [|? [Xq Yq] ? qb' [HX HY] F']; subst qb; cbn [train losses].
  - exists [], []. rewrite !app_nil_r. repeat split; [exact L|constructor].
  - cbn [fst snd] in HX, HY. subst. cbv zeta. destruct (layers_pass_ok B m Y Yq one ls qls k X Xq qs ms _ _ eq_refl eq_refl Sh L HX HY H1) as (e1 & f1 & E1 & N1 & K1 & M1 & G1 & S1).
    set (q := layers_pass B m Y one ls X (length qs) (length ms)) in *.
    pose proof (update_layers_ok threshold rate ls qls (p_grads q) _ (qs ++ e1) (ms ++ f1) (p_next q) N1 (layers_app _ _ _ _ L) G1) as U. destruct (update_layers threshold rate ls (p_grads q) (p_next q)) as [c ls']. destruct U as (e2 & E2 & L2 & M2).
    assert (N2 : (p_next q + length c)%nat = length ((qs ++ e1) ++ e2)) by (now rewrite (app_length (qs ++ e1) e2), L2, N1).
    assert (Fq : qs ++ e1 ++ e2 = (qs ++ e1) ++ e2) by apply app_assoc.
    specialize (IH qb' ls' (sgd_step B m threshold rate qls (Xq, Yq)) ((qs ++ e1) ++ e2) (ms ++ f1) _ _ N2 K1). unfold sgd_step in IH at 1. cbn [fst snd] in IH.
    specialize (IH (shaped_descend _ _ _ _ _ _ (gradient_length _ _ _ _ _) Sh) M2 (is_at_app _ _ _ _ (is_at_app _ _ _ _ H1))).
    assert (F2 : Forall2 (batch_at ((qs ++ e1) ++ e2) B k m) more qb') by (clear - F'; induction F' as [|? ? ? ? [A C] F' IH']; constructor; [split; now apply mat_app, mat_app|exact IH']). specialize (IH F2).
    destruct (train B m one threshold rate more ls' (p_next q + length c) (p_masks q)) as [[c' out] lost]. destruct IH as (e3 & f3 & E3 & L3 & S3).
    exists (e1 ++ e2 ++ e3), (f1 ++ f3). replace (qs ++ e1 ++ e2 ++ e3) with (((qs ++ e1) ++ e2) ++ e3) by (now rewrite <- !app_assoc). replace (ms ++ f1 ++ f3) with ((ms ++ f1) ++ f3) by (now rewrite <- app_assoc).
    split; [rewrite tideals_app, E1; rewrite tideals_app, E2; exact E3|]. split; [exact L3|]. constructor; [up|exact S3].
Qed.

(** ** The gradient is the gradient
    [inner]: the inner product of two lists of parameter gradients.  [smooth]: no relu receives an exact zero. *)
Fixpoint inner (ls : list qlayer) (gs hs : list (qmatrix * (nat -> Q))) : Q :=
  match ls, gs, hs with
  | QDense o k _ _ :: r, (gW, gb) :: gr, (hW, hb) :: hr => sumn o (fun j => sumn k (fun i => gW j i * hW j i)) + sumn o (fun j => gb j * hb j) + inner r gr hr
  | QAct _ :: r, _ :: gr, _ :: hr => inner r gr hr
  | _, _, _ => 0
  end%Q.
Fixpoint smooth (B : nat) (ls : list qlayer) (X : qmatrix) : Prop :=
  match ls with
  | [] => True
  | QDense o k W b :: r => smooth B r (dense k W b X)
  | QAct k :: r => (forall a i, (a < B)%nat -> (i < k)%nat -> ~ (X a i == 0)%Q) /\ smooth B r (rectified X)
  end.

(** *** Expansions to first order, with a bounded second-order term *)
Open Scope Q_scope.
Definition approx (f : Q -> Q) (a d : Q) : Prop := exists delta K, 0 < delta /\ delta <= 1 /\ forall t, Qabs t <= delta -> exists r, Qabs r <= K /\ f t == a + t * d + t * t * r.
Lemma b_add x y M N : Qabs x <= M -> Qabs y <= N -> Qabs (x + y) <= M + N.
Proof. intros. eapply Qle_trans; [apply Qabs_triangle|]. now apply Qplus_le_compat. Qed.
Lemma b_mul x y M N : Qabs x <= M -> Qabs y <= N -> Qabs (x * y) <= M * N.
Proof. intros H H'. rewrite Qabs_Qmult. pose proof (Qabs_nonneg x). pose proof (Qabs_nonneg y). apply (Qle_trans _ (M * Qabs y)); [apply Qmult_le_compat_r; assumption|]. rewrite (Qmult_comm M), (Qmult_comm M). apply Qmult_le_compat_r; [assumption|lra]. Qed.
Lemma a_ext f g a a' d d' : (forall t, f t == g t) -> a == a' -> d == d' -> approx f a d -> approx g a' d'.
Proof. intros H H1 H2 (de & K & P & P' & A). exists de, K. split; [exact P|]. split; [exact P'|]. intros t Ht. destruct (A t Ht) as (r & Hr & E). exists r. split; [exact Hr|]. rewrite <- H, E, H1, H2. reflexivity. Qed.
Lemma a_const c : approx (fun _ => c) c 0.
Proof. exists 1, 0. split; [lra|]. split; [lra|]. intros t _. exists 0. split; [cbn; lra|ring]. Qed.
Lemma a_move c h : approx (fun t => c - t * h) c (- h).
Proof. exists 1, 0. split; [lra|]. split; [lra|]. intros t _. exists 0. split; [cbn; lra|ring]. Qed.
Lemma two_deltas d1 d2 : 0 < d1 -> d1 <= 1 -> 0 < d2 -> exists d, 0 < d /\ d <= 1 /\ d <= d1 /\ d <= d2.
Proof. intros. destruct (Qlt_le_dec d1 d2); [exists d1|exists d2]; repeat split; lra. Qed.
Lemma a_add f g a b d e : approx f a d -> approx g b e -> approx (fun t => f t + g t) (a + b) (d + e).
Proof.
  intros (d1 & K & P1 & P1' & A) (d2 & L & P2 & P2' & C). destruct (two_deltas d1 d2 P1 P1' P2) as (dd & Pd & Pd1 & H1 & H2). exists dd, (K + L). split; [exact Pd|]. split; [exact Pd1|]. intros t Ht.
  destruct (A t ltac:(lra)) as (r & Hr & E). destruct (C t ltac:(lra)) as (q & Hq & E'). exists (r + q). split; [now apply b_add|]. rewrite E, E'. ring.
Qed.
Lemma a_mul f g a b d e : approx f a d -> approx g b e -> approx (fun t => f t * g t) (a * b) (a * e + d * b).
Proof.
  intros (d1 & K & P1 & P1' & A) (d2 & L & P2 & P2' & C). destruct (two_deltas d1 d2 P1 P1' P2) as (dd & Pd & Pd1 & H1 & H2).
  exists dd, (Qabs d * Qabs e + (K * (Qabs b + 1 * Qabs e + 1 * 1 * L) + L * (Qabs a + 1 * Qabs d))). split; [exact Pd|]. split; [exact Pd1|]. intros t Ht.
  destruct (A t ltac:(lra)) as (r & Hr & E). destruct (C t ltac:(lra)) as (q & Hq & E'). exists (d * e + (r * (b + t * e + t * t * q) + q * (a + t * d))). assert (T1 : Qabs t <= 1) by lra. split; [|rewrite E, E'; ring].
  apply b_add; [apply b_mul; lra|]. apply b_add; apply b_mul; try assumption; repeat apply b_add; repeat apply b_mul; try assumption; lra.
Qed.
Lemma sumn_S k f : sumn (S k) f == sumn k f + f k.
Proof. unfold sumn. rewrite seq_S, map_app, sumQ_app. cbn. ring. Qed.
Lemma a_sum k : forall f a d, (forall i, (i < k)%nat -> approx (fun t => f t i) (a i) (d i)) -> approx (fun t => sumn k (f t)) (sumn k a) (sumn k d).
Proof.
  induction k as [|k IH]; intros f a d H; [apply (a_ext (fun _ => 0) _ 0 _ 0); try reflexivity; apply a_const|].
  apply (a_ext (fun t => sumn k (f t) + f t k) _ (sumn k a + a k) _ (sumn k d + d k)); try (intros; now rewrite sumn_S); try (now rewrite sumn_S). apply a_add; [apply IH; auto|apply H; lia].
Qed.
Lemma a_gate f a d : ~ a == 0 -> approx f a d -> approx (fun t => gated (positive (f t)) (f t)) (gated (positive a) a) (gated (positive a) d).
Proof.
  intros Na (d1 & K & P1 & P1' & A). pose proof (Qabs_nonneg d) as Pd. assert (PK : 0 <= K). { destruct (A 0) as (r & Hr & _); [cbn; lra|]. eapply Qle_trans; [apply Qabs_nonneg|exact Hr]. }
  assert (Pa : 0 < Qabs a). { destruct (Qlt_le_dec 0 a); [rewrite Qabs_pos; lra|]. rewrite Qabs_neg by lra. destruct (Qlt_le_dec a 0); [lra|]. exfalso. apply Na. lra. }
  set (M := Qabs d + K + 1). assert (PM : 0 < M) by (unfold M; lra). assert (Px : 0 < Qabs a / (2 * M)) by (apply Qlt_shift_div_l; lra).
  destruct (two_deltas d1 (Qabs a / (2 * M)) P1 P1' Px) as (dd & Q1 & Q2 & H1 & H2). exists dd, K. split; [exact Q1|]. split; [exact Q2|]. intros t Ht. destruct (A t ltac:(lra)) as (r & Hr & E).
  assert (S1 : positive (f t) = positive a).
  { assert (Bd : Qabs (t * d + t * t * r) <= Qabs t * (Qabs d + K)).
    { setoid_replace (t * d + t * t * r) with (t * (d + t * r)) by ring. rewrite Qabs_Qmult, (Qmult_comm (Qabs t)), (Qmult_comm (Qabs t)). apply Qmult_le_compat_r; [|apply Qabs_nonneg]. apply b_add; [lra|]. setoid_replace K with (1 * K) by ring. apply b_mul; [lra|exact Hr]. }
    assert (Bt : Qabs t * (Qabs d + K) < Qabs a).
    { apply (Qle_lt_trans _ (Qabs a / (2 * M) * M)); [|setoid_replace (Qabs a / (2 * M) * M) with (Qabs a / 2) by (field; lra); apply Qlt_shift_div_r; lra]. apply (Qle_trans _ (Qabs t * M)).
      - rewrite (Qmult_comm (Qabs t)), (Qmult_comm (Qabs t)). apply Qmult_le_compat_r; [unfold M; lra|apply Qabs_nonneg].
      - apply Qmult_le_compat_r; lra. }
    assert (Z : Qabs (f t - a) < Qabs a) by (setoid_replace (f t - a) with (t * d + t * t * r) by (rewrite E; ring); lra).
    apply Qabs_Qlt_condition in Z. unfold positive. f_equal. destruct (Qle_bool a 0) eqn:L.
    - apply Qle_bool_iff in L. rewrite Qabs_neg in Z by exact L. apply Qle_bool_iff. lra.
    - apply Qle_bool_false in L. rewrite Qabs_pos in Z by lra. destruct (Qle_bool (f t) 0) eqn:L'; [|reflexivity]. apply Qle_bool_iff in L'. lra. }
  rewrite S1. destruct (positive a); cbn [gated]; [exists r; split; assumption|exists 0; split; [cbn; lra|ring]].
Qed.

(** *** Sums *)
Lemma sumn_add k f g : sumn k (fun i => f i + g i) == sumn k f + sumn k g.
Proof. induction k as [|k IH]; [reflexivity|]. rewrite !sumn_S, IH. ring. Qed.
Lemma sumn_scale k c f : sumn k (fun i => c * f i) == c * sumn k f.
Proof. induction k as [|k IH]; [cbn; ring|]. rewrite !sumn_S, IH. ring. Qed.
Lemma sumn_swap k l f : sumn k (fun i => sumn l (fun j => f i j)) == sumn l (fun j => sumn k (fun i => f i j)).
Proof.
  induction k as [|k IH]; [induction l as [|l IHl]; [reflexivity|rewrite sumn_S, <- IHl; cbn; ring]|]. rewrite sumn_S, IH. rewrite <- sumn_add. apply sumn_ext. intros j _. now rewrite sumn_S.
Qed.

Lemma gradient_dir B m Y ls : forall k hs Xt X dX, shaped k m ls -> length hs = length ls -> smooth B ls X -> (forall a i, (a < B)%nat -> (i < k)%nat -> approx (fun t => Xt t a i) (X a i) (dX a i)) ->
  approx (fun t => mse B m Y (net (descend None t ls hs) (Xt t))) (mse B m Y (net ls X))
    (sumn B (fun a => sumn k (fun i => snd (gradient B m Y ls X) a i * dX a i)) - inner ls (fst (gradient B m Y ls X)) hs).
Proof.
  induction ls as [|[o k' W b|k'] r IH]; intros k [|[hW hb] hr] Xt X dX Sh Lh Sm HX; try discriminate; cbn [shaped smooth] in Sh, Sm; cbn [descend net gradient].
  - subst k. cbn [fst snd inner]. unfold mse.
    apply (a_ext (fun t => / size B m * sumn B (fun a => sumn m (fun j => (Xt t a j - Y a j) * (Xt t a j - Y a j)))) _ (/ size B m * sumn B (fun a => sumn m (fun j => (X a j - Y a j) * (X a j - Y a j)))) _
      (/ size B m * sumn B (fun a => sumn m (fun j => (X a j - Y a j) * dX a j + dX a j * (X a j - Y a j))) + 0 * sumn B (fun a => sumn m (fun j => (X a j - Y a j) * (X a j - Y a j)))));
      [intros; unfold Qdiv; ring|unfold Qdiv; ring| |apply a_mul; [apply a_const|]].
    + transitivity (sumn B (fun a => sumn m (fun j => 2 * (X a j - Y a j) / size B m * dX a j))); [|ring].
      transitivity (/ size B m * sumn B (fun a => sumn m (fun j => (X a j - Y a j) * dX a j + dX a j * (X a j - Y a j)))); [ring|].
      rewrite <- sumn_scale. apply sumn_ext. intros a _. rewrite <- sumn_scale. apply sumn_ext. intros j _. unfold Qdiv. ring.
    + apply (a_sum B (fun t a => sumn m (fun j => (Xt t a j - Y a j) * (Xt t a j - Y a j)))). intros a Ha. apply (a_sum m (fun t j => (Xt t a j - Y a j) * (Xt t a j - Y a j))). intros j Hj.
      assert (A1 : approx (fun t => Xt t a j - Y a j) (X a j - Y a j) (dX a j)).
      { apply (a_ext (fun t => Xt t a j + - Y a j) _ (X a j + - Y a j) _ (dX a j + 0)); [intros; ring|ring|ring|]. apply a_add; [now apply HX|apply a_const]. }
      now apply a_mul.
  - destruct Sh as [-> Sh]. cbn [length] in Lh. injection Lh as Lh. cbn [limited].
    set (dX' := fun a j => sumn k (fun i => X a i * - hW j i + dX a i * W j i) + - hb j).
    specialize (IH o hr (fun t => dense k (fun j i => W j i - t * hW j i) (fun j => b j - t * hb j) (Xt t)) (dense k W b X) dX' Sh Lh Sm).
    destruct (gradient B m Y r (dense k W b X)) as [gs G]. cbn [fst snd inner] in *.
    eapply (a_ext _ _ _ _ _ _ (fun t => Qeq_refl _) (Qeq_refl _)); [|apply IH].
    + unfold dX'.
      setoid_replace (sumn B (fun a => sumn o (fun j => G a j * (sumn k (fun i => X a i * - hW j i + dX a i * W j i) + - hb j)))) with
        (sumn B (fun a => sumn k (fun i => sumn o (fun j => G a j * W j i) * dX a i)) - (sumn o (fun j => sumn k (fun i => sumn B (fun a => G a j * X a i) * hW j i)) + sumn o (fun j => sumn B (fun a => G a j) * hb j))); [ring|].
      assert (E1 : sumn B (fun a => sumn k (fun i => sumn o (fun j => G a j * W j i) * dX a i)) == sumn B (fun a => sumn o (fun j => sumn k (fun i => G a j * (dX a i * W j i))))).
      { apply sumn_ext. intros a _. rewrite <- sumn_swap. apply sumn_ext. intros i _. rewrite Qmult_comm, <- sumn_scale. apply sumn_ext. intros j _. ring. }
      assert (E2 : sumn o (fun j => sumn k (fun i => sumn B (fun a => G a j * X a i) * hW j i)) == sumn B (fun a => sumn o (fun j => sumn k (fun i => G a j * (X a i * hW j i))))).
      { rewrite (sumn_swap B o). apply sumn_ext. intros j _. rewrite (sumn_swap B k). apply sumn_ext. intros i _. rewrite Qmult_comm, <- sumn_scale. apply sumn_ext. intros a _. ring. }
      assert (E3 : sumn o (fun j => sumn B (fun a => G a j) * hb j) == sumn B (fun a => sumn o (fun j => G a j * hb j))).
      { rewrite (sumn_swap B o). apply sumn_ext. intros j _. rewrite Qmult_comm, <- sumn_scale. apply sumn_ext. intros a _. ring. }
      rewrite E1, E2, E3. clear E1 E2 E3.
      setoid_replace (sumn B (fun a => sumn o (fun j => sumn k (fun i => G a j * (dX a i * W j i)))) - (sumn B (fun a => sumn o (fun j => sumn k (fun i => G a j * (X a i * hW j i)))) + sumn B (fun a => sumn o (fun j => G a j * hb j))))
        with (sumn B (fun a => sumn o (fun j => sumn k (fun i => G a j * (dX a i * W j i)))) + (-1) * (sumn B (fun a => sumn o (fun j => sumn k (fun i => G a j * (X a i * hW j i)))) + sumn B (fun a => sumn o (fun j => G a j * hb j)))) by ring.
      rewrite <- sumn_add, <- sumn_scale, <- sumn_add. apply sumn_ext. intros a _. rewrite <- sumn_add, <- sumn_scale, <- sumn_add. apply sumn_ext. intros j _.
      rewrite !sumn_scale. rewrite sumn_add. setoid_replace (sumn k (fun i => X a i * - hW j i)) with ((-1) * sumn k (fun i => X a i * hW j i)) by (rewrite <- sumn_scale; apply sumn_ext; intros; ring). ring.
    + intros a j Ha Hj. unfold dense, dX'. apply a_add; [|apply a_move]. apply (a_sum k (fun t i => Xt t a i * (W j i - t * hW j i))). intros i Hi. apply a_mul; [now apply HX|apply a_move].
  - destruct Sh as [-> Sh]. cbn [length] in Lh. injection Lh as Lh. destruct Sm as [Nz Sm].
    specialize (IH k hr (fun t => rectified (Xt t)) (rectified X) (fun a i => gated (positive (X a i)) (dX a i)) Sh Lh Sm).
    destruct (gradient B m Y r (rectified X)) as [gs G]. cbn [fst snd inner] in *.
    eapply (a_ext _ _ _ _ _ _ (fun t => Qeq_refl _) (Qeq_refl _)); [|apply IH].
    + apply Qplus_comp; [|reflexivity]. apply sumn_ext. intros a _. apply sumn_ext. intros i _. destruct (positive (X a i)); cbn [gated]; ring.
    + intros a i Ha Hi. unfold rectified. apply a_gate; [now apply Nz|now apply HX].
Qed.
Close Scope Q_scope.

(** ** The claims *)
(** the number in a register is known, with its error *)
Definition num_at (n : nat) (s : Z) (bs : list bound) (zs : list num) (i : nat) (q : Q) : Prop := exists b, nth_error bs i = Some b /\ represents n s b q (nth i zs nil_num).
(** the parameters of a network, encrypted *)
Fixpoint trained (n : nat) (s : Z) (bs : list bound) (zs : list num) (ls : list tlayer) (qls : list qlayer) : Prop :=
  match ls, qls with
  | [], [] => True
  | Dense o k W b :: r, QDense o' k' Wq bq :: r' => o' = o /\ k' = k /\ (forall j i, (j < o)%nat -> (i < k)%nat -> num_at n s bs zs (W j i) (Wq j i)) /\
      (forall j, (j < o)%nat -> num_at n s bs zs (b j) (bq j)) /\ trained n s bs zs r r'
  | Act k :: r, QAct k' :: r' => k' = k /\ trained n s bs zs r r'
  | _, _ => False
  end.
(** hints read off the exact values *)
Definition exact_hint (s : Z) (x : tinstr) (st : list Q * list bool) : option Z :=
  match x with Mask i => Some (Qround.Qfloor (inject_Z s * Qabs (value (fst st) i))) | _ => Some (Qround.Qceiling (inject_Z s * Qabs (last (fst (tideal x st)) 0%Q))) end.
Fixpoint exact_hints (s : Z) (prog : list tinstr) (st : list Q * list bool) : list (option Z) :=
  match prog with [] => [] | x :: r => exact_hint s x st :: exact_hints s r (tideal x st) end.

Lemma represents_ext n s b q q' x : (q == q')%Q -> represents n s b q x -> represents n s b q' x.
Proof. intros E (A & B & C & D & F). split; [exact A|]. split; [exact B|]. split; [now rewrite <- E|]. split; [now rewrite <- E|exact F]. Qed.
Lemma num_of_at n s bs qs zs i q : all_represent n s bs qs zs -> is_at qs i q -> num_at n s bs zs i q.
Proof.
  intros (L1 & L2 & H) [Hi Eq]. destruct (nth_error bs i) as [b|] eqn:Eb; [|apply nth_error_None in Eb; lia]. exists b. split; [exact Eb|]. exact (represents_ext _ _ _ _ _ _ Eq (H i b Eb)).
Qed.
Lemma trained_of_at n s bs qs zs ls : all_represent n s bs qs zs -> forall qls, layers_at qs ls qls -> trained n s bs zs ls qls.
Proof.
  intros H. induction ls as [|[o k W b|k] r IH]; intros [|[o' k' Wq bq|k'] r']; cbn [layers_at trained]; try tauto; [|intros [A B]; auto]. intros (A & B & C & D & F).
  split; [exact A|]. split; [exact B|]. split; [intros j i Hj Hi; eapply num_of_at; [exact H|now apply C]|]. split; [intros j Hj; eapply num_of_at; [exact H|now apply D]|now apply IH].
Qed.
(** C108: hints read off the exact values are true. *)
Lemma k_C108_hints : forall s prog st, 0 < s -> tsound s (exact_hints s prog st) prog st.
Proof.
  intros s prog st Hs. assert (P : (0 < inject_Z s)%Q) by (now apply injZ_pos). revert st. induction prog as [|x prog IH]; intros st; [exact I|]. cbn [exact_hints tsound hd tl]. split; [|apply IH].
  assert (Up : forall Z0 : Q, (Z0 <= ulps (Qround.Qceiling (inject_Z s * Z0)) s)%Q) by (intros Z0; unfold ulps; apply Qle_shift_div_l; [exact P|]; rewrite Qmult_comm; apply Qround.Qle_ceiling).
  destruct x; cbn [exact_hint sound_hint]; try apply Up. unfold ulps. apply Qle_shift_div_r; [exact P|]. rewrite Qmult_comm. apply Qround.Qfloor_le.
Qed.
Section Claims.
  Variables (n : nat) (pr : provider) (s : Z) (p : nat) (local_bits : run pr (list Z)) (log_steps cascade_steps isqrt : nat -> nat) (me : method).
  Hypothesis Hn : (0 < n)%nat.
  Hypothesis HV : valid n pr.
  Hypothesis Hp : (1 <= p <= 62)%nat.
  Hypothesis Hs : s = 2 ^ Z.of_nat p.
  Hypothesis Hlocal : forall st, let u := fst (local_bits st) in length u = n /\ Forall (fun z => 0 <= z < s) u.
  Hypothesis Hsqrt : forall m, (2 <= m)%nat -> (1 <= isqrt m < m)%nat.
  Local Notation run := (texec (pr := pr) s p local_bits log_steps cascade_steps isqrt me).

  Lemma start_state bs qs xs : all_represent n s bs qs xs -> tstate n s (bs, []) (qs, []) (xs, []).
  Proof using Hn Hp Hs. intros H. split; [now apply (state_of n s p Hn Hp Hs)|]. split; [reflexivity|]. split; [reflexivity|]. intros [|k] known Hk; discriminate. Qed.
  (** C108: a program with masks, gates and thresholded gradients computes what it computes over the rationals, up to the error the analysis gives. *)
  Lemma k_C108_program : forall E prog hints bs qs xs a' st zs, 1 <= E -> all_represent n s bs qs xs -> tanalyse s E hints prog (bs, []) = Some a' -> tsound s hints prog (qs, []) ->
    fst (run (within E) prog (xs, []) st) = Some zs -> fst (run no_check prog (xs, []) st) = Some zs /\ all_represent n s (fst a') (fst (tideals prog (qs, []))) (fst zs).
  Proof using Hn HV Hp Hs Hlocal Hsqrt.
    intros E prog hints bs qs xs a' st zs HE H A Hh Hz. split; [eapply weaker_fst; [apply texec_weak|exact Hz]|]. apply (state_of n s p Hn Hp Hs). refine (proj1 (yo_some false _ (tstate n s a' (tideals prog (qs, []))) st zs _ Hz)).
    apply (texec_good n Hn pr HV s E p false HE ltac:(discriminate) Hp Hs local_bits (bits_ok n pr s local_bits Hlocal) log_steps cascade_steps isqrt Hsqrt me prog hints (bs, []) (qs, []) (xs, []) a' (start_state bs qs xs H) A Hh).
  Qed.
  (** C108: training on encrypted batches ends with the parameters of gradient descent over the rationals, up to the error the analysis gives. *)
  Lemma k_C108_training : forall E B m k one threshold rate batches qb ls qls hints bs qs xs code ls' lost a' st zs, 1 <= E -> all_represent n s bs qs xs -> is_at qs one 1 -> layers_at qs ls qls -> shaped k m qls ->
    Forall2 (batch_at qs B k m) batches qb -> train B m one threshold rate batches ls (length xs) 0 = (code, ls', lost) -> tanalyse s E hints code (bs, []) = Some a' -> tsound s hints code (qs, []) ->
    fst (run (within E) code (xs, []) st) = Some zs ->
    fst (run no_check code (xs, []) st) = Some zs /\ trained n s (fst a') (fst zs) ls' (sgd B m threshold rate qb qls) /\ Forall2 (num_at n s (fst a') (fst zs)) lost (losses B m threshold rate qb qls).
  Proof using Hn HV Hp Hs Hlocal Hsqrt.
    intros E B m k one threshold rate batches qb ls qls hints bs qs xs code ls' lost a' st zs HE H H1 L Sh F Et A Hh Hz. destruct (k_C108_program E code hints bs qs xs a' st zs HE H A Hh Hz) as [R G]. split; [exact R|].
    pose proof (train_ok B m one threshold rate k batches qb ls qls qs [] (length xs) 0%nat (eq_sym (proj1 (proj2 H))) eq_refl Sh L H1 F) as Tr. rewrite Et in Tr. destruct Tr as (e & e' & E1 & L1 & S1). rewrite E1 in G. cbn [fst] in G.
    split; [exact (trained_of_at _ _ _ _ _ _ G _ L1)|]. clear - G S1. induction S1; constructor; [eapply num_of_at; eassumption|assumption].
  Qed.
  (** C108: with one party every run of the training loop does. *)
  Lemma k_C108_one_party : forall B m k one threshold rate batches qb ls qls hints bs qs xs code ls' lost a' st, n = 1%nat -> all_represent n s bs qs xs -> is_at qs one 1 -> layers_at qs ls qls -> shaped k m qls ->
    Forall2 (batch_at qs B k m) batches qb -> train B m one threshold rate batches ls (length xs) 0 = (code, ls', lost) -> tanalyse s 1 hints code (bs, []) = Some a' -> tsound s hints code (qs, []) ->
    exists zs, fst (run no_check code (xs, []) st) = Some zs /\ trained n s (fst a') (fst zs) ls' (sgd B m threshold rate qb qls) /\ Forall2 (num_at n s (fst a') (fst zs)) lost (losses B m threshold rate qb qls).
  Proof using Hn HV Hp Hs Hlocal Hsqrt.
    intros B m k one threshold rate batches qb ls qls hints bs qs xs code ls' lost a' st H1n H H1 L Sh F Et A Hh.
    destruct (yo_true _ _ st (texec_good n Hn pr HV s 1 p true ltac:(lia) (fun _ => H1n) Hp Hs local_bits (bits_ok n pr s local_bits Hlocal) log_steps cascade_steps isqrt Hsqrt me code hints (bs, []) (qs, []) (xs, []) a' (start_state bs qs xs H) A Hh)) as (zs & Ez & Hz).
    exists zs. exact (k_C108_training 1 B m k one threshold rate batches qb ls qls hints bs qs xs code ls' lost a' st zs ltac:(lia) H H1 L Sh F Et A Hh Ez).
  Qed.
End Claims.
(** C108: the gradient is the gradient of the loss: moving the parameters by [- t h] changes the loss by [- t <gradient, h>] up to a multiple of t^2. *)
Lemma k_C108_gradient : forall B m k Y X ls hs, shaped k m ls -> length hs = length ls -> smooth B ls X ->
  exists delta K, (0 < delta /\ forall t, Qabs t <= delta ->
    Qabs (mse B m Y (net (descend None t ls hs) X) - (mse B m Y (net ls X) - t * inner ls (fst (gradient B m Y ls X)) hs)) <= K * (t * t))%Q.
Proof.
  intros B m k Y X ls hs Sh Lh Sm. destruct (gradient_dir B m Y ls k hs (fun _ => X) X (fun _ _ => 0%Q) Sh Lh Sm (fun a i _ _ => a_const (X a i))) as (de & K & P & _ & A). exists de, K. split; [exact P|]. intros t Ht. destruct (A t Ht) as (r & Hr & E).
  assert (Z0 : (sumn B (fun a => sumn k (fun i => snd (gradient B m Y ls X) a i * 0)) == 0)%Q).
  { transitivity (0 * sumn B (fun a => sumn k (fun i => snd (gradient B m Y ls X) a i)))%Q; [|ring]. rewrite <- sumn_scale. apply sumn_ext. intros a _. rewrite <- sumn_scale. apply sumn_ext. intros i _. ring. }
  rewrite E, Z0. match goal with |- (Qabs ?x <= _)%Q => setoid_replace x with (t * t * r)%Q by ring end. rewrite Qabs_Qmult. rewrite (Qabs_pos (t * t)) by nra. rewrite (Qmult_comm K), !(Qmult_comm (t * t)). apply Qmult_le_compat_r; [exact Hr|nra].
Qed.
(** C108: so a small enough step decreases the loss of the batch, unless the gradient vanishes. *)
Lemma k_C108_descent : forall B m k Y X ls, let g := fst (gradient B m Y ls X) in shaped k m ls -> smooth B ls X -> (0 < inner ls g g)%Q ->
  exists delta, (0 < delta /\ forall rate, 0 < rate -> rate <= delta -> mse B m Y (net (sgd_step B m None rate ls (X, Y)) X) < mse B m Y (net ls X))%Q.
Proof.
  intros B m k Y X ls g Sh Sm Pg. destruct (k_C108_gradient B m k Y X ls g Sh (gradient_length _ _ _ _ _) Sm) as (de & K & P & A). fold g in A. set (I0 := inner ls g g) in *.
  assert (PK : (0 <= K)%Q). { specialize (A de ltac:(rewrite Qabs_pos; lra)). pose proof (Qabs_nonneg (mse B m Y (net (descend None de ls g) X) - (mse B m Y (net ls X) - de * I0))). assert (0 < de * de)%Q by nra. destruct (Qlt_le_dec K 0); [|assumption]. assert (K * (de * de) < 0)%Q by nra. lra. }
  assert (Px : (0 < I0 / (2 * (K + 1)))%Q) by (apply Qlt_shift_div_l; lra).
  exists (if Qlt_le_dec de (I0 / (2 * (K + 1))) then de else I0 / (2 * (K + 1)))%Q. split; [destruct (Qlt_le_dec _ _); assumption|]. intros t Pt Ht.
  assert (H1 : (t <= de)%Q) by (destruct (Qlt_le_dec _ _); lra). assert (H2 : (t <= I0 / (2 * (K + 1)))%Q) by (destruct (Qlt_le_dec _ _); lra).
  specialize (A t ltac:(rewrite Qabs_pos; lra)). apply Qabs_Qle_condition in A. change (sgd_step B m None t ls (X, Y)) with (descend None t ls g).
  assert (H3 : (t * (2 * (K + 1)) <= I0)%Q). { apply (Qmult_le_compat_r _ _ (2 * (K + 1))) in H2; [|lra]. setoid_replace (I0 / (2 * (K + 1)) * (2 * (K + 1)))%Q with I0 in H2 by (field; lra). exact H2. }
  assert (H4 : (K * (t * t) < t * I0)%Q) by nra. lra.
Qed.
(** C108: a relu whose input rounds to the wrong side loses the whole gradient. *)
Lemma k_C108_gate_refuted : exists pr st xs zs, valid 1 pr /\ all_represent 1 65536 [(1, 1); (327680, 0)] [(1 # 131072)%Q; 5%Q] xs /\
  tideals [Mask 0; Gate 1 0] ([(1 # 131072)%Q; 5%Q], []) = ([(1 # 131072)%Q; 5%Q; 5%Q], [true]) /\
  fst (texec (pr := pr) 65536 16 (fun s => ([0], s)) (fun _ => 1%nat) (fun _ => 1%nat) Nat.sqrt LogReduction no_check [Mask 0; Gate 1 0] (xs, []) st) = Some zs /\ (qval (nth 2 (fst zs) nil_num) == 0)%Q.
Proof.
  exists alone, tt, [mkNum [0] 65536; mkNum [327680] 65536]. eexists. split; [exact alone_valid|]. split; [|split; [vm_compute; reflexivity|split; [vm_compute; reflexivity|vm_compute; reflexivity]]].
  split; [reflexivity|]. split; [reflexivity|]. intros [|[|i]] b Hb; [injection Hb as <-|injection Hb as <-|destruct i; discriminate].
  - split; [split; [reflexivity|split; [constructor; [unfold in64, H63; lia|constructor]|reflexivity]]|]. split; [reflexivity|]. split; [vm_compute; congruence|]. split; [vm_compute; congruence|vm_compute; reflexivity].
  - split; [split; [reflexivity|split; [constructor; [unfold in64, H63; lia|constructor]|reflexivity]]|]. split; [reflexivity|]. split; [vm_compute; congruence|]. split; [vm_compute; congruence|vm_compute; reflexivity].
Qed.

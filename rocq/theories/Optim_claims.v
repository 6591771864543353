(** Gradient steps: specification and proofs of C52. *)
Require Import ZArith QArith Qabs Qpower List Lia Lqa Bool.
From Verif Require Import Ring64 Sharing Sharing_proofs Encoder Arith Arith_proofs Beaver Beaver_proofs Trunc Provider Binary Binary_proofs Convert_proofs Compare Compare_proofs Compare_claims Maximum Maximum_proofs Maximum_claims P_Maximum Regular Regular_proofs Regular_num_proofs Regular_claims Optim.
Import ListNotations.
Open Scope Q_scope.

(** ** Specification *)
Definition sum_upto (n : nat) (f : nat -> Q) : Q := fold_right Qplus 0 (map f (seq 0 n)).
Definition qpow (x : Q) (n : nat) : Q := x ^ Z.of_nat n.
(** The velocity after gradients [d 0 .. d k]: the first enters with weight 1, the others with weight [1 - dampening], decayed by the momentum at every later step. *)
Definition velocity (o : options) (d : nat -> Q) (k : nat) : Q :=
  sum_upto (S k) (fun j => qpow (momentum o) (k - j) * (if Nat.eqb j 0 then 1 else 1 - dampening o) * d j).
Definition direction (o : options) (d : nat -> Q) (k : nat) : Q :=
  if Qeq_bool (momentum o) 0 then d k else if nesterov o then d k + momentum o * velocity o d k else velocity o d k.
(** all (options, parameter) pairs of an optimizer, and the gradients parameter [i] had *)
Definition entries (groups : list (options * list nat)) : list (options * nat) := flat_map (fun g => map (fun i => (fst g, i)) (snd g)) groups.
Definition present {T} (i : nat) (history : list (nat -> option T)) : list T := flat_map (fun grads => match grads i with Some g => [g] | None => [] end) history.
Definition fresh {T} (values : nat -> T) : store := (values, fun _ => None).

(** ** One parameter *)
Section One.
  Context {T : Type} (add sub : T -> T -> T) (smul : Q -> T -> T) (threshold : T -> T).
  Notation upd1 := (update add sub smul threshold).
  Definition follow (o : options) (s : T * option T) (gs : list T) : T * option T := fold_left (fun s g => upd1 o (fst s) (snd s) g) gs s.
  Lemma follow_app o s a b : follow o s (a ++ b) = follow o (follow o s a) b.
  Proof. apply fold_left_app. Qed.
  Definition at_ (i : nat) (s : @store T) : T * option T := (fst s i, snd s i).
  Definition opt {A} (o : option A) : list A := match o with Some a => [a] | None => [] end.

  Lemma put_same {A} (f : nat -> A) i v : put f i v i = v. Proof. unfold put. now rewrite Nat.eqb_refl. Qed.
  Lemma put_other {A} (f : nat -> A) i j v : j <> i -> put f i v j = f j. Proof. intros H. unfold put. apply Nat.eqb_neq in H. now rewrite H. Qed.
  Lemma step_param_here grads o s i : at_ i (step_param add sub smul threshold grads o s i) = follow o (at_ i s) (opt (grads i)).
  Proof. unfold step_param, at_. destruct (grads i) as [g|]; [|reflexivity]. cbn. destruct (upd1 o (fst s i) (snd s i) g) as [p b]. cbn. now rewrite !put_same. Qed.
  Lemma step_param_other grads o s i j : j <> i -> at_ j (step_param add sub smul threshold grads o s i) = at_ j s.
  Proof. intros H. unfold step_param, at_. destruct (grads i) as [g|]; [|reflexivity]. destruct (upd1 o (fst s i) (snd s i) g) as [p b]. cbn. now rewrite !put_other. Qed.
  Lemma step_flat groups grads : forall s, step add sub smul threshold groups grads s = fold_left (fun s e => step_param add sub smul threshold grads (fst e) s (snd e)) (entries groups) s.
  Proof.
    unfold step, entries. induction groups as [|[o l] groups IH]; intros s; [reflexivity|]. cbn [fold_left flat_map fst snd]. rewrite fold_left_app. rewrite <- IH. f_equal. unfold step_group. cbn [fst snd].
    revert s. induction l as [|i l IHl]; intros s; [reflexivity|]. cbn. apply IHl.
  Qed.
  Lemma step_absent grads i es : forall s, ~ In i (map snd es) -> at_ i (fold_left (fun s e => step_param add sub smul threshold grads (fst e) s (snd e)) es s) = at_ i s.
  Proof. induction es as [|e es IH]; intros s N; [reflexivity|]. cbn in *. rewrite IH by tauto. apply step_param_other. intuition. Qed.
  Lemma step_one grads i o es : In (o, i) es -> NoDup (map snd es) -> forall s, at_ i (fold_left (fun s e => step_param add sub smul threshold grads (fst e) s (snd e)) es s) = follow o (at_ i s) (opt (grads i)).
  Proof.
    induction es as [|e es IH]; intros I N s; [destruct I|]. cbn in N. inversion N; subst. cbn [fold_left]. destruct I as [->|I].
    - cbn [fst snd]. rewrite step_absent by assumption. apply step_param_here.
    - rewrite IH by assumption. rewrite step_param_other; [reflexivity|]. intros ->. apply H1. apply in_map_iff. now exists (o, snd e).
  Qed.
  Lemma steps_one groups i o history : In (o, i) (entries groups) -> NoDup (map snd (entries groups)) -> forall s, at_ i (steps add sub smul threshold groups history s) = follow o (at_ i s) (present i history).
  Proof.
    intros I N. unfold steps. induction history as [|grads history IH]; intros s; [reflexivity|]. cbn [fold_left present flat_map]. fold (present i history). rewrite IH, follow_app. f_equal. rewrite step_flat. rewrite (step_one grads i o); auto.
  Qed.
  Lemma steps_absent groups i history : ~ In i (map snd (entries groups)) -> forall s, at_ i (steps add sub smul threshold groups history s) = at_ i s.
  Proof. intros N. unfold steps. induction history as [|grads history IH]; intros s; [reflexivity|]. cbn [fold_left]. rewrite IH, step_flat. now apply step_absent. Qed.
End One.

(** ** Exact arithmetic: the closed form *)
Lemma firstn_snoc {A} (l : list A) k d : (k < length l)%nat -> firstn (S k) l = firstn k l ++ [nth k l d].
Proof. revert k. induction l as [|a l IH]; intros [|k] H; cbn in *; try lia; [reflexivity|]. now rewrite <- IH by lia. Qed.
Lemma sum_upto_S n f : sum_upto (S n) f == sum_upto n f + f n.
Proof. unfold sum_upto. rewrite seq_S, map_app. cbn [map]. rewrite Nat.add_0_l. generalize (map f (seq 0 n)). induction l as [|x l IH]; cbn; [ring|]. rewrite IH. ring. Qed.
Lemma sum_upto_ext n f g : (forall k, (k < n)%nat -> f k == g k) -> sum_upto n f == sum_upto n g.
Proof. induction n as [|n IH]; intros H; [reflexivity|]. rewrite !sum_upto_S, IH by (intros; apply H; lia). now rewrite (H n) by lia. Qed.
Lemma sum_upto_scale n c f : c * sum_upto n f == sum_upto n (fun k => c * f k).
Proof. induction n as [|n IH]; [cbn; ring|]. rewrite !sum_upto_S, <- IH. ring. Qed.
Lemma qpow_S x n : qpow x (S n) == x * qpow x n.
Proof. unfold qpow. rewrite Nat2Z.inj_succ. unfold Z.succ. destruct (Qeq_dec x 0) as [E|N]; [|rewrite Qpower_plus by exact N; ring].
  rewrite E at 2. rewrite Qmult_0_l. rewrite E. apply Qpower_0. lia. Qed.
Lemma velocity_S o d k : velocity o d (S k) == momentum o * velocity o d k + (1 - dampening o) * d (S k).
Proof.
  unfold velocity. rewrite (sum_upto_S (S k)). rewrite Nat.sub_diag. cbn [Nat.eqb]. rewrite sum_upto_scale. change (qpow (momentum o) 0) with 1. apply Qplus_comp; [|ring].
  apply sum_upto_ext. intros j Hj. replace (S k - j)%nat with (S (k - j)) by lia. rewrite qpow_S. ring.
Qed.
Lemma velocity_0 o d : velocity o d 0 == d 0%nat.
Proof. unfold velocity, sum_upto. cbn. unfold qpow. cbn. ring. Qed.
Lemma velocity_ext o d d' k : (forall j, (j <= k)%nat -> d j == d' j) -> velocity o d k == velocity o d' k.
Proof. intros H. unfold velocity. apply sum_upto_ext. intros j Hj. rewrite (H j) by lia. reflexivity. Qed.

Section Exact.
  Variable threshold : Q -> Q.
  Notation upd := (update Qplus Qminus Qmult threshold).
  Notation run := (follow Qplus Qminus Qmult threshold).
  (** parameter after the first [k] gradients, and the effective [k]-th gradient *)
  Definition param (o : options) (p0 : Q) (gs : list Q) (k : nat) : Q := fst (run o (p0, None) (firstn k gs)).
  Definition effective (o : options) (p0 : Q) (gs : list Q) (k : nat) : Q := threshold (nth k gs 0) + weight_decay o * param o p0 gs k.
  Lemma eff_update o p g : (if Qeq_bool (weight_decay o) 0 then threshold g else threshold g + weight_decay o * p) == threshold g + weight_decay o * p.
  Proof. destruct (Qeq_bool (weight_decay o) 0) eqn:E; [|reflexivity]. apply Qeq_bool_iff in E. rewrite E. ring. Qed.
  Lemma buffer_ok o p0 gs : Qeq_bool (momentum o) 0 = false -> forall k, (k < length gs)%nat -> exists b, snd (run o (p0, None) (firstn (S k) gs)) = Some b /\ b == velocity o (effective o p0 gs) k.
  Proof.
    intros M. induction k as [|k IH]; intros Hk.
    - rewrite (firstn_snoc gs 0 0) by lia. cbn [firstn app]. unfold follow. cbn [fold_left fst snd]. unfold update. rewrite M. cbn [snd]. eexists. split; [reflexivity|]. rewrite velocity_0, eff_update. reflexivity.
    - destruct IH as (b & Eb & Vb); [lia|]. rewrite (firstn_snoc gs (S k) 0) by lia. rewrite follow_app. unfold follow at 1. cbn [fold_left]. unfold update. rewrite M, Eb. cbn [snd]. eexists. split; [reflexivity|].
      rewrite velocity_S, Vb, eff_update. reflexivity.
  Qed.
  Lemma param_step o p0 gs k : (k < length gs)%nat -> param o p0 gs (S k) == param o p0 gs k - lr o * direction o (effective o p0 gs) k.
  Proof.
    intros Hk. unfold param at 1. rewrite (firstn_snoc gs k 0) by lia. rewrite follow_app. unfold follow at 1. cbn [fold_left]. unfold update, direction. fold (param o p0 gs k).
    destruct (Qeq_bool (momentum o) 0) eqn:M; cbn [fst]; [rewrite eff_update; reflexivity|].
    assert (B : match snd (run o (p0, None) (firstn k gs)) with None => if Qeq_bool (weight_decay o) 0 then threshold (nth k gs 0) else threshold (nth k gs 0) + weight_decay o * param o p0 gs k
       | Some b => momentum o * b + (1 - dampening o) * (if Qeq_bool (weight_decay o) 0 then threshold (nth k gs 0) else threshold (nth k gs 0) + weight_decay o * param o p0 gs k) end == velocity o (effective o p0 gs) k).
    { destruct k as [|k]; [rewrite velocity_0; cbn [firstn follow fold_left snd]; rewrite eff_update; reflexivity|]. destruct (buffer_ok o p0 gs M k) as (b & Eb & Vb); [lia|]. rewrite Eb, velocity_S, Vb, eff_update. reflexivity. }
    destruct (nesterov o); [rewrite eff_update|]; rewrite B; reflexivity.
  Qed.
End Exact.
Lemma k_C52_sgd threshold groups history values i o : In (o, i) (entries groups) -> NoDup (map snd (entries groups)) ->
  exists P d : nat -> Q, P 0%nat = values i /\ let gs := present i history in P (length gs) = fst (steps Qplus Qminus Qmult threshold groups history (fresh values)) i /\
    forall k, (k < length gs)%nat -> P (S k) == P k - lr o * direction o d k /\ d k == threshold (nth k gs 0) + weight_decay o * P k.
Proof.
  intros I N. set (gs := present i history). exists (param threshold o (values i) gs), (effective threshold o (values i) gs). split; [reflexivity|]. cbv zeta. split.
  - unfold param. rewrite firstn_all. change (fst (steps Qplus Qminus Qmult threshold groups history (fresh values)) i) with (fst (at_ i (steps Qplus Qminus Qmult threshold groups history (fresh values)))). rewrite (steps_one _ _ _ _ groups i o); auto.
  - intros k Hk. split; [now apply param_step|reflexivity].
Qed.

(** ** Inexact multiplications *)
Definition near (e a b : Q) : Prop := Qabs (a - b) <= e.
Lemma near_add e f a b c d : near e a b -> near f c d -> near (e + f) (a + c) (b + d).
Proof. unfold near. intros H K. setoid_replace (a + c - (b + d)) with ((a - b) + (c - d)) by ring. eapply Qle_trans; [apply Qabs_triangle|]. now apply Qplus_le_compat. Qed.
Lemma near_sub e f a b c d : near e a b -> near f c d -> near (e + f) (a - c) (b - d).
Proof. unfold near. intros H K. setoid_replace (a - c - (b - d)) with ((a - b) + (d - c)) by ring. eapply Qle_trans; [apply Qabs_triangle|]. apply Qplus_le_compat; [exact H|]. rewrite <- Qabs_opp. setoid_replace (- (d - c)) with (c - d) by ring. exact K. Qed.
Lemma near_weak e f a b : near e a b -> e <= f -> near f a b.
Proof. unfold near. intros H K. eapply Qle_trans; eassumption. Qed.
Lemma near_eq e a b a' b' : a == a' -> b == b' -> near e a b -> near e a' b'.
Proof. unfold near. intros -> ->. auto. Qed.
(** a multiplication within [eps] of [c * x], and [x] within [e] of [y] *)
Lemma near_mul eps e c r x y : 0 <= c -> near eps r (c * x) -> near e x y -> near (eps + c * e) r (c * y).
Proof.
  unfold near. intros Hc H K. setoid_replace (r - c * y) with ((r - c * x) + c * (x - y)) by ring. eapply Qle_trans; [apply Qabs_triangle|]. apply Qplus_le_compat; [exact H|].
  rewrite Qabs_Qmult, (Qabs_pos c Hc). setoid_replace (c * e) with (e * c) by ring. setoid_replace (c * Qabs (x - y)) with (Qabs (x - y) * c) by ring. now apply Qmult_le_compat_r.
Qed.
Lemma near_refl a : near 0 a a.
Proof. unfold near. setoid_replace (a - a) with 0 by ring. apply Qle_refl. Qed.

Section Error.
  Context {T : Type} (add sub : T -> T -> T) (threshold : T -> T) (thresholdQ : Q -> Q) (val : T -> Q) (eps : Q).
  Hypothesis Heps : 0 <= eps.
  Hypothesis val_add : forall a b, val (add a b) == val a + val b.
  Hypothesis val_sub : forall a b, val (sub a b) == val a - val b.
  Hypothesis val_threshold : forall a, val (threshold a) == thresholdQ (val a).
  Definition accurate (smul : Q -> T -> T) : Prop := forall c x, near eps (val (smul c x)) (c * val x).
  (** every step may use its own multiplication *)
  Definition follow_inexact (o : options) (s : T * option T) (h : list ((Q -> T -> T) * T)) : T * option T := fold_left (fun s e => update add sub (fst e) threshold o (fst s) (snd s) (snd e)) h s.
  Definition ok_buf (k : nat) (b : option T) (b' : option Q) : Prop :=
    match b, b' with None, None => k = 0%nat | Some b, Some b' => k <> 0%nat /\ near (2 * eps * inject_Z (Z.of_nat k - 1)) (val b) b' | _, _ => False end.
  Definition kq (k : nat) : Q := inject_Z (Z.of_nat k).
  Lemma kq_S k : kq (S k) == kq k + 1.
  Proof. unfold kq. rewrite Nat2Z.inj_succ. unfold Z.succ. now rewrite inject_Z_plus. Qed.
  Lemma kq_pos k : 0 <= kq k.
  Proof. unfold kq. change 0 with (inject_Z 0). rewrite <- Zle_Qle. lia. Qed.

  Lemma inexact_ok o h p0 : weight_decay o == 0 -> 0 <= lr o -> 0 <= momentum o <= 1 -> 0 <= dampening o <= 1 -> Forall (fun e => accurate (fst e)) h ->
    let s := follow_inexact o (p0, None) h in let s' := follow Qplus Qminus Qmult thresholdQ o (val p0, None) (map (fun e => val (snd e)) h) in
    near (eps * kq (length h) * (1 + lr o * kq (length h))) (val (fst s)) (fst s') /\ (Qeq_bool (momentum o) 0 = false -> ok_buf (length h) (snd s) (snd s')).
  Proof using Heps val_add val_sub val_threshold.
    intros W L M Dm. apply Qeq_bool_iff in W. induction h as [|[sm g] h IH] using rev_ind; intros F.
    - cbn. split; [|reflexivity]. eapply near_weak; [apply near_refl|]. unfold kq. cbn. setoid_replace (eps * inject_Z 0 * (1 + lr o * inject_Z 0)) with 0 by (change (inject_Z 0) with 0; ring). apply Qle_refl.
    - apply Forall_app in F as [F Fl]. inversion Fl; subst. cbn [fst] in H1. clear H2 Fl. rename H1 into A. specialize (IH F). cbv zeta in *. unfold follow_inexact in *. rewrite map_app, follow_app, fold_left_app. cbn [map fold_left fst snd] in *.
      rewrite app_length. cbn [length]. rewrite Nat.add_1_r. set (s := fold_left _ h (p0, None)) in *. set (s' := follow _ _ _ _ o (val p0, None) (map _ h)) in *. clearbody s s'. destruct IH as [Ip Ib]. change (follow Qplus Qminus Qmult thresholdQ o s' [val g]) with (update Qplus Qminus Qmult thresholdQ o (fst s') (snd s') (val g)). unfold update. rewrite W.
      set (k := length h) in *. clearbody k. pose proof (kq_pos k) as Kp. assert (Kt : near 0 (val (threshold g)) (thresholdQ (val g))). { eapply near_eq; [symmetry; apply val_threshold|reflexivity|apply near_refl]. }
      assert (Fin : forall d d' e, near e (val d) d' -> e <= 2 * eps * kq k + eps -> near (eps * kq (S k) * (1 + lr o * kq (S k))) (val (sub (fst s) (sm (lr o) d))) (fst s' - lr o * d')).
      { intros d d' e Hd He. eapply near_eq; [symmetry; apply val_sub|reflexivity|]. eapply near_weak; [apply near_sub; [exact Ip|eapply near_mul; [exact L|apply A|exact Hd]]|].
        rewrite kq_S. setoid_replace (eps * (kq k + 1) * (1 + lr o * (kq k + 1))) with (eps * kq k * (1 + lr o * kq k) + (eps + lr o * (2 * eps * kq k + eps))) by ring. apply Qplus_le_r. apply Qplus_le_r.
        setoid_replace (lr o * e) with (e * lr o) by ring. setoid_replace (lr o * (2 * eps * kq k + eps)) with ((2 * eps * kq k + eps) * lr o) by ring. now apply Qmult_le_compat_r. }
      assert (Ek : 0 <= 2 * eps * kq k) by (apply Qmult_le_0_compat; [|exact Kp]; apply Qmult_le_0_compat; [discriminate|exact Heps]).
      destruct (Qeq_bool (momentum o) 0) eqn:M0; cbn [fst snd]; [split; [|discriminate]; eapply Fin; [exact Kt|lra]|].
      specialize (Ib eq_refl).
      assert (B : near (2 * eps * kq k) (val match snd s with None => threshold g | Some b => add (sm (momentum o) b) (sm (1 - dampening o) (threshold g)) end)
         match snd s' with None => thresholdQ (val g) | Some b => momentum o * b + (1 - dampening o) * thresholdQ (val g) end).
      { unfold ok_buf in Ib. destruct (snd s) as [b|], (snd s') as [b'|]; try contradiction; [|eapply near_weak; [exact Kt|exact Ek]]. destruct Ib as [Nk Ib].
        eapply near_eq; [symmetry; apply val_add|reflexivity|]. eapply near_weak; [apply near_add; [eapply near_mul; [apply M|apply A|exact Ib]|eapply near_mul; [|apply A|exact Kt]; lra]|].
        assert (Ek' : inject_Z (Z.of_nat k - 1) == kq k - 1) by (unfold kq, Z.sub; rewrite inject_Z_plus; reflexivity). rewrite Ek'. assert (0 <= kq k - 1). { rewrite <- Ek'. change 0 with (inject_Z 0). rewrite <- Zle_Qle. lia. }
        assert (momentum o * (2 * eps * (kq k - 1)) <= 1 * (2 * eps * (kq k - 1))). { apply Qmult_le_compat_r; [apply M|]. apply Qmult_le_0_compat; [|assumption]. apply Qmult_le_0_compat; [discriminate|exact Heps]. } lra. }
      split.
      + destruct (nesterov o); [|eapply Fin; [exact B|lra]]. eapply Fin; [eapply near_eq; [symmetry; apply val_add|reflexivity|]; apply near_add; [exact Kt|eapply near_mul; [apply M|apply A|exact B]]|].
        assert (momentum o * (2 * eps * kq k) <= 1 * (2 * eps * kq k)) by (apply Qmult_le_compat_r; [apply M|exact Ek]). lra.
      + intros _. split; [lia|]. eapply near_weak; [exact B|]. assert (Ek' : inject_Z (Z.of_nat (S k) - 1) == kq k). { unfold kq. replace (Z.of_nat (S k) - 1)%Z with (Z.of_nat k) by lia. reflexivity. } rewrite Ek'. apply Qle_refl.
  Qed.
End Error.

(** ** Thresholding encrypted gradients *)
Section Thr.
  Open Scope Z_scope.
  Variables (n : nat) (pr : provider) (D : Z).
  Hypothesis Hn : (0 < n)%nat.
  Hypothesis HV : valid n pr.
  Hypothesis HD : 1 < D.
  Variables (E t : Z).
  Hypothesis HE : 1 <= E < 2 ^ 60.
  Hypothesis Ht : 0 <= t * t * D < 2 ^ 61.
  Lemma wrap_square_share v s x : s = D -> nshare n v s x -> yo false (squarev (pr := pr) (within E) x) (fun z => exists q, nshare n q s z /\ Z.abs (q * s - wrap (v * v)) < E * s).
  Proof using Hn HV HD HE.
    intros -> [Hx Sx]. unfold squarev. eapply (yo_lift _ _ _ (fun t => let '(r, r2) := t in _)); [intros st; exact (v_square n pr HV st)|]. intros [r r2] Hr. rewrite Sx.
    eapply yo_bind; [eapply (divv_acc n Hn pr HV E false ltac:(lia) ltac:(discriminate) (wrap (v * v))); [lia|apply wrap_in64|cbn [n_sh]]|].
    - pose proof (square_share n Hn r r2 _ v Hr Hx) as (A & B & C). split; [exact A|]. split; [exact B|]. rewrite C. symmetry. apply wrap_eqm.
    - intros z (q & [Hq _] & _ & Bq). apply yo_ok. exists q. split; [split; [exact Hq|reflexivity]|exact Bq].
  Qed.
  Lemma threshold_ok v x : nshare n v D x ->
    yo false (thresholded (pr := pr) D (within E) t x) (fun z => exists q, Z.abs (q * D - wrap (v * v)) < E * D /\ nshare n (if q <? t * t * D then v else 0) D z).
  Proof using Hn HV HD HE Ht.
    intros Hx. unfold thresholded. eapply yo_bind; [apply (wrap_square_share v D x eq_refl Hx)|]. intros q (q0 & Hq & Bq). cbv beta.
    assert (Iq : in64 (q0 - t * t * D)). { pose proof (wrap_in64 (v * v)) as I. unfold in64, H63 in *. assert (Z.abs q0 <= 2 ^ 62 + 2 ^ 60) by (clear -Bq I HE HD; nia). lia. }
    eapply yo_lift; [unfold n_lt; apply (ltz_ok n Hn pr HV D (q0 - t * t * D) D); exact (sub_int_ok n Hn q0 D (t * t) q Hq)|]. intros b Hb. rewrite (wrap_id _ Iq), (ratio_D n Hn D ltac:(lia)), Z.mul_1_r in Hb.
    assert (Hm : forall y w, nshare n w 1 y -> yo false (mulv (pr := pr) (within E) x y) (nshare n (v * w) D)).
    { intros y w [Hy Sy]. destruct Hx as [Hx Sx]. unfold mulv. eapply (yo_lift _ _ _ (fun t => let '(a, b, c) := t in _)); [intros st; exact (v_mul n pr HV st)|]. intros [[a b'] c] Ht'. rewrite Sx, Sy. cbv zeta.
      unfold mul_rescale. assert (E1 : (1 <? D) = true) by (apply Z.ltb_lt; lia). rewrite E1. cbn [Z.ltb Z.compare Pos.compare Pos.compare_cont andb]. apply yo_ok. split; [|reflexivity]. cbn [n_sh]. eapply (mul1_share n Hn); eassumption. }
    eapply yo_weaken; [apply (Hm b _ Hb)|]. intros z Hz. exists q0. split; [exact Bq|]. destruct (Z.ltb_spec (q0 - t * t * D) 0), (Z.ltb_spec q0 (t * t * D)); try lia; [rewrite Z.mul_1_r in Hz|rewrite Z.mul_0_r in Hz]; exact Hz.
  Qed.
  Lemma thresholded_weak chk x : weaker (thresholded (pr := pr) D chk t x) (thresholded (pr := pr) D no_check t x).
  Proof. unfold thresholded. apply weaker_bind; [apply squarev_weak|]. intros q. apply weaker_bind; [apply weaker_refl|]. intros b. apply mulv_weak. Qed.
  Lemma scale_square v k m : 0 <= k -> ((inject_Z v / inject_Z D) * (inject_Z v / inject_Z D) + ulps k D <= inject_Z m)%Q -> v * v + k * D <= m * (D * D).
  Proof using HD Hn.
    intros Hk H. rewrite Zle_Qle. rewrite inject_Z_plus, !inject_Z_mult.
    setoid_replace (inject_Z v * inject_Z v + inject_Z k * inject_Z D)%Q with (((inject_Z v / inject_Z D) * (inject_Z v / inject_Z D) + ulps k D) * (inject_Z D * inject_Z D))%Q by (unfold ulps; field; apply injZ_nz; lia).
    apply Qmult_le_compat_r; [exact H|]. rewrite <- inject_Z_mult. change 0%Q with (inject_Z 0). rewrite <- Zle_Qle. nia.
  Qed.
  Lemma scale_square' v k m : 0 <= k -> (inject_Z m + ulps k D <= (inject_Z v / inject_Z D) * (inject_Z v / inject_Z D))%Q -> m * (D * D) + k * D <= v * v.
  Proof using HD Hn.
    intros Hk H. rewrite Zle_Qle. rewrite inject_Z_plus, !inject_Z_mult.
    setoid_replace (inject_Z v * inject_Z v)%Q with (((inject_Z v / inject_Z D) * (inject_Z v / inject_Z D)) * (inject_Z D * inject_Z D))%Q by (field; apply injZ_nz; lia).
    setoid_replace (inject_Z m * (inject_Z D * inject_Z D) + inject_Z k * inject_Z D)%Q with ((inject_Z m + ulps k D) * (inject_Z D * inject_Z D))%Q by (unfold ulps; field; apply injZ_nz; lia).
    apply Qmult_le_compat_r; [exact H|]. rewrite <- inject_Z_mult. change 0%Q with (inject_Z 0). rewrite <- Zle_Qle. nia.
  Qed.
  Lemma k_C52_threshold g st z : sharing n g -> n_sc g = D -> fst (thresholded (pr := pr) D (within E) t g st) = Some z ->
    fst (thresholded (pr := pr) D no_check t g st) = Some z /\ n_sc z = D /\
    (open_a (n_sh g) * open_a (n_sh g) < H63 ->
      ((qval g * qval g + ulps E D <= inject_Z (t * t))%Q -> open_a (n_sh z) = open_a (n_sh g)) /\
      ((inject_Z (t * t) + ulps E D <= qval g * qval g)%Q -> open_a (n_sh z) = 0)) /\
    ((2 ^ 32 | open_a (n_sh g)) -> (ulps E D <= inject_Z (t * t))%Q -> open_a (n_sh z) = open_a (n_sh g)).
  Proof using Hn HV HD HE Ht.
    intros Sg Sc R. split; [exact (weaker_fst _ _ _ _ (thresholded_weak (within E) g) R)|]. pose proof (sharing_nshare n D g Sg Sc) as Hg. set (v := open_a (n_sh g)) in *.
    pose proof (yo_some _ _ _ _ _ (threshold_ok v g Hg) R) as (q & Bq & Hz). split; [apply Hz|].
    assert (Ig : in64 v) by apply open_a_in64. assert (Qg : qval g = (inject_Z v / inject_Z D)%Q) by (unfold qval; fold v; now rewrite Sc). rewrite Qg.
    assert (Pos : forall c, c = v \/ c = 0 -> nshare n c D z -> open_a (n_sh z) = c). { intros c Hc H. apply (nshare_sharing n c D z); [lia|exact H|]. destruct Hc as [->| ->]; [exact Ig|]. unfold in64, H63. lia. }
    split; [intros S; split; intros H|intros Hd H].
    - apply scale_square in H; [|lia]. assert (Ew : wrap (v * v) = v * v) by (apply wrap_id; unfold in64; pose proof (Z.square_nonneg v); unfold H63 in *; lia). rewrite Ew in Bq. assert (L : (q <? t * t * D) = true) by (apply Z.ltb_lt; nia). rewrite L in Hz. apply Pos; auto.
    - apply scale_square' in H; [|lia]. assert (Ew : wrap (v * v) = v * v) by (apply wrap_id; unfold in64; pose proof (Z.square_nonneg v); unfold H63 in *; lia). rewrite Ew in Bq. assert (L : (q <? t * t * D) = false) by (apply Z.ltb_ge; nia). rewrite L in Hz. apply Pos; auto.
    - assert (Ew : wrap (v * v) = 0). { destruct Hd as [u Hu]. change 0 with (wrap 0). apply eqm_wrap_eq. rewrite Hu. replace (u * 2 ^ 32 * (u * 2 ^ 32)) with (0 + (u * u) * 2 ^ 64) by ring. apply eqm_iff. exists (u * u). unfold M64. ring. } rewrite Ew, Z.sub_0_r in Bq.
      assert (L : (q <? t * t * D) = true). { apply Z.ltb_lt. assert (E * D <= t * t * (D * D)). { rewrite <- (Z.add_0_l (E * D)). change 0 with (0 * 0). apply scale_square; [lia|]. eapply Qle_trans; [|exact H]. setoid_replace (inject_Z 0 / inject_Z D)%Q with 0%Q by (unfold Qdiv; ring). rewrite Qmult_0_l, Qplus_0_l. apply Qle_refl. } nia. }
      rewrite L in Hz. apply Pos; auto.
  Qed.
End Thr.

(** ** update_parameters *)
Fixpoint times_ {A} (n : nat) (f : A -> A) (a : A) : A := match n with O => a | S n => f (times_ n f a) end.
Lemma k_C52_update_encrypted threshold rate m p g : exists p', times_ m (update_parameter Qminus Qmult threshold true true rate) (p, Some g) = (p', Some g) /\ p' == p - inject_Z (Z.of_nat m) * rate * threshold g.
Proof.
  induction m as [|m (p' & E & V)]; [exists p; split; [reflexivity|]; change (inject_Z (Z.of_nat 0)) with 0; ring|]. cbn [times_]. rewrite E. unfold update_parameter. cbn [snd fst andb]. eexists. split; [reflexivity|].
  rewrite V, Nat2Z.inj_succ. unfold Z.succ. rewrite inject_Z_plus. change (inject_Z 1) with 1. ring.
Qed.
Lemma k_C52_update_plain threshold encrypted has_threshold rate m p g : encrypted && has_threshold = false ->
  exists p' g', times_ m (update_parameter Qminus Qmult threshold encrypted has_threshold rate) (p, Some g) = (p', Some g') /\ g' == qpow rate m * g /\ p' == p - sum_upto m (fun j => qpow rate (S j)) * g.
Proof.
  intros H. induction m as [|m (p' & g' & E & Vg & V)]; [exists p, g; split; [reflexivity|]; split; [unfold qpow; cbn; ring|unfold sum_upto; cbn; ring]|]. cbn [times_]. rewrite E. unfold update_parameter. cbn [snd fst]. rewrite H.
  eexists _, _. split; [reflexivity|]. rewrite sum_upto_S, !qpow_S, Vg, V. split; ring.
Qed.

(** C52: which options the constructor accepts. *)
Lemma k_C52_accepted : forall o, accepted o = true <-> (0 <= lr o /\ 0 <= momentum o /\ 0 <= weight_decay o /\ (nesterov o = true -> 0 < momentum o /\ dampening o == 0))%Q.
Proof.
  intros o. unfold accepted. rewrite !andb_true_iff, !Qle_bool_iff, negb_true_iff, andb_false_iff, orb_false_iff, negb_false_iff, Qeq_bool_iff. split.
  - intros [[[A B] C] D]. split; [exact A|]. split; [exact B|]. split; [exact C|]. intros N. destruct D as [D|[D1 D2]]; [congruence|]. split; [|exact D2]. apply Qnot_le_lt. intros H. apply Qle_bool_iff in H. congruence.
  - intros (A & B & C & D). split; [split; [split|]; assumption|]. destruct (nesterov o) eqn:N; [right|left; reflexivity]. destruct (D eq_refl) as [M H]. split; [|exact H]. apply not_true_is_false. intros K. apply Qle_bool_iff in K. exact (Qlt_not_le _ _ M K).
Qed.

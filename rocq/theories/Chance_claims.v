(** Proofs of C95: how likely a truncation, and a program of encrypted operations, goes wrong. *)
Require Import ZArith QArith Qabs List Lia Bool FinFun.
From Verif Require Import Ring64 Encoder Arith Arith_proofs Beaver Trunc Trunc_proofs Provider Binary Binary_proofs Convert_proofs Compare Compare_proofs Compare_claims Maximum Maximum_proofs Maximum_claims Regular Regular_proofs Regular_num_proofs Regular_claims Program Program_claims Chance.
Import ListNotations.
Open Scope Z_scope.

(** ** Counting tapes *)
Definition tape (k : nat) (t : list Z) : Prop := length t = k /\ Forall drawn t.
(** Of the [choices ^ k] tapes of [k] draws, at most the fraction [c / choices] are [bad]: a list of so many tapes contains all of them. *)
Definition few (k : nat) (c : Z) (bad : list Z -> Prop) : Prop :=
  exists W, Z.of_nat (length W) * choices <= c * choices ^ Z.of_nat k /\ forall t, tape k t -> bad t -> In t W.

Lemma choices_pos : 0 < choices. Proof. reflexivity. Qed.
Lemma pow_choices k : 0 < choices ^ Z.of_nat k. Proof. apply Z.pow_pos_nonneg; [reflexivity|lia]. Qed.

Lemma interval lo n : 0 <= n -> exists L, Z.of_nat (length L) = n /\ NoDup L /\ forall v, In v L <-> lo <= v < lo + n.
Proof.
  intros Hn. exists (map (fun i => lo + Z.of_nat i) (seq 0 (Z.to_nat n))). split; [|split].
  - rewrite map_length, seq_length. lia.
  - apply FinFun.Injective_map_NoDup; [intros a b; lia|apply seq_NoDup].
  - intros v. rewrite in_map_iff. split.
    + intros (i & <- & H). apply in_seq in H. lia.
    + intros H. exists (Z.to_nat (v - lo)). split; [lia|]. apply in_seq. lia.
Qed.
Lemma draws_list : exists L, Z.of_nat (length L) = choices /\ NoDup L /\ forall v, In v L <-> drawn v.
Proof.
  destruct (interval (- H63) choices) as (L & A & N & B); [pose proof choices_pos; lia|]. exists L. split; [exact A|]. split; [exact N|].
  intros v. rewrite B. unfold drawn, choices, M64, H63. lia.
Qed.
Lemma length_flat_map {A B} (f : A -> list B) l m : (forall a, In a l -> length (f a) = m) -> length (flat_map f l) = (length l * m)%nat.
Proof. induction l as [|a l IH]; intros H; [reflexivity|]. cbn [flat_map length]. rewrite app_length, (H a) by now left. rewrite IH by (intros b Hb; apply H; now right). reflexivity. Qed.
Lemma NoDup_both {A} (a b : list A) : NoDup a -> NoDup b -> (forall x, In x a -> ~ In x b) -> NoDup (a ++ b).
Proof.
  induction a as [|x a IH]; intros Ha Hb D; [exact Hb|]. inversion Ha as [|? ? N1 N2]; subst. cbn [app]. constructor.
  - rewrite in_app_iff. intros [H|H]; [contradiction|]. apply (D x); [now left|exact H].
  - apply IH; [assumption|assumption|]. intros y Hy. apply D. now right.
Qed.
Lemma tapes_list k : exists L, Z.of_nat (length L) = choices ^ Z.of_nat k /\ NoDup L /\ forall t, In t L <-> tape k t.
Proof.
  induction k as [|k (L & A & N & B)].
  - exists [[]]. split; [reflexivity|]. split; [constructor; [intros []|constructor]|]. intros t. split.
    + intros [<-|[]]. split; [reflexivity|constructor].
    + intros [H _]. destruct t; [now left|discriminate].
  - destruct draws_list as (D & DA & DN & DB). exists (flat_map (fun u => map (cons u) L) D). split; [|split].
    + rewrite (length_flat_map _ _ (length L)) by (intros; apply map_length). rewrite Nat2Z.inj_mul, DA, A, Nat2Z.inj_succ, Z.pow_succ_r by lia. reflexivity.
    + clear DA DB. induction D as [|u D IH]; [constructor|]. inversion DN as [|? ? Nu ND]; subst. cbn [flat_map]. apply NoDup_both.
      * apply FinFun.Injective_map_NoDup; [intros a b E; now injection E|exact N].
      * exact (IH ND).
      * intros t H1 H2. apply in_map_iff in H1. destruct H1 as (a & <- & _). apply in_flat_map in H2. destruct H2 as (v & Hv & H2). apply in_map_iff in H2. destruct H2 as (b & E & _). injection E as -> _. contradiction.
    + intros t. rewrite in_flat_map. split.
      * intros (u & Hu & Ht). apply in_map_iff in Ht. destruct Ht as (t' & <- & Ht). apply B in Ht. apply DB in Hu. destruct Ht as [L1 F1]. split; [cbn; now rewrite L1|now constructor].
      * intros [L1 F1]. destruct t as [|u t]; [discriminate|]. inversion F1; subst. exists u. split; [now apply DB|]. apply in_map. apply B. split; [cbn in L1; lia|assumption].
Qed.

Lemma few_none k bad : (forall t, tape k t -> ~ bad t) -> few k 0 bad.
Proof. intros H. exists []. split; [cbn; lia|]. intros t Ht Hb. exact (H t Ht Hb). Qed.
Lemma few_le k c c' bad : few k c bad -> c <= c' -> few k c' bad.
Proof. intros (W & A & B) H. exists W. split; [|exact B]. pose proof (pow_choices k). nia. Qed.
Lemma few_sub k c (bad bad' : list Z -> Prop) : few k c bad -> (forall t, tape k t -> bad' t -> bad t) -> few k c bad'.
Proof. intros (W & A & B) H. exists W. split; [exact A|]. intros t Ht Hb. apply B; auto. Qed.
Lemma few_or k c c' bad bad' : few k c bad -> few k c' bad' -> few k (c + c') (fun t => bad t \/ bad' t).
Proof.
  intros (W & A & B) (W' & A' & B'). exists (W ++ W'). split; [rewrite app_length, Nat2Z.inj_add; lia|].
  intros t Ht [H|H]; apply in_or_app; [left; now apply B|right; now apply B'].
Qed.
(** draws in sequence: the first ones bad, or the later ones bad after them *)
Lemma few_app k c k' c' bad1 (bad2 : list Z -> list Z -> Prop) : 0 <= c' -> few k c bad1 ->
  (forall t, tape k t -> bad1 t \/ few k' c' (bad2 t)) ->
  few (k + k') (c + c') (fun tt => bad1 (firstn k tt) \/ bad2 (firstn k tt) (skipn k tt)).
Proof.
  intros Hc (W1 & A1 & B1) H2. destruct (tapes_list k) as (T & TA & _ & TB). destruct (tapes_list k') as (T' & TA' & _ & TB').
  assert (exists W2, Z.of_nat (length W2) * choices <= Z.of_nat (length T) * (c' * choices ^ Z.of_nat k') /\
    forall t t', In t T -> tape k' t' -> bad2 t t' -> bad1 t \/ In (t ++ t') W2) as (W2 & A2 & B2).
  { assert (forall t, In t T -> bad1 t \/ few k' c' (bad2 t)) as H by (intros t Ht; apply H2, TB, Ht). clear - H Hc. induction T as [|t T IH].
    - exists []. split; [cbn; lia|]. intros t t' [].
    - destruct IH as (W2 & A2 & B2); [intros; apply H; now right|]. destruct (H t (or_introl eq_refl)) as [Hb|(W & A & B)].
      + exists W2. split; [cbn [length]; rewrite Nat2Z.inj_succ; pose proof (pow_choices k'); nia|]. intros u t' [<-|Hu] Ht' Hb'; [now left|eauto].
      + exists (map (app t) W ++ W2). split; [rewrite app_length, map_length, Nat2Z.inj_add; cbn [length]; rewrite Nat2Z.inj_succ; lia|].
        intros u t' [<-|Hu] Ht' Hb'; [right; apply in_or_app; left; apply in_map; now apply B|]. destruct (B2 u t' Hu Ht' Hb'); [now left|right; apply in_or_app; now right]. }
  exists (flat_map (fun t => map (app t) T') W1 ++ W2). split.
  - rewrite app_length, (length_flat_map _ _ (length T')) by (intros; apply map_length). rewrite Nat2Z.inj_add, Nat2Z.inj_mul, TA'. rewrite TA in A2.
    rewrite Nat2Z.inj_add, Z.pow_add_r by lia. pose proof (pow_choices k'). nia.
  - intros tt [L F] Hb. assert (tape k (firstn k tt)) as H1.
    { split; [rewrite firstn_length; lia|]. rewrite <- (firstn_skipn k tt) in F. now apply Forall_app in F. }
    assert (tape k' (skipn k tt)) as H3.
    { split; [rewrite skipn_length; lia|]. rewrite <- (firstn_skipn k tt) in F. now apply Forall_app in F. }
    assert (bad1 (firstn k tt) -> In tt (flat_map (fun t => map (app t) T') W1 ++ W2)) as G1.
    { intros G. apply in_or_app. left. apply in_flat_map. exists (firstn k tt). split; [now apply B1|]. apply in_map_iff. exists (skipn k tt). split; [apply firstn_skipn|now apply TB']. }
    destruct Hb as [Hb|Hb]; [exact (G1 Hb)|]. destruct (B2 (firstn k tt) (skipn k tt)) as [G|G]; [now apply TB|assumption|assumption|exact (G1 G)|].
    rewrite firstn_skipn in G. apply in_or_app. now right.
Qed.
(** one draw *)
Lemma few_one B lo K (P : Z -> Prop) : 0 <= B -> (forall w, P w -> lo <= w < lo + B) -> few 1 B (fun t => P (wrap (zsum t + K))).
Proof.
  intros HB HP. destruct (interval lo B HB) as (L & A & _ & C). exists (map (fun w => [wrap (w - K)]) L). split.
  - rewrite map_length, A. change (Z.of_nat 1) with 1. rewrite Z.pow_1_r. lia.
  - intros t [H F] Hb. destruct t as [|u [|? ?]]; try discriminate H. inversion F as [|? ? Hu _]; subst. apply in_map_iff. cbn [zsum fold_right] in *.
    exists (wrap (u + 0 + K)). split; [|apply C, HP, Hb]. f_equal. apply wrap_unique; [unfold drawn, in64 in *; lia|]. rewrite wrap_eqm. apply eqm_refl_eq. lia.
Qed.
(** the sum of several draws *)
Lemma few_sum B lo (P : Z -> Prop) k : 0 <= B -> (forall w, P w -> lo <= w < lo + B) -> forall K, few (S k) B (fun t => P (wrap (zsum t + K))).
Proof.
  intros HB HP. induction k as [|k IH]; intros K; [now apply (few_one B lo)|].
  eapply few_sub; [apply (few_le _ (0 + B)); [apply (few_app 1 0 (S k) B (fun _ => False) (fun t t' => P (wrap (zsum t' + (zsum t + K)))) HB); [apply few_none; auto|]|lia]|].
  - intros t Ht. right. apply IH.
  - intros t [L F] Hb. right. destruct t as [|u t]; [discriminate|]. cbn [firstn skipn]. replace (zsum t + (zsum [u] + K)) with (zsum (u :: t) + K); [exact Hb|]. cbn [zsum fold_right]. fold (zsum t). lia.
Qed.
(** some draw hits the value excluded for it *)
Lemma few_hit (ks : list Z) : few (length ks) (Z.of_nat (length ks)) (fun t => In (- H63) (zipw wadd ks t)).
Proof.
  induction ks as [|k ks IH]; [apply few_none; intros t _ []|]. cbn [length].
  eapply few_sub; [apply (few_le _ (1 + Z.of_nat (length ks))); [apply (few_app 1 1 (length ks) (Z.of_nat (length ks)) (fun t => wrap (zsum t + k) = - H63) (fun _ t' => In (- H63) (zipw wadd ks t'))); [lia| |]|lia]|].
  - apply (few_one 1 (- H63) k (fun w => w = - H63)); lia.
  - intros t Ht. right. exact IH.
  - intros t [L F] Hb. destruct t as [|u t]; [discriminate|]. rewrite zipw_cons in Hb. cbn [firstn skipn]. destruct Hb as [Hb|Hb]; [left|right; exact Hb].
    rewrite <- Hb. unfold wadd. f_equal. cbn [zsum fold_right]. lia.
Qed.

(** ** Runs that read a tape *)
(** reads exactly [k] draws *)
Definition moves {S A} (k : nat) (m : S * list Z -> A * (S * list Z)) : Prop :=
  forall s t, length t = k -> exists a s', forall t', m (s, t ++ t') = (a, (s', t')).
(** reads exactly [k] draws unless it raises, and few of them make it raise *)
Definition risky {S A} (k : nat) (c : Z) (m : S * list Z -> option A * (S * list Z)) : Prop :=
  forall s, few k c (fun t => fst (m (s, t)) = None) /\
    forall t, tape k t -> (forall t', fst (m (s, t ++ t')) = None) \/ exists a s', forall t', m (s, t ++ t') = (Some a, (s', t')).

Section Tape.
  Variable S0 : Type.
  Notation st := (S0 * list Z)%type.
  Variables (na nm : st -> (list Z * list Z * list Z) * st) (ns nw nb : st -> (list Z * list Z) * st) (nz nbz : st -> list Z * st).
  Notation P := (mkProvider st na nm ns nw nb nz nbz).

  Lemma moves_ret {A} (a : A) : moves 0 (ret (pr := P) a).
  Proof. intros s t H. destruct t; [|discriminate]. exists a, s. reflexivity. Qed.
  Lemma moves_bindQ {A B} k k' (m : run P A) (f : A -> run P B) (Q : A -> Prop) : yields m Q -> moves k m -> (forall a, Q a -> moves k' (f a)) -> moves (k + k') (bind m f).
  Proof.
    intros HQ H1 H2 s t L. destruct (H1 s (firstn k t)) as (a & s1 & E1); [rewrite firstn_length; lia|].
    destruct (H2 a) with (s := s1) (t := skipn k t) as (b & s2 & E2); [specialize (HQ (s, firstn k t ++ [])); rewrite E1 in HQ; exact HQ|rewrite skipn_length; lia|].
    exists b, s2. intros t'. unfold bind. rewrite <- (firstn_skipn k t) at 1. rewrite <- app_assoc, E1. apply E2.
  Qed.
  Lemma yields_true {A} (m : run P A) : yields m (fun _ => True). Proof. intros s. exact I. Qed.
  Lemma moves_bind {A B} k k' (m : run P A) (f : A -> run P B) : moves k m -> (forall a, moves k' (f a)) -> moves (k + k') (bind m f).
  Proof. intros H1 H2. apply (moves_bindQ k k' m f (fun _ => True)); [apply yields_true|exact H1|auto]. Qed.
  Lemma still_bind {A B} (m : run P A) (f : A -> run P B) : moves 0 m -> (forall a, moves 0 (f a)) -> moves 0 (bind m f).
  Proof. exact (moves_bind 0 0 m f). Qed.
  Lemma still_mapM {A B} (f : A -> run P B) l : (forall a, moves 0 (f a)) -> moves 0 (mapM f l).
  Proof. intros H. induction l; cbn [mapM]; [apply moves_ret|]. apply still_bind; [apply H|]. intros b. apply still_bind; [exact IHl|]. intros bs. apply moves_ret. Qed.
  Lemma still_zipM {A B C} (f : A -> B -> run P C) l : (forall a b, moves 0 (f a b)) -> forall m, moves 0 (zipM f l m).
  Proof. intros H. induction l; intros [|b m]; cbn [zipM]; try apply moves_ret. apply still_bind; [apply H|]. intros c. apply still_bind; [apply IHl|]. intros cs. apply moves_ret. Qed.
  Lemma still_foldM {A B} (f : A -> B -> run P A) l : (forall a b, moves 0 (f a b)) -> forall a, moves 0 (foldM f l a).
  Proof. intros H. induction l; intros b; cbn [foldM]; [apply moves_ret|]. apply still_bind; [apply H|]. intros c. apply IHl. Qed.

  Lemma risky_ok {A} (a : A) : risky 0 0 (okr (pr := P) a).
  Proof.
    intros s. split; [apply few_none; intros t _ H; discriminate H|]. intros t [L _]. right. destruct t; [|discriminate]. exists a, s. reflexivity.
  Qed.
  Lemma risky_lift {A} k (m : run P A) : moves k m -> risky k 0 (lift m).
  Proof.
    intros H s. split.
    - apply few_none. intros t [L _] E. destruct (H s t L) as (a & s' & E'). specialize (E' []). rewrite app_nil_r in E'. unfold lift, bind in E. rewrite E' in E. discriminate E.
    - intros t [L _]. right. destruct (H s t L) as (a & s' & E'). exists a, s'. intros t'. unfold lift, bind. rewrite E'. reflexivity.
  Qed.
  Lemma risky_bind {A B} k c k' c' (m : runo P A) (f : A -> runo P B) (Q : A -> Prop) : 0 <= c' -> yo false m Q -> risky k c m -> (forall a, Q a -> risky k' c' (f a)) -> risky (k + k') (c + c') (bindo m f).
  Proof.
    intros Hc HQ H1 H2 s. destruct (H1 s) as [F1 D1].
    assert (HQ' : forall x a y, m x = (Some a, y) -> Q a) by (intros x a y E; specialize (HQ x); rewrite E in HQ; exact HQ). split.
    - eapply few_sub; [apply (few_app k c k' c' (fun t => fst (m (s, t)) = None) (fun t t' => match m (s, t) with (Some a, (s1, _)) => fst (f a (s1, t')) = None | _ => False end) Hc F1)|].
      + intros t Ht. destruct (D1 t Ht) as [N|(a & s1 & E)]; [left; specialize (N []); now rewrite app_nil_r in N|]. right. specialize (E []). rewrite app_nil_r in E. rewrite E.
        destruct (H2 a (HQ' _ _ _ E) s1) as [F2 _]. exact F2.
      + intros t [L F] Hb. assert (tape k (firstn k t)) as T1 by (split; [rewrite firstn_length; lia|rewrite <- (firstn_skipn k t) in F; now apply Forall_app in F]).
        destruct (D1 _ T1) as [N|(a & s1 & E)]; [left; specialize (N []); now rewrite app_nil_r in N|]. right. pose proof (E []) as E0. rewrite app_nil_r in E0. rewrite E0.
        unfold bindo, bind in Hb. rewrite <- (firstn_skipn k t) in Hb at 1. rewrite E in Hb. exact Hb.
    - intros t [L F]. assert (tape k (firstn k t)) as T1 by (split; [rewrite firstn_length; lia|rewrite <- (firstn_skipn k t) in F; now apply Forall_app in F]).
      assert (tape k' (skipn k t)) as T2 by (split; [rewrite skipn_length; lia|rewrite <- (firstn_skipn k t) in F; now apply Forall_app in F]).
      destruct (D1 _ T1) as [N|(a & s1 & E)].
      + left. intros t'. unfold bindo, bind. rewrite <- (firstn_skipn k t), <- app_assoc. specialize (N (skipn k t ++ t')). destruct (m (s, firstn k t ++ skipn k t ++ t')) as [[a|] y]; [discriminate N|reflexivity].
      + destruct (H2 a (HQ' _ _ _ (E [])) s1) as [_ D2]. destruct (D2 _ T2) as [N|(b & s2 & E2)].
        * left. intros t'. unfold bindo, bind. rewrite <- (firstn_skipn k t), <- app_assoc, E. apply N.
        * right. exists b, s2. intros t'. unfold bindo, bind. rewrite <- (firstn_skipn k t), <- app_assoc, E. apply E2.
  Qed.
  Lemma risky_le {A} k c c' (m : runo P A) : risky k c m -> c <= c' -> risky k c' m.
  Proof. intros H L s. destruct (H s) as [F D]. split; [exact (few_le _ _ _ _ F L)|exact D]. Qed.

  (** the comparison circuits read nothing *)
  Hypothesis Ha : moves 0 na.
  Hypothesis Hb : moves 0 nb.
  Hypothesis Hz : moves 0 nz.
  Hypothesis Hbz : moves 0 nbz.
  Lemma still_band x y : moves 0 (band (pr := P) x y).
  Proof. destruct y as [z|sh]; cbn [band]; [apply moves_ret|]. apply still_bind; [exact Ha|]. intros [[a b] c]. apply moves_ret. Qed.
  Lemma still_spk x y : moves 0 (spk (pr := P) x y).
  Proof.
    unfold spk. apply still_foldM. intros [u v] [[i o] m]. unfold spk_stage. repeat (apply still_bind; [apply still_band|intros ?]). apply moves_ret.
  Qed.
  Lemma still_badd x y : moves 0 (badd (pr := P) x y).
  Proof. unfold badd. apply still_bind; [apply still_band|]. intros w. apply still_bind; [apply still_spk|]. intros CP. apply moves_ret. Qed.
  Lemma still_bsum xs : moves 0 (bsum (pr := P) xs).
  Proof.
    unfold bsum. generalize (length xs) as fuel. intros fuel. revert xs. induction fuel as [|f IH]; intros xs; cbn [bsum_loop]; [apply moves_ret|].
    destruct (Nat.ltb 1 (length xs)); [|apply moves_ret]. apply still_bind; [|intros; apply IH]. unfold bsum_round. destruct (Nat.odd (length xs)); (apply still_bind; [apply still_zipM; intros; apply still_badd|intros; apply moves_ret]).
  Qed.
  Lemma still_share_inputs x : forall i, moves 0 (share_inputs (pr := P) i x).
  Proof.
    induction x as [|v x IH]; intros i; cbn [share_inputs]; [apply moves_ret|]. apply still_bind.
    - unfold bencrypt. apply still_bind; [exact Hbz|]. intros z. apply moves_ret.
    - intros e. apply still_bind; [apply IH|]. intros es. apply moves_ret.
  Qed.
  Lemma still_to_bin x : moves 0 (to_bin (pr := P) x).
  Proof. unfold to_bin, a2b. apply still_bind; [|intros; apply moves_ret]. apply still_bind; [apply still_share_inputs|]. intros es. apply still_bsum. Qed.
  Lemma still_b2a bits sa sb x : moves 0 (b2a (pr := P) bits sa sb x).
  Proof.
    assert (G : forall y, moves 0 (b2a_bit (pr := P) y)).
    { intros y. unfold b2a_bit. destruct (Nat.ltb (length y) 2); [apply still_bind; [exact Hz|intros; apply moves_ret]|]. apply still_bind; [exact Hb|]. intros [rA rB]. apply moves_ret. }
    unfold b2a. apply still_bind; [|intros; apply moves_ret]. destruct (Nat.eqb bits 1).
    - apply still_bind; [apply still_band|intros; apply G].
    - apply still_bind; [|intros; apply moves_ret]. apply still_mapM. intros i. apply still_bind; [apply still_band|intros; apply G].
  Qed.
  Lemma still_ltz D x : moves 0 (ltz (pr := P) D x).
  Proof. unfold ltz. apply still_bind; [apply still_to_bin|]. intros b. apply still_bind; [apply still_b2a|]. intros r. apply moves_ret. Qed.
  Lemma ltz_scale D x : yields (ltz (pr := P) D x) (fun r => n_sc r = 1).
  Proof. intros s. unfold ltz, bind. destruct (to_bin (n_sh x) s) as [b s1]. destruct (b2a 1 _ _ _ s1) as [r s2]. reflexivity. Qed.
End Tape.

(** ** Two parties: sharings that divide wrongly *)
(** the first of the shares of party 1 for which the shares of [v] wrap *)
Definition first_bad (v : Z) : Z := if 0 <=? v then - H63 else v + H63 + 1.
Lemma bad_interval v w : in64 v -> in64 w -> (~ in64 (v - w) <-> first_bad v <= w < first_bad v + Z.abs (v + 1)).
Proof. unfold in64, first_bad. intros Hv Hw. destruct (Z.leb_spec 0 v); lia. Qed.
Lemma two_within E sc v p q d : 2 <= E -> 0 < d -> in64 v -> ashare 2 v [p; q] -> in64 (v - q) -> within E sc d (open_a [p; q]) (open_a (div_local [p; q] d)) = true.
Proof.
  intros HE Hd Hv (_ & F & O) Hq. inversion F as [|? ? Ip F']; subst. inversion F' as [|? ? Iq _]; subst. cbn [zsum fold_right] in O.
  assert (Ep : p = v - q). { apply eqm_in64_eq; [assumption|assumption|]. replace p with (p + (q + 0) - q) by lia. now rewrite O. }
  assert (Ov : open_a [p; q] = v) by (rewrite open_a_eq; cbn [zsum fold_right]; rewrite Ep; apply wrap_unique; [assumption|apply eqm_refl_eq; lia]).
  pose proof (div_local_two_nowrap p q d Hd Ip Iq) as D. rewrite Ov in *. specialize (D ltac:(replace (p + q) with v by lia; exact Hv)).
  unfold within. apply Z.ltb_lt. pose proof (Z.quot_rem' v d). pose proof (Z.rem_bound_abs v d ltac:(lia)). set (r := open_a (div_local [p; q] d)) in *. nia.
Qed.

Lemma share_product c u b e a d : wadd (wadd (wadd c u) (wmul b e)) (wmul a d) = wrap (u + 0 + (c + b * e + a * d)).
Proof. unfold wadd at 1. apply eqm_wrap_eq. rewrite !wadd_eqm, !wmul_eqm. apply eqm_refl_eq. lia. Qed.
Lemma share_square c u a e : wadd (wadd c u) (wmul (wmul a 2) e) = wrap (u + 0 + (c + a * 2 * e)).
Proof. unfold wadd at 1. apply eqm_wrap_eq. rewrite !wadd_eqm, !wmul_eqm. apply eqm_refl_eq. lia. Qed.
Lemma mul1_two a0 a1 b0 b1 c0 c1 u x y : exists p, mul1 [a0; a1] [b0; b1] (reshare [c0; c1] u) x y = [p; wrap (u + 0 + (c1 + b1 * open_a (sub_priv x [a0; a1]) + a1 * open_a (sub_priv y [b0; b1])))].
Proof.
  unfold mul1. generalize (open_a (sub_priv x [a0; a1])) as eps. generalize (open_a (sub_priv y [b0; b1])) as del. intros del eps.
  unfold add_pub, add_priv, mul_int, on_rank0. cbn [map reshare]. rewrite !zipw_cons. rewrite (share_product c1 u b1 eps a1 del). eexists. reflexivity.
Qed.
Lemma square_two a0 a1 c0 c1 u x : exists p, square [a0; a1] (reshare [c0; c1] u) x = [p; wrap (u + 0 + (c1 + a1 * 2 * open_a (sub_priv x [a0; a1])))].
Proof.
  unfold square. generalize (open_a (sub_priv x [a0; a1])) as eps. intros eps.
  unfold add_pub, add_priv, mul_int, on_rank0. cbn [map reshare]. rewrite !zipw_cons. rewrite (share_square c1 u a1 eps). eexists. reflexivity.
Qed.
Lemma share_sum b e z : wrap (wadd b e + z) = wrap (b + (e + z)).
Proof. apply eqm_wrap_eq. rewrite wadd_eqm. apply eqm_refl_eq. lia. Qed.
Section Two.
  Variable pr : provider.
  Hypothesis HV : valid 2 pr.
  Notation P := (taped_products pr).

  Lemma two_list {A} (l : list A) : length l = 2%nat -> exists a b, l = [a; b].
  Proof. destruct l as [|a [|b [|? ?]]]; try discriminate. intros _. now exists a, b. Qed.
  Lemma reshare_ok c u : length c = 2%nat -> length (reshare c u) = 2%nat /\ Forall in64 (reshare c u) /\ open_a (reshare c u) = open_a c.
  Proof.
    intros L. destruct (two_list c L) as (a & b & ->). cbn [reshare length]. split; [reflexivity|]. split; [repeat constructor; first [apply wsub_in64|apply wadd_in64]|].
    rewrite !open_a_eq. cbn [zsum fold_right]. apply eqm_wrap_eq. mring.
  Qed.
  Lemma taped_products_valid : valid 2 P.
  Proof.
    destruct HV as [V1 V2 V3 V4 V5 V6 V7]. constructor; intros [s t]; cbn [taped_products next_and next_mul next_square next_wrap next_b2a next_zero next_bzero].
    - unfold pass. cbn [fst snd]. specialize (V1 s). destruct (next_and pr s) as [[[a b] c] s1]. exact V1.
    - unfold next_mul_taped. cbn [fst snd]. specialize (V2 s). destruct (next_mul pr s) as [[[a b] c] s1]. cbn [fst] in V2. destruct t as [|u t]; [exact V2|]. cbn [fst].
      destruct V2 as (L1 & L2 & L3 & F1 & F2 & F3 & O). destruct (reshare_ok c u L3) as (A1 & A2 & A3). rewrite A3. auto 10.
    - unfold next_square_taped. cbn [fst snd]. specialize (V3 s). destruct (next_square pr s) as [[r r2] s1]. cbn [fst] in V3. destruct t as [|u t]; [exact V3|]. cbn [fst].
      destruct V3 as (L1 & L2 & F1 & F2 & O). destruct (reshare_ok r2 u L2) as (A1 & A2 & A3). rewrite A3. auto 10.
    - unfold pass. cbn [fst snd]. specialize (V4 s). destruct (next_wrap pr s) as [[r th] s1]. exact V4.
    - unfold pass. cbn [fst snd]. specialize (V5 s). destruct (next_b2a pr s) as [[a b] s1]. exact V5.
    - unfold pass. cbn [fst snd]. specialize (V6 s). destruct (next_zero pr s) as [z s1]. exact V6.
    - unfold pass. cbn [fst snd]. specialize (V7 s). destruct (next_bzero pr s) as [z s1]. exact V7.
  Qed.
  Lemma moves_pass {A} (f : pst pr -> A * pst pr) : moves 0 (pass f).
  Proof. intros s t L. destruct t; [|discriminate]. unfold pass. cbn [fst snd app]. destruct (f s) as [a s'] eqn:Ef. exists a, s'. reflexivity. Qed.
  Lemma moves_mul : moves 1 (next_mul_taped pr).
  Proof.
    intros s t L. destruct t as [|u [|? ?]]; try discriminate L. unfold next_mul_taped. cbn [fst snd app]. destruct (next_mul pr s) as [[[a b] c] s1] eqn:Ef. eexists _, s1. reflexivity.
  Qed.

  (** a computation whose result is shared with a sum of draws *)
  Definition spread (k : nat) (m : runo P num) : Prop :=
    forall s, exists s' K, forall t, length t = k -> exists z p, n_sh z = [p; wrap (zsum t + K)] /\ forall t', m (s, t ++ t') = (Some z, (s', t')).
  Lemma divv_two chk p q sc d (st : pst P) : divv (pr := P) chk (mkNum [p; q] sc) d st = (if chk sc d (open_a [p; q]) (open_a (div_local [p; q] d)) then Some (mkNum (div_local [p; q] d) sc) else None, st).
  Proof. unfold divv, divi_num, bind, ret. cbn [n_sh n_sc length Nat.ltb Nat.leb]. destruct (chk _ _ _ _); reflexivity. Qed.
  Lemma risky_div E k m v B sc d : 2 <= E -> 0 < d -> in64 v -> Z.abs v <= B -> spread (S k) m -> yo false m (fun z => ashare 2 v (n_sh z)) ->
    risky (S k) (B + 1) (z <~ m ;; divv (pr := P) (within E) (mkNum (n_sh z) sc) d).
  Proof.
    intros HE Hd Hv HB HS HY s. destruct (HS s) as (s' & K & HK). split.
    - eapply few_sub; [apply (few_le _ (Z.abs (v + 1))); [refine (few_sum (Z.abs (v + 1)) (first_bad v) (fun w => in64 w /\ ~ in64 (v - w)) k _ _ K); [lia|]|lia]|].
      + intros w [Iw Hw]. now apply bad_interval.
      + intros t [L F] Hb. destruct (HK t L) as (z & p & Ez & Hz). cbv beta. revert Ez. generalize (wrap (zsum t + K)) (wrap_in64 (zsum t + K)). intros w Iw Ez. split; [exact Iw|]. intros Hin. specialize (Hz []). rewrite app_nil_r in Hz.
        specialize (HY (s, t)). rewrite Hz in HY. cbn [fst res] in HY. rewrite Ez in HY. unfold bindo, bind in Hb. rewrite Hz, Ez, divv_two in Hb.
        rewrite (two_within E sc v p w d HE Hd Hv HY Hin) in Hb. discriminate Hb.
    - intros t [L F]. destruct (HK t L) as (z & p & Ez & Hz). revert Ez. generalize (wrap (zsum t + K)) as w. intros w Ez. destruct (within E sc d (open_a [p; w]) (open_a (div_local [p; w] d))) eqn:W.
      + right. eexists _, s'. intros t'. unfold bindo, bind. rewrite Hz, Ez, divv_two, W. reflexivity.
      + left. intros t'. unfold bindo, bind. rewrite Hz, Ez, divv_two, W. reflexivity.
  Qed.
  Lemma risky_ext {A} k c (m m' : runo P A) : (forall st, m' st = m st) -> risky k c m -> risky k c m'.
  Proof.
    intros H R s. destruct (R s) as [F D]. split; [eapply few_sub; [exact F|]; intros t _; now rewrite H|].
    intros t Ht. destruct (D t Ht) as [N|(a & s' & E)]; [left; intros t'; rewrite H; apply N|right; exists a, s'; intros t'; rewrite H; apply E].
  Qed.

  Lemma spread_raw x y : sharing 2 x -> sharing 2 y -> spread 1 (rawv (pr := P) (x, y)).
  Proof.
    intros (Lx & _ & _) (Ly & _ & _) s. unfold rawv, lift, bindo, bind, okr, ret. cbn [fst snd taped_products next_mul]. unfold next_mul_taped. cbn [fst snd].
    pose proof (v_mul 2 pr HV s) as V. destruct (next_mul pr s) as [[[a b] c] s1] eqn:En. cbn [fst] in V. destruct V as (L1 & L2 & L3 & _).
    destruct (two_list _ Lx) as (x0 & x1 & Ex). destruct (two_list _ Ly) as (y0 & y1 & Ey). destruct (two_list _ L1) as (a0 & a1 & ->). destruct (two_list _ L2) as (b0 & b1 & ->). destruct (two_list _ L3) as (c0 & c1 & ->).
    rewrite Ex, Ey. exists s1. exists (c1 + b1 * open_a (sub_priv [x0; x1] [a0; a1]) + a1 * open_a (sub_priv [y0; y1] [b0; b1])). intros t L. destruct t as [|u [|? ?]]; try discriminate L. cbn [app].
    destruct (mul1_two a0 a1 b0 b1 c0 c1 u [x0; x1] [y0; y1]) as (p & Ep). eexists _, p. split; [|intros t'; reflexivity]. exact Ep.
  Qed.
  Lemma spread_square x : sharing 2 x -> spread 1 (t <~ lift (next_square P) ;; let '(r, r2) := t in okr (mkNum (square r r2 (n_sh x)) 1)).
  Proof.
    intros (Lx & _ & _) s. unfold lift, bindo, bind, okr, ret. cbn [taped_products next_square]. unfold next_square_taped. cbn [fst snd].
    pose proof (v_square 2 pr HV s) as V. destruct (next_square pr s) as [[a c] s1] eqn:En. cbn [fst] in V. destruct V as (L1 & L3 & _).
    destruct (two_list _ Lx) as (x0 & x1 & Ex). destruct (two_list _ L1) as (a0 & a1 & ->). destruct (two_list _ L3) as (c0 & c1 & ->).
    rewrite Ex. exists s1. exists (c1 + a1 * 2 * open_a (sub_priv [x0; x1] [a0; a1])). intros t L. destruct t as [|u [|? ?]]; try discriminate L. cbn [app].
    destruct (square_two a0 a1 c0 c1 u [x0; x1]) as (p & Ep). eexists _, p. split; [|intros t'; reflexivity]. exact Ep.
  Qed.
  Definition second (z : num) : Z := nth 1 (n_sh z) 0.
  Lemma mapO_raw l : Forall (fun xy => sharing 2 (fst xy) /\ sharing 2 (snd xy)) l -> forall s, exists s' K, forall t, length t = length l ->
    exists zs, length zs = length l /\ Forall (fun z => length (n_sh z) = 2%nat) zs /\ zsum (map second zs) == zsum t + K /\ forall t', mapO (rawv (pr := P)) l (s, t ++ t') = (Some zs, (s', t')).
  Proof.
    induction 1 as [|[x y] l [Hx Hy] _ IH]; intros s.
    - exists s, 0. intros t L. destruct t; [|discriminate]. exists []. repeat split. constructor.
    - destruct (spread_raw x y Hx Hy s) as (s1 & K1 & H1). destruct (IH s1) as (s2 & K2 & H2). exists s2, (K1 + K2). intros t L. destruct t as [|u t]; [discriminate|].
      destruct (H1 [u] eq_refl) as (z & p & Ez & E1). destruct (H2 t) as (zs & Lz & F & Sm & E2); [cbn in L; congruence|]. exists (z :: zs).
      split; [cbn; congruence|]. split; [constructor; [now rewrite Ez|exact F]|]. split.
      + cbn [map zsum fold_right]. fold (zsum (map second zs)) (zsum t). rewrite Sm. unfold second. rewrite Ez. cbn [nth]. rewrite wrap_eqm. cbn [zsum fold_right]. apply eqm_refl_eq. lia.
      + intros t'. cbn [mapO]. unfold bindo, bind. change ((u :: t) ++ t') with ([u] ++ t ++ t'). rewrite E1, E2. reflexivity.
  Qed.
  Lemma sum_second zs : forall acc, length acc = 2%nat -> Forall in64 acc -> Forall (fun z => length z = 2%nat) zs ->
    exists p, fold_left (zipw wadd) zs acc = [p; wrap (nth 1 acc 0 + zsum (map (fun z => nth 1 z 0) zs))].
  Proof.
    induction zs as [|z zs IH]; intros acc L I F; destruct (two_list _ L) as (a & b & ->).
    - exists a. cbn [fold_left map zsum fold_right nth]. f_equal. f_equal. rewrite Z.add_0_r. symmetry. apply wrap_id. inversion I as [|? ? _ I']; subst. now inversion I'.
    - inversion F as [|? ? Lz F']; subst. destruct (two_list _ Lz) as (c & e & ->). cbn [fold_left]. rewrite !zipw_cons.
      destruct (IH [wadd a c; wadd b e] eq_refl) as (p & Ep); [repeat constructor; apply wadd_in64|exact F'|]. exists p. etransitivity; [exact Ep|]. f_equal. f_equal. cbn [nth map zsum fold_right]. apply share_sum.
  Qed.
  Lemma spread_dot l : l <> [] -> Forall (fun xy => sharing 2 (fst xy) /\ sharing 2 (snd xy)) l -> spread (length l) (zs <~ mapO (rawv (pr := P)) l ;; okr (sum_num zs)).
  Proof.
    intros Ne F s. destruct (mapO_raw l F s) as (s' & K & H). exists s', K. intros t L. destruct (H t L) as (zs & Lz & Fz & Sm & E). exists (sum_num zs).
    destruct zs as [|z zs]; [destruct l; [contradiction|discriminate]|]. replace (n_sh (sum_num (z :: zs))) with (sum_list (length (n_sh z)) (map n_sh (z :: zs))) by reflexivity. inversion Fz as [|? ? Lz0 _]; subst. rewrite Lz0. unfold sum_list.
    destruct (sum_second (map n_sh (z :: zs)) (repeat 0 2) eq_refl) as (p & Ep); [repeat constructor; unfold in64, H63; lia|apply Forall_map; exact Fz|]. exists p. split.
    - rewrite Ep. f_equal. f_equal. rewrite map_map. cbn [repeat nth]. rewrite Z.add_0_l. apply eqm_wrap_eq. exact Sm.
    - intros t'. unfold bindo, bind. rewrite E. reflexivity.
  Qed.
End Two.

(** ** How likely a program goes wrong
    A bound on the number that an instruction truncates, in the units of that number; [None]: it truncates nothing. *)
Definition truncated (s : Z) (x : instr) (bs : list bound) : option Z :=
  let mag i := top (nth i bs (0, 0)) in
  match x with
  | IMul i j => Some (mag i * mag j)
  | ISquare i => Some (mag i * mag i)
  | IDot l => Some (zsum (map (fun ij => mag (fst ij) * mag (snd ij)) l))
  | IMulQ i q => Some (mag i * Z.abs (encodeQ s q))
  | IDotQ l => Some (zsum (map (fun iq => mag (fst iq) * Z.abs (encodeQ s (snd iq))) l))
  | IDiv i _ => Some (mag i)
  | _ => None
  end.
(** the sum of these bounds over a program, each increased by [extra] *)
Definition hazard (extra s : Z) (x : instr) (bs : list bound) : Z := match truncated s x bs with Some B => Z.max 0 B + extra | None => 0 end.
Fixpoint hazards (extra s E : Z) (hints : list (option Z)) (prog : list instr) (bs : list bound) : Z :=
  match prog with
  | [] => 0
  | x :: r => hazard extra s x bs +
      match rule s E x bs with
      | Some b => match settle (hd None hints) b with Some b' => hazards extra s E (tl hints) r (bs ++ [b']) | None => 0 end
      | None => 0
      end
  end.
Lemma hazard_nonneg extra s x bs : 0 <= extra -> 0 <= hazard extra s x bs.
Proof. intros H. unfold hazard. destruct (truncated s x bs); lia. Qed.
Lemma hazards_nonneg extra s E prog : 0 <= extra -> forall hints bs, 0 <= hazards extra s E hints prog bs.
Proof.
  intros H. induction prog as [|x prog IH]; intros hints bs; cbn [hazards]; [lia|]. pose proof (hazard_nonneg extra s x bs H). destruct (rule s E x bs) as [b|]; [|lia]. destruct (settle _ _) as [b'|]; [|lia]. specialize (IH (tl hints) (bs ++ [b'])). lia.
Qed.
Lemma mag_get bs i b : nth_error bs i = Some b -> nth i bs (0, 0) = b.
Proof. revert i. induction bs as [|c bs IH]; intros [|i] H; try discriminate; [now injection H|]. now apply IH. Qed.
Lemma dot_mags bs l t : map (fun ij => both (nth_error bs (fst ij)) (nth_error bs (snd ij))) l = map Some t ->
  map (fun ij => top (nth (fst ij) bs (0, 0)) * top (nth (snd ij) bs (0, 0))) l = map (fun bc => top (fst bc) * top (snd bc)) t.
Proof.
  revert t. induction l as [|ij l IH]; intros [|bc t] H; cbn [map] in *; try discriminate; [reflexivity|]. injection H as H1 H2. apply both_spec in H1 as [A B]. rewrite (mag_get _ _ _ A), (mag_get _ _ _ B), (IH t H2). reflexivity.
Qed.
Lemma dotq_mags s bs l t : map (fun iq : nat * Q => both (nth_error bs (fst iq)) (Some (encodeQ s (snd iq)))) l = map Some t ->
  map (fun iq => top (nth (fst iq) bs (0, 0)) * Z.abs (encodeQ s (snd iq))) l = map (fun bk => top (fst bk) * Z.abs (snd bk)) t.
Proof.
  revert t. induction l as [|iq l IH]; intros [|bk t] H; cbn [map] in *; try discriminate; [reflexivity|]. injection H as H1 H2. apply both_spec in H1 as [A B]. injection B as B. rewrite (mag_get _ _ _ A), B, (IH t H2). reflexivity.
Qed.

(** the instructions covered with two parties, and with three or more *)
Definition for_two (x : instr) : Prop := match x with IMulQ _ _ | IDotQ _ | IDiv _ _ | IMax _ => False | _ => True end.
Definition for_many (n : nat) (E : Z) (x : instr) : Prop :=
  match x with IMax _ => False | IDiv _ d => (d | 2 ^ 62) \/ 3 * Z.of_nat n + 2 <= E | _ => True end.

Lemma abs_mul_le v w B C : Z.abs v <= B -> Z.abs w <= C -> Z.abs (v * w) <= B * C.
Proof. intros. rewrite Z.abs_mul. apply Z.mul_le_mono_nonneg; lia. Qed.
Lemma small_in64 v B : Z.abs v <= B -> B < H63 -> in64 v. Proof. unfold in64. lia. Qed.
Lemma yo_any {pr A} (m : runo pr A) : yo false m (fun _ => True).
Proof. intros s0. unfold res. destruct (fst (m s0)); auto. Qed.
Section TwoProg.
  Variable pr : provider.
  Hypothesis HV : valid 2 pr.
  Notation P := (taped_products pr).
  Variables (s E : Z) (p : nat).
  Hypothesis HE : 2 <= E.
  Hypothesis Hp : (1 <= p <= 62)%nat.
  Hypothesis Hs : s = 2 ^ Z.of_nat p.
  Variable local_bits : run P (list Z).
  Hypothesis Hlocal : yields local_bits (fun u => length u = 2%nat /\ Forall (fun z => 0 <= z < s) u /\ True).
  Variables log_steps cascade_steps isqrt : nat -> nat.
  Hypothesis Hsqrt : forall m, (2 <= m)%nat -> (1 <= isqrt m < m)%nat.
  Variable me : method.
  Local Notation st := (step (pr := P) s p local_bits log_steps cascade_steps isqrt me (within E)).
  Local Notation state := (state 2 s).

  Lemma s_gt1 : 1 < s. Proof. rewrite Hs. apply (Z.pow_gt_1 2); lia. Qed.
  Lemma rescale_ss : mul_rescale s s = (Some s, s).
  Proof. pose proof s_gt1. unfold mul_rescale. replace (1 <? s) with true by (symmetry; apply Z.ltb_lt; lia). reflexivity. Qed.
  Lemma good_get bs qs rs i b : state bs qs rs -> nth_error bs i = Some b -> exists v, nshare 2 v s (reg rs i) /\ Z.abs v <= top b.
  Proof. intros H Hi. destruct (state_get 2 s bs qs rs i b H Hi) as (v & Hv & G). exists v. split; [exact Hv|exact (holds_top s _ _ _ G)]. Qed.
  Lemma nshare_sharing v z : nshare 2 v s z -> sharing 2 z.
  Proof. pose proof s_gt1. intros [(L & F & _) S]. split; [exact L|]. split; [exact F|lia]. Qed.
  Lemma raw_share x y v w : nshare 2 v s x -> nshare 2 w s y -> yo false (rawv (pr := P) (x, y)) (fun z => ashare 2 (v * w) (n_sh z)).
  Proof.
    intros [Hx _] [Hy _]. unfold rawv. cbn [fst snd]. eapply (yo_lift _ _ _ (fun t => let '(a, b, c) := t in _)); [intros st0; exact (v_mul 2 P (taped_products_valid pr HV) st0)|].
    intros [[a b] c] Ht. apply yo_ok. cbn [n_sh]. eapply (mul1_share 2 ltac:(lia)); eassumption.
  Qed.
  Lemma square_share2 x v : nshare 2 v s x -> yo false (t <~ lift (next_square P) ;; let '(r, r2) := t in okr (pr := P) (mkNum (square r r2 (n_sh x)) 1)) (fun z => ashare 2 (v * v) (n_sh z)).
  Proof.
    intros [Hx _]. eapply (yo_lift _ _ _ (fun t => let '(r, r2) := t in _)); [intros st0; exact (v_square 2 P (taped_products_valid pr HV) st0)|].
    intros [r r2] Ht. apply yo_ok. cbn [n_sh]. eapply (square_share 2 ltac:(lia)); eassumption.
  Qed.

  Lemma moves_relu x : moves 1 (n_relu (pr := P) s x).
  Proof.
    unfold n_relu. apply (moves_bind (pst pr) _ _ _ _ _ _ _ 0 1).
    - unfold n_ge, n_lt. apply still_bind; [|intros; apply moves_ret]. apply still_ltz; apply moves_pass.
    - intros g. unfold mul_num. apply (moves_bind (pst pr) _ _ _ _ _ _ _ 1 0); [apply moves_mul|]. intros [[a b] c]. destruct (mul_rescale _ _) as [[d|] sc]; [|apply moves_ret].
      apply still_bind; [|intros; apply moves_ret]. unfold divi_num. destruct (Nat.ltb 2 _); [|apply moves_ret]. apply still_bind; [apply moves_pass|]. intros [r th]. apply moves_ret.
  Qed.
  Lemma moves_abs x : moves 1 (n_abs (pr := P) s x).
  Proof.
    unfold n_abs. apply (moves_bind (pst pr) _ _ _ _ _ _ _ 0 1).
    - unfold n_sign. apply still_bind; [|intros; apply moves_ret]. apply still_ltz; apply moves_pass.
    - intros g. unfold mul_num. apply (moves_bind (pst pr) _ _ _ _ _ _ _ 1 0); [apply moves_mul|]. intros [[a b] c]. destruct (mul_rescale _ _) as [[d|] sc]; [|apply moves_ret].
      apply still_bind; [|intros; apply moves_ret]. unfold divi_num. destruct (Nat.ltb 2 _); [|apply moves_ret]. apply still_bind; [apply moves_pass|]. intros [r th]. apply moves_ret.
  Qed.

  Lemma rule_risky x bs qs rs b : for_two x -> state bs qs rs -> rule s E x bs = Some b -> risky (product_draws x) (hazard 1 s x bs) (st x rs).
  Proof.
    intros Hx H R. pose proof s_gt1 as S1.
    destruct x as [i j|i j|i|i k|i q|i k|i q|i j|i|i d|l|l|l|i|i|i lo hi|l]; cbn [for_two] in Hx; try contradiction; cbn [product_draws step]; unfold hazard; cbn [truncated]; try apply risky_ok; cbn [rule] in R.
    - destruct (both _ _) as [[b1 b2]|] eqn:Eb; [|discriminate]. destruct (Z.ltb_spec (top b1 * top b2) H63) as [B|]; [|discriminate]. apply both_spec in Eb as [Hi Hj]. cbn [fst snd] in Hi, Hj.
      rewrite (mag_get _ _ _ Hi), (mag_get _ _ _ Hj). destruct (good_get _ _ _ _ _ H Hi) as (v & Hv & Tv). destruct (good_get _ _ _ _ _ H Hj) as (w & Hw & Tw). pose proof (abs_mul_le _ _ _ _ Tv Tw) as Tp.
      eapply risky_ext; [|apply (risky_div pr E 0 (rawv (pr := P) (reg rs i, reg rs j)) (v * w) (Z.max 0 (top b1 * top b2)) s s); [exact HE|lia|eapply small_in64; eassumption|lia|apply spread_raw; [exact HV|eapply nshare_sharing; eassumption|eapply nshare_sharing; eassumption]|now apply raw_share]].
      intros s0. unfold mulv, rawv, lift, bindo, bind, okr, ret. cbn [fst snd]. destruct (next_mul P s0) as [[[a0 b0] c0] s1]. cbn [n_sh]. rewrite (proj2 Hv), (proj2 Hw), rescale_ss. reflexivity.
    - destruct (nth_error bs i) as [b1|] eqn:Hi; [|discriminate]. destruct (Z.ltb_spec (top b1 * top b1) H63) as [B|]; [|discriminate]. rewrite (mag_get _ _ _ Hi). destruct (good_get _ _ _ _ _ H Hi) as (v & Hv & Tv). pose proof (abs_mul_le _ _ _ _ Tv Tv) as Tp.
      apply (risky_le (pst pr) (pass (next_and pr)) (next_mul_taped pr) (next_square_taped pr) (pass (next_wrap pr)) (pass (next_b2a pr)) (pass (next_zero pr)) (pass (next_bzero pr)) _ (Z.max 0 (top b1 * top b1) + 1 + 0)); [|lia].
      eapply risky_ext; [|apply (risky_bind (pst pr) (pass (next_and pr)) (next_mul_taped pr) (next_square_taped pr) (pass (next_wrap pr)) (pass (next_b2a pr)) (pass (next_zero pr)) (pass (next_bzero pr)) 1 _ 0 0
        (z <~ (t <~ lift (next_square P) ;; let '(r, r2) := t in okr (pr := P) (mkNum (square r r2 (n_sh (reg rs i))) 1)) ;; divv (pr := P) (within E) (mkNum (n_sh z) 1) s) (fun q => okr (pr := P) (mkNum (n_sh q) s)) (fun _ => True));
        [lia| |apply (risky_div pr E 0 _ (v * v) (Z.max 0 (top b1 * top b1)) 1 s); [exact HE|lia|eapply small_in64; eassumption|lia|apply spread_square; [exact HV|eapply nshare_sharing; eassumption]|now apply square_share2]|intros a _; apply risky_ok]].
      + intros s0. unfold squarev, lift, bindo, bind, okr, ret. rewrite (proj2 Hv). destruct (next_square P s0) as [[a0 c0] s1]. cbn [n_sh]. reflexivity.
      + apply yo_any.
    - destruct l as [|ij l]; [discriminate|]. destruct (all_some _) as [t|] eqn:Et; [|discriminate]. destruct (Z.ltb_spec (zsum (map (fun bc => top (fst bc) * top (snd bc)) t)) H63) as [B|]; [|discriminate]. apply all_some_spec in Et.
      rewrite (dot_mags _ _ _ Et). destruct (dotv_good 2 ltac:(lia) P (taped_products_valid pr HV) s p false ltac:(discriminate) Hp bs qs rs (ij :: l) t H Et) as (ts & F & A1 & _ & _ & _ & Y). rewrite <- A1 in *. pose proof (terms_top 2 ltac:(lia) s p false ltac:(discriminate) Hp ts F) as Tp.
      assert (FS : Forall (fun xy => sharing 2 (fst xy) /\ sharing 2 (snd xy)) (map (fun ij => (reg rs (fst ij), reg rs (snd ij))) (ij :: l))).
      { clear - Et H HV Hp Hs. revert t Et. induction (ij :: l) as [|a m IH]; intros [|bc t] Et; cbn [map] in *; try discriminate; [constructor|]. injection Et as E1 E2. apply both_spec in E1 as [A B]. constructor; [|exact (IH t E2)].
        cbn [fst snd]. destruct (good_get _ _ _ _ _ H A) as (v & Hv & _). destruct (good_get _ _ _ _ _ H B) as (w & Hw & _). split; eapply nshare_sharing; eassumption. }
      destruct ts as [|t1 ts]; [destruct t; [discriminate|cbn in A1; discriminate]|].
      eapply risky_ext; [|apply (risky_div pr E (length l) (zs <~ mapO (rawv (pr := P)) (map (fun ij => (reg rs (fst ij), reg rs (snd ij))) (ij :: l)) ;; okr (sum_num zs)) (zsum (map t_v (t1 :: ts))) (Z.max 0 (zsum (map t_top (t1 :: ts)))) s s); [exact HE|lia|eapply small_in64; eassumption|lia| |]].
      + intros s0. unfold dotv. unfold bindo, bind, okr, ret. destruct (mapO rawv _ s0) as [[zs|] s1]; [|reflexivity]. cbn [map].
        destruct t as [|bc t]; [discriminate|]. cbn [map] in Et. injection Et as E1 _. apply both_spec in E1 as [A B']. destruct (good_get _ _ _ _ _ H A) as (v & Hv & _). destruct (good_get _ _ _ _ _ H B') as (w & Hw & _).
        rewrite (proj2 Hv), (proj2 Hw), rescale_ss. reflexivity.
      + replace (S (length l)) with (length (map (fun ij => (reg rs (fst ij), reg rs (snd ij))) (ij :: l))) by (rewrite map_length; reflexivity). apply spread_dot; [exact HV|discriminate|exact FS].
      + eapply yo_bind; [exact Y|]. intros zs Hzs. apply yo_ok.
        assert (G : Forall2 (fun v x => nshare 2 v s x) (map t_v (t1 :: ts)) zs) by now apply Forall2_map_l. assert (Ne : map t_v (t1 :: ts) <> []) by discriminate. exact (proj1 (sum_num_ok 2 s _ _ Ne G)).
    - apply risky_lift, moves_relu.
    - apply risky_lift, moves_abs.
    - apply risky_lift. unfold hardtanh. apply (moves_bind (pst pr) _ _ _ _ _ _ _ 1 1); [apply moves_relu|]. intros a. apply (moves_bind (pst pr) _ _ _ _ _ _ _ 1 0); [apply moves_relu|]. intros b0. apply moves_ret.
  Qed.
  Lemma exec_risky prog : Forall for_two prog -> forall hints bs qs rs bs', state bs qs rs -> analyse s E hints prog bs = Some bs' -> sound_hints s hints prog qs ->
    risky (draws product_draws prog) (hazards 1 s E hints prog bs) (exec (pr := P) s p local_bits log_steps cascade_steps isqrt me (within E) prog rs).
  Proof.
    induction 1 as [|x prog Hx _ IH]; intros hints bs qs rs bs' H A Hh; cbn [analyse exec sound_hints hazards draws fold_right] in *; [apply risky_ok|].
    destruct (rule s E x bs) as [b|] eqn:R; [|discriminate]. destruct (settle (hd None hints) b) as [b'|] eqn:Rs; [|discriminate]. destruct Hh as [Hh1 Hh2]. fold (draws product_draws prog).
    apply (risky_bind (pst pr) (pass (next_and pr)) (next_mul_taped pr) (next_square_taped pr) (pass (next_wrap pr)) (pass (next_b2a pr)) (pass (next_zero pr)) (pass (next_bzero pr)) _ _ _ _ _ _
      (pre 2 s b (ideal x qs))); [apply hazards_nonneg; lia| |now apply (rule_risky x bs qs rs b)|].
    - exact (rule_ok 2 ltac:(lia) P (taped_products_valid pr HV) s E p false ltac:(lia) ltac:(discriminate) Hp Hs local_bits Hlocal log_steps cascade_steps isqrt Hsqrt me x bs qs rs b H R).
    - intros z Hz. eapply (IH (tl hints) (bs ++ [b'])); [|exact A|exact Hh2]. apply (state_push 2 ltac:(lia) s p false ltac:(discriminate) Hp); [exact H|]. eapply (settle_good 2 ltac:(lia) s p false ltac:(discriminate) Hp Hs); eassumption.
  Qed.
End TwoProg.

(** ** Three or more parties: masks that truncate wrongly *)
Definition first_bad_mask (v : Z) : Z := if 0 <=? v then H63 - v else - H63.
Lemma bad_mask v w : in64 v -> in64 w -> (~ in64 (v + w) <-> first_bad_mask v <= w < first_bad_mask v + Z.abs v).
Proof. unfold in64, first_bad_mask. intros Hv Hw. destruct (Z.leb_spec 0 v); lia. Qed.
Lemma corners_from_hit l : forall prev, ~ In (- H63) l -> corners_from prev l = 0.
Proof.
  induction l as [|c l IH]; intros prev H; [reflexivity|]. cbn [corners_from]. rewrite IH by (intros G; apply H; now right).
  destruct (Z.eqb_spec c (- H63)); [exfalso; apply H; left; congruence|]. rewrite Bool.andb_false_r. reflexivity.
Qed.
Lemma corners_hit l : ~ In (- H63) l -> corners l = 0.
Proof. intros H. destruct l as [|a r]; [reflexivity|]. apply corners_from_hit. intros G. apply H. now right. Qed.
Lemma pair_corners_hit x : forall r, ~ In (- H63) r -> pair_corners x r = 0.
Proof.
  induction x as [|a x IH]; intros [|b r] H; try reflexivity. unfold pair_corners. rewrite zipw_cons. cbn [zsum fold_right]. fold (zsum (zipw (fun a b => corners [a; b]) x r)). fold (pair_corners x r).
  rewrite IH by (intros G; apply H; now right). rewrite Z.add_0_r. cbn [corners corners_from]. destruct (Z.eqb_spec b (- H63)); [exfalso; apply H; left; congruence|]. rewrite Bool.andb_false_r. reflexivity.
Qed.
Lemma truncate_within E sc r th x d v : (2 < length x)%nat -> Z.of_nat (length x) <= 2 ^ 32 -> Z.of_nat (length x) <= E -> 0 < d -> (d | 2 ^ 62) \/ 3 * Z.of_nat (length x) + 2 <= E ->
  length r = length x -> length th = length x -> Forall in64 r -> open_a th == count_wraps r -> in64 v -> ashare (length x) v x ->
  in64 (v + open_a r) -> ~ In (- H63) (zipw wadd x r) -> ~ In (- H63) r -> within E sc d (open_a x) (open_a (truncate r th x d)) = true.
Proof.
  intros L3 Ln LE Hd Hdiv Lr Lt Fr Ht Iv (_ & Fx & Ox) Hin N1 N2. assert (Ov : open_a x = v) by (rewrite open_a_eq; now apply wrap_unique).
  assert (Ne : x <> []) by (destruct x; [cbn in L3; lia|discriminate]). rewrite <- Ov in Hin.
  pose proof (truncate_close r th x d Ne Lr Lt Fx Fr Ht Hd Hin (corners_hit _ N1) (pair_corners_hit x r N2) (corners_hit _ N2) Ln) as T. pose proof (wraps_of_bound x Fx) as W.
  unfold within. apply Z.ltb_lt. set (A := open_a (truncate r th x d)) in *. set (n := Z.of_nat (length x)) in *. replace (A * d - open_a x) with (d * A - open_a x) by ring.
  destruct Hdiv as [Hdiv|HE].
  - assert (M : 2 ^ 62 mod d = 0) by (apply Z.mod_divide; [lia|exact Hdiv]). rewrite M in T. clear M. nia.
  - pose proof (Z.mod_pos_bound (2 ^ 62) d Hd) as M. set (m := 2 ^ 62 mod d) in *. set (w := Z.abs (wraps_of x)) in *. assert (4 * w * m <= (2 * n + 2) * (d - 1)) by nia. nia.
Qed.

Section Many.
  Variable n : nat.
  Hypothesis Hn : (2 < n)%nat.
  Hypothesis Hn32 : Z.of_nat n <= 2 ^ 32.
  Variable pr : provider.
  Hypothesis HV : valid n pr.
  Notation P := (taped_masks n pr).
  Notation still_pass := (moves_pass pr).

  Lemma on_rank0_length f l : length (on_rank0 f l) = length l. Proof. destruct l; reflexivity. Qed.
  Lemma adjust_ok th a b : th <> [] -> Forall in64 th -> open_a th = wrap b -> Forall in64 (on_rank0 (fun c => wadd c (wsub a b)) th) /\ open_a (on_rank0 (fun c => wadd c (wsub a b)) th) = wrap a.
  Proof.
    intros Ne F O. destruct th as [|c th]; [contradiction|]. cbn [on_rank0]. inversion F; subst. split; [constructor; [apply wadd_in64|assumption]|].
    rewrite open_a_eq in *. cbn [zsum fold_right] in *. fold (zsum th) in *. apply wrap_eq_eqm in O. apply eqm_wrap_eq. rewrite wadd_eqm, wsub_eqm. replace (c + (a - b) + zsum th) with (c + zsum th + (a - b)) by ring. rewrite O. apply eqm_refl_eq. ring.
  Qed.
  Lemma taped_masks_valid : valid n P.
  Proof.
    destruct HV as [V1 V2 V3 V4 V5 V6 V7]. constructor; intros [s t]; cbn [taped_masks next_and next_mul next_square next_wrap next_b2a next_zero next_bzero].
    - unfold pass. cbn [fst snd]. specialize (V1 s). destruct (next_and pr s) as [[[a b] c] s1]. exact V1.
    - unfold pass. cbn [fst snd]. specialize (V2 s). destruct (next_mul pr s) as [[[a b] c] s1]. exact V2.
    - unfold pass. cbn [fst snd]. specialize (V3 s). destruct (next_square pr s) as [[a b] s1]. exact V3.
    - unfold next_wrap_taped. cbn [fst snd]. specialize (V4 s). destruct (next_wrap pr s) as [[r0 th] s1]. cbn [fst] in V4. destruct (Nat.leb_spec n (length t)) as [Lt|]; [|exact V4]. cbn [fst].
      destruct V4 as (L1 & L2 & F1 & F2 & O). destruct (adjust_ok th (count_wraps (map wrap (firstn n t))) (count_wraps r0)) as [A1 A2]; [destruct th; [cbn in L2; lia|discriminate]|exact F2|exact O|].
      split; [rewrite map_length, firstn_length; lia|]. split; [rewrite on_rank0_length; exact L2|]. split; [apply Forall_map, Forall_forall; intros; apply wrap_in64|]. split; [exact A1|exact A2].
    - unfold pass. cbn [fst snd]. specialize (V5 s). destruct (next_b2a pr s) as [[a b] s1]. exact V5.
    - unfold pass. cbn [fst snd]. specialize (V6 s). destruct (next_zero pr s) as [z s1]. exact V6.
    - unfold pass. cbn [fst snd]. specialize (V7 s). destruct (next_bzero pr s) as [z s1]. exact V7.
  Qed.
  Lemma wrap_drawn t : Forall drawn t -> map wrap t = t.
  Proof. induction 1 as [|u t H _ IH]; [reflexivity|]. cbn [map]. rewrite IH, wrap_id; [reflexivity|]. unfold drawn, in64 in *. lia. Qed.
  (** the masks are the draws *)
  Lemma next_wrap_reads s : exists s' f, forall t, tape n t -> length (f t) = n /\ open_a (f t) == count_wraps t /\ forall t', next_wrap_taped n pr (s, t ++ t') = ((t, f t), (s', t')).
  Proof.
    pose proof (v_wrap n pr HV s) as V. unfold next_wrap_taped. cbn [fst snd]. destruct (next_wrap pr s) as [[r0 th] s1]. cbn [fst] in V. destruct V as (L1 & L2 & F1 & F2 & O).
    exists s1, (fun t => on_rank0 (fun a => wadd a (wsub (count_wraps t) (count_wraps r0))) th). intros t [L F]. split; [rewrite on_rank0_length; exact L2|].
    destruct (adjust_ok th (count_wraps t) (count_wraps r0)) as [_ A2]; [destruct th; [cbn in L2; lia|discriminate]|exact F2|exact O|]. split; [rewrite A2; apply wrap_eqm|].
    intros t'. assert (Lb : Nat.leb n (length (t ++ t')) = true) by (apply Nat.leb_le; rewrite app_length; lia). rewrite Lb.
    rewrite (firstn_app n), (skipn_app n), L, Nat.sub_diag, firstn_O, skipn_O, app_nil_r, (firstn_all2 t), (skipn_all2 t) by lia. rewrite (wrap_drawn t F). reflexivity.
  Qed.
  Lemma risky_divv E z d v B : Z.of_nat n <= E -> 0 < d -> (d | 2 ^ 62) \/ 3 * Z.of_nat n + 2 <= E -> in64 v -> Z.abs v <= B -> ashare n v (n_sh z) ->
    risky n (B + 2 * Z.of_nat n) (divv (pr := P) (within E) z d).
  Proof.
    intros HE Hd Hdiv Iv HB Hz s. destruct (next_wrap_reads s) as (s' & f & H). pose proof (proj1 Hz) as Lz.
    assert (C : forall t t', tape n t -> divv (pr := P) (within E) z d (s, t ++ t') =
      (if within E (n_sc z) d (open_a (n_sh z)) (open_a (truncate t (f t) (n_sh z) d)) then Some (mkNum (truncate t (f t) (n_sh z) d) (n_sc z)) else None, (s', t'))).
    { intros t t' Ht. destruct (H t Ht) as (_ & _ & E'). unfold divv, divi_num, bind, ret. rewrite Lz. replace (Nat.ltb 2 n) with true by (symmetry; apply Nat.ltb_lt; exact Hn). cbn [taped_masks next_wrap]. rewrite E'.
      destruct (within E _ _ _ _); reflexivity. }
    split.
    - eapply few_sub; [apply (few_le n (Z.abs v + (Z.of_nat n + Z.of_nat n))); [|lia]|].
      + apply few_or; [|apply few_or].
        * destruct n as [|k]; [lia|]. refine (few_sum (Z.abs v) (first_bad_mask v) (fun w => in64 w /\ ~ in64 (v + w)) k _ _ 0); [lia|]. intros w [Iw Hw]. now apply bad_mask.
        * pose proof (few_hit (n_sh z)) as G. rewrite Lz in G. exact G.
        * pose proof (few_hit (repeat 0 n)) as G. rewrite repeat_length in G. exact G.
      + intros t Ht Hb. cbv beta. destruct (H t Ht) as (Lf & Of & _). pose proof (C t [] Ht) as Ct. rewrite app_nil_r in Ct. rewrite Ct in Hb. destruct Ht as [Lt Ft].
        assert (Ft' : Forall in64 t) by (eapply Forall_impl; [|exact Ft]; intros u; unfold drawn, in64; lia).
        destruct (in_dec Z.eq_dec (- H63) (zipw wadd (n_sh z) t)) as [G1|G1]; [right; left; exact G1|]. destruct (in_dec Z.eq_dec (- H63) t) as [G2|G2].
        { right. right. clear - G2 Lt Ft'. revert t Lt Ft' G2. induction n as [|k IH]; intros [|u t] L F G; try discriminate; [contradiction|]. cbn [repeat]. rewrite zipw_cons. inversion F; subst.
          destruct G as [->|G]; [left; unfold wadd; rewrite Z.add_0_l; now apply wrap_id|right; apply IH; [cbn in L; congruence|assumption|exact G]]. }
        left. split; [apply wrap_in64|]. intros Hin. rewrite Z.add_0_r in Hin. rewrite <- open_a_eq in Hin.
        rewrite (truncate_within E (n_sc z) t (f t) (n_sh z) d v) in Hb; rewrite ?Lz; try assumption. discriminate Hb.
    - intros t Ht. destruct (within E (n_sc z) d (open_a (n_sh z)) (open_a (truncate t (f t) (n_sh z) d))) eqn:W.
      + right. eexists _, s'. intros t'. rewrite (C t t' Ht), W. reflexivity.
      + left. intros t'. rewrite (C t t' Ht), W. reflexivity.
  Qed.
End Many.

Section ManyProg.
  Variable n : nat.
  Hypothesis Hn : (2 < n)%nat.
  Hypothesis Hn32 : Z.of_nat n <= 2 ^ 32.
  Variable pr : provider.
  Hypothesis HV : valid n pr.
  Notation P := (taped_masks n pr).
  Variables (s E : Z) (p : nat).
  Hypothesis HE : Z.of_nat n <= E.
  Hypothesis Hp : (1 <= p <= 62)%nat.
  Hypothesis Hs : s = 2 ^ Z.of_nat p.
  Variable local_bits : run P (list Z).
  Hypothesis Hlocal : yields local_bits (fun u => length u = n /\ Forall (fun z => 0 <= z < s) u /\ True).
  Variables log_steps cascade_steps isqrt : nat -> nat.
  Hypothesis Hsqrt : forall m, (2 <= m)%nat -> (1 <= isqrt m < m)%nat.
  Variable me : method.
  Local Notation st := (step (pr := P) s p local_bits log_steps cascade_steps isqrt me (within E)).
  Local Notation state := (state n s).
  Local Notation binding := (risky_bind (pst pr) (pass (next_and pr)) (pass (next_mul pr)) (pass (next_square pr)) (next_wrap_taped n pr) (pass (next_b2a pr)) (pass (next_zero pr)) (pass (next_bzero pr))).

  Lemma n_pos : (0 < n)%nat. Proof. lia. Qed.
  Lemma ms_gt1 : 1 < s. Proof. rewrite Hs. apply (Z.pow_gt_1 2); lia. Qed.
  Lemma s_divides : (s | 2 ^ 62).
  Proof. rewrite Hs. exists (2 ^ (62 - Z.of_nat p)). rewrite <- Z.pow_add_r by lia. f_equal. lia. Qed.
  Lemma mrescale_ss : mul_rescale s s = (Some s, s).
  Proof. pose proof ms_gt1. unfold mul_rescale. replace (1 <? s) with true by (symmetry; apply Z.ltb_lt; lia). reflexivity. Qed.
  Lemma mrescale_pub : mul_pub_rescale s = (Some s, s).
  Proof. pose proof ms_gt1. unfold mul_pub_rescale. replace (1 <? s) with true by (symmetry; apply Z.ltb_lt; lia). reflexivity. Qed.
  Lemma mgood_get bs qs rs i b : state bs qs rs -> nth_error bs i = Some b -> exists v, nshare n v s (reg rs i) /\ Z.abs v <= top b /\ in64 v.
  Proof. intros H Hi. destruct (state_get n s bs qs rs i b H Hi) as (v & Hv & G). exists v. split; [exact Hv|]. pose proof (holds_top s _ _ _ G) as T. destruct G as (_ & _ & F). split; [exact T|unfold in64; lia]. Qed.
  (** a division by the scale *)
  Lemma risky_scale z v B : Z.abs v <= B -> B < H63 -> ashare n v (n_sh z) -> risky n (Z.max 0 B + 2 * Z.of_nat n) (divv (pr := P) (within E) z s).
  Proof.
    intros A B' Hz. pose proof ms_gt1. apply (risky_divv n Hn Hn32 pr HV E z s v); [exact HE|lia|left; exact s_divides|unfold in64; lia|lia|exact Hz].
  Qed.
  Lemma still_raw xy : risky 0 0 (rawv (pr := P) xy).
  Proof.
    unfold rawv. apply (binding 0 0 0 0 _ _ (fun _ => True)); [lia|apply yo_any|apply risky_lift, moves_pass|]. intros [[a b] c] _. apply risky_ok.
  Qed.
  Lemma still_mapO {A B} (f : A -> runo P B) l : (forall a, risky 0 0 (f a)) -> risky 0 0 (mapO f l).
  Proof.
    intros H. induction l as [|a l IH]; cbn [mapO]; [apply risky_ok|]. apply (binding 0 0 0 0 _ _ (fun _ => True)); [lia|apply yo_any|apply H|]. intros b _.
    apply (binding 0 0 0 0 _ _ (fun _ => True)); [lia|apply yo_any|exact IH|]. intros bs _. apply risky_ok.
  Qed.
  Lemma still_mul_one x g : n_sc g = 1 -> moves 0 (mul_num (pr := P) x g).
  Proof.
    intros Hg. unfold mul_num. apply still_bind; [apply moves_pass|]. intros [[a b] c]. rewrite Hg. unfold mul_rescale. replace (1 <? 1) with false by reflexivity. rewrite Bool.andb_false_r. destruct (1 <? n_sc x); apply moves_ret.
  Qed.
  Lemma still_relu x : moves 0 (n_relu (pr := P) s x).
  Proof.
    unfold n_relu. apply (moves_bindQ (pst pr) _ _ _ _ _ _ _ 0 0 _ _ (fun g => n_sc g = 1)).
    - unfold n_ge, n_lt. eapply yields_bind; [apply ltz_scale|]. intros r Hr. apply yields_ret. exact Hr.
    - unfold n_ge, n_lt. apply still_bind; [|intros; apply moves_ret]. apply still_ltz; apply moves_pass.
    - intros g Hg. now apply still_mul_one.
  Qed.
  Lemma still_abs x : moves 0 (n_abs (pr := P) s x).
  Proof.
    unfold n_abs. apply (moves_bindQ (pst pr) _ _ _ _ _ _ _ 0 0 _ _ (fun g => n_sc g = 1)).
    - unfold n_sign. eapply yields_bind; [apply ltz_scale|]. intros r Hr. apply yields_ret. exact Hr.
    - unfold n_sign. apply still_bind; [|intros; apply moves_ret]. apply still_ltz; apply moves_pass.
    - intros g Hg. now apply still_mul_one.
  Qed.

  Lemma rule_risky_many x bs qs rs b : for_many n E x -> state bs qs rs -> rule s E x bs = Some b -> risky (mask_draws n x) (hazard (2 * Z.of_nat n) s x bs) (st x rs).
  Proof.
    intros Hx H R. pose proof ms_gt1 as S1. pose proof n_pos as Hn0.
    destruct x as [i j|i j|i|i k|i q|i k|i q|i j|i|i d|l|l|l|i|i|i lo hi|l]; cbn [for_many] in Hx; try contradiction; cbn [mask_draws step]; unfold hazard; cbn [truncated]; try apply risky_ok; cbn [rule] in R.
    - destruct (nth_error bs i) as [b1|] eqn:Hi; [|discriminate]. destruct (Z.ltb_spec (top b1 * Z.abs (encodeQ s q)) H63) as [B|]; [|discriminate]. rewrite (mag_get _ _ _ Hi). destruct (mgood_get _ _ _ _ _ H Hi) as (v & Hv & Tv & _).
      rewrite (proj2 Hv). unfold mulpv. rewrite (proj2 Hv), mrescale_pub. apply (risky_scale _ (v * encodeQ s q)); [apply abs_mul_le; lia|exact B|]. exact (proj1 (muli_num_ok n _ v s _ Hv)).
    - destruct (both _ _) as [[b1 b2]|] eqn:Eb; [|discriminate]. destruct (Z.ltb_spec (top b1 * top b2) H63) as [B|]; [|discriminate]. apply both_spec in Eb as [Hi Hj]. cbn [fst snd] in Hi, Hj.
      rewrite (mag_get _ _ _ Hi), (mag_get _ _ _ Hj). destruct (mgood_get _ _ _ _ _ H Hi) as (v & Hv & Tv & _). destruct (mgood_get _ _ _ _ _ H Hj) as (w & Hw & Tw & _).
      unfold mulv. rewrite (proj2 Hv), (proj2 Hw), mrescale_ss. match goal with |- risky _ ?cost _ => apply (binding 0 0 n cost _ _ (fun t => let '(a, b, c) := t in length a = n /\ length b = n /\ length c = n /\ Forall in64 a /\ Forall in64 b /\ Forall in64 c /\ open_a c = wmul (open_a a) (open_a b))) end;
        [lia|apply yo_lift1; intros s0; exact (v_mul n P (taped_masks_valid n Hn pr HV) s0)|apply risky_lift, moves_pass|].
      intros [[a0 b0] c0] Ht. apply (risky_scale _ (v * w)); [now apply abs_mul_le|exact B|]. cbn [n_sh]. apply (mul1_share n Hn0); [exact Ht|exact (proj1 Hv)|exact (proj1 Hw)].
    - destruct (nth_error bs i) as [b1|] eqn:Hi; [|discriminate]. destruct (Z.ltb_spec (top b1 * top b1) H63) as [B|]; [|discriminate]. rewrite (mag_get _ _ _ Hi). destruct (mgood_get _ _ _ _ _ H Hi) as (v & Hv & Tv & _).
      unfold squarev. rewrite (proj2 Hv). match goal with |- risky _ ?cost _ => apply (binding 0 0 n cost _ _ (fun t => let '(r, r2) := t in length r = n /\ length r2 = n /\ Forall in64 r /\ Forall in64 r2 /\ open_a r2 = wmul (open_a r) (open_a r))) end;
        [lia|apply yo_lift1; intros s0; exact (v_square n P (taped_masks_valid n Hn pr HV) s0)|apply risky_lift, moves_pass|].
      intros [r r2] Ht. rewrite <- (Nat.add_0_r n) at 1. rewrite <- (Z.add_0_r (Z.max 0 (top b1 * top b1) + 2 * Z.of_nat n)). apply (binding n _ 0 0 _ _ (fun _ => True)); [lia|apply yo_any| |intros a _; apply risky_ok].
      apply (risky_scale _ (v * v)); [now apply abs_mul_le|exact B|]. cbn [n_sh]. apply (square_share n Hn0); [exact Ht|exact (proj1 Hv)].
    - destruct (nth_error bs i) as [b1|] eqn:Hi; [|discriminate]. destruct (Z.ltb_spec 0 d) as [Hd|]; [|discriminate]. rewrite (mag_get _ _ _ Hi). destruct (mgood_get _ _ _ _ _ H Hi) as (v & Hv & Tv & Iv).
      apply (risky_divv n Hn Hn32 pr HV E _ d v); [exact HE|exact Hd|exact Hx|exact Iv|lia|exact (proj1 Hv)].
    - destruct l as [|ij l]; [discriminate|]. destruct (all_some _) as [t|] eqn:Et; [|discriminate]. destruct (Z.ltb_spec (zsum (map (fun bc => top (fst bc) * top (snd bc)) t)) H63) as [B|]; [|discriminate]. apply all_some_spec in Et.
      rewrite (dot_mags _ _ _ Et). destruct (dotv_good n Hn0 P (taped_masks_valid n Hn pr HV) s p false ltac:(discriminate) Hp bs qs rs (ij :: l) t H Et) as (ts & F & A1 & _ & _ & _ & Y). rewrite <- A1 in *.
      pose proof (terms_top n Hn0 s p false ltac:(discriminate) Hp ts F) as Tp. destruct ts as [|t1 ts]; [destruct t; [discriminate|cbn in A1; discriminate]|].
      unfold dotv. match goal with |- risky _ ?cost _ => apply (binding 0 0 n cost _ _ (fun zs => Forall2 (fun t z => nshare n (t_v t) s z) (t1 :: ts) zs)) end; [lia|exact Y|apply still_mapO, still_raw|]. intros zs Hzs. cbn [map].
      destruct t as [|bc t]; [discriminate|]. cbn [map] in Et. injection Et as E1 _. apply both_spec in E1 as [A B']. destruct (mgood_get _ _ _ _ _ H A) as (v & Hv & _). destruct (mgood_get _ _ _ _ _ H B') as (w & Hw & _).
      rewrite (proj2 Hv), (proj2 Hw), mrescale_ss. apply (risky_scale _ (zsum (map t_v (t1 :: ts)))); [exact Tp|exact B|]. cbn [n_sh].
      assert (G : Forall2 (fun v x => nshare n v s x) (map t_v (t1 :: ts)) zs) by now apply Forall2_map_l. assert (Ne : map t_v (t1 :: ts) <> []) by discriminate. exact (proj1 (sum_num_ok n s _ _ Ne G)).
    - destruct l as [|iq l]; [discriminate|]. destruct (all_some _) as [t|] eqn:Et; [|discriminate]. destruct (Z.ltb_spec (zsum (map (fun bk => top (fst bk) * Z.abs (snd bk)) t)) H63) as [B|]; [|discriminate]. apply all_some_spec in Et.
      rewrite (dotq_mags _ _ _ _ Et). destruct (dotpv_good n Hn0 s p false ltac:(discriminate) Hp Hs bs qs rs (iq :: l) t H Et) as (ts & F & A1 & _ & _ & _ & Y). rewrite <- A1 in *.
      pose proof (terms_top n Hn0 s p false ltac:(discriminate) Hp ts F) as Tp. destruct ts as [|t1 ts]; [destruct t; [discriminate|cbn in A1; discriminate]|].
      destruct t as [|bk t]; [discriminate|]. assert (Et' := Et). cbn [map] in Et'. injection Et' as E1 _. apply both_spec in E1 as [A B']. destruct (mgood_get _ _ _ _ _ H A) as (v & Hv & _).
      unfold dotpv. cbn [map]. rewrite (proj2 Hv), mrescale_pub. apply (risky_scale _ (zsum (map t_v (t1 :: ts)))); [exact Tp|exact B|]. cbn [n_sh].
      assert (G : Forall2 (fun v x => nshare n v s x) (map t_v (t1 :: ts)) _) by (apply Forall2_map_l; exact Y). assert (Ne : map t_v (t1 :: ts) <> []) by discriminate. exact (proj1 (sum_num_ok n s _ _ Ne G)).
    - apply risky_lift, still_relu.
    - apply risky_lift, still_abs.
    - apply risky_lift. unfold hardtanh. apply still_bind; [apply still_relu|]. intros a. apply still_bind; [apply still_relu|]. intros b0. apply moves_ret.
  Qed.
  Lemma exec_risky_many prog : Forall (for_many n E) prog -> forall hints bs qs rs bs', state bs qs rs -> analyse s E hints prog bs = Some bs' -> sound_hints s hints prog qs ->
    risky (draws (mask_draws n) prog) (hazards (2 * Z.of_nat n) s E hints prog bs) (exec (pr := P) s p local_bits log_steps cascade_steps isqrt me (within E) prog rs).
  Proof.
    induction 1 as [|x prog Hx _ IH]; intros hints bs qs rs bs' H A Hh; cbn [analyse exec sound_hints hazards draws fold_right] in *; [apply risky_ok|].
    destruct (rule s E x bs) as [b|] eqn:R; [|discriminate]. destruct (settle (hd None hints) b) as [b'|] eqn:Rs; [|discriminate]. destruct Hh as [Hh1 Hh2]. fold (draws (mask_draws n) prog).
    apply (binding _ _ _ _ _ _ (pre n s b (ideal x qs))); [apply hazards_nonneg; lia| |now apply (rule_risky_many x bs qs rs b)|].
    - exact (rule_ok n n_pos P (taped_masks_valid n Hn pr HV) s E p false ltac:(lia) ltac:(discriminate) Hp Hs local_bits Hlocal log_steps cascade_steps isqrt Hsqrt me x bs qs rs b H R).
    - intros z Hz. eapply (IH (tl hints) (bs ++ [b'])); [|exact A|exact Hh2]. apply (state_push n n_pos s p false ltac:(discriminate) Hp); [exact H|]. eapply (settle_good n n_pos s p false ltac:(discriminate) Hp Hs); eassumption.
  Qed.
End ManyProg.

(** ** C95 *)
(** C95: there are [choices ^ k] tapes of [k] draws. *)
Lemma k_C95_tapes : forall k, exists L, Z.of_nat (length L) = choices ^ Z.of_nat k /\ NoDup L /\ forall t, In t L <-> tape k t.
Proof. exact tapes_list. Qed.
(** C95: so [few k c] bounds the fraction of tapes. *)
Lemma k_C95_fraction : forall k c bad B, few k c bad -> NoDup B -> (forall t, In t B -> tape k t /\ bad t) -> Z.of_nat (length B) * choices <= c * choices ^ Z.of_nat k.
Proof.
  intros k c bad B (W & A & H) N HB. assert (length B <= length W)%nat as L by (apply NoDup_incl_length; [exact N|]; intros t Ht; destruct (HB t Ht); now apply H). pose proof choices_pos. nia.
Qed.
Lemma quot_shift v y : in64 v -> 2 <= y <= 2 ^ 61 -> 6 <= Z.quot (v + M64) y - Z.quot v y /\ 6 <= Z.quot v y - Z.quot (v - M64) y.
Proof.
  intros Iv Hy. unfold in64, H63 in Iv. unfold M64. pose proof (Z.quot_rem' v y). pose proof (Z.rem_bound_abs v y ltac:(lia)).
  pose proof (Z.quot_rem' (v + 18446744073709551616) y). pose proof (Z.rem_bound_abs (v + 18446744073709551616) y ltac:(lia)).
  pose proof (Z.quot_rem' (v - 18446744073709551616) y). pose proof (Z.rem_bound_abs (v - 18446744073709551616) y ltac:(lia)).
  change (2 ^ 61) with 2305843009213693952 in Hy. nia.
Qed.
(** C95: of the 2^64 ways to share a number between two parties, exactly |v + 1| make the division by a public integer wrong. *)
Lemma k_C95_two_parties : forall r th v y, in64 v -> 2 <= y <= 2 ^ 61 ->
  exists W, NoDup W /\ Z.of_nat (length W) = Z.abs (v + 1) /\
    forall w, in64 w -> (In w W <-> 1 < Z.abs (open_a (div_ r th [wsub v w; w] y) - Z.quot v y)).
Proof.
  intros r th v y Iv Hy. destruct (interval (first_bad v) (Z.abs (v + 1)) ltac:(lia)) as (W & A & N & B). exists W. split; [exact N|]. split; [exact A|]. intros w Iw.
  rewrite B, <- (bad_interval v w Iv Iw). change (div_ r th [wsub v w; w] y) with (div_local [wsub v w; w] y).
  assert (O : open_a [wsub v w; w] = v). { rewrite open_a_eq. cbn [zsum fold_right]. apply wrap_unique; [exact Iv|]. rewrite wsub_eqm. apply eqm_refl_eq. lia. }
  split.
  - intros Hb. assert (Hw : ~ in64 (wsub v w + w)). { intros Hin. apply Hb. assert (E : wsub v w + w = v) by (apply eqm_in64_eq; [exact Hin|exact Iv|rewrite wsub_eqm; apply eqm_refl_eq; lia]). replace (v - w) with (wsub v w) by lia. apply wsub_in64. }
    destruct (div_local_two_wrapped (wsub v w) w y ltac:(lia) (wsub_in64 v w) Iw Hw) as (k & Hk & _ & D). rewrite O in D. destruct (quot_shift v y Iv Hy) as [Q1 Q2]. set (q := open_a (div_local _ y)) in *. clearbody q.
    destruct Hk as [-> | ->]; [rewrite Z.mul_1_l in D|replace (v + -1 * M64) with (v - M64) in D by lia]; lia.
  - intros Hb Hin. assert (E : wsub v w = v - w) by (apply wrap_id, Hin). pose proof (div_local_two_nowrap (wsub v w) w y ltac:(lia) (wsub_in64 v w) Iw) as D. rewrite O in D. specialize (D ltac:(rewrite E; replace (v - w + w) with v by lia; exact Iv)). lia.
Qed.
(** C95: with three or more parties, of the masks of [truncate] at most |v| + 2n in 2^64 - 1 make it wrong by n units or more. *)
Lemma k_C95_masks : forall x y, (2 < length x)%nat -> Z.of_nat (length x) <= 2 ^ 32 -> Forall in64 x -> 0 < y -> (y | 2 ^ 62) ->
  few (length x) (Z.abs (open_a x) + 2 * Z.of_nat (length x)) (fun r => exists th, length th = length x /\ open_a th == count_wraps r /\ Z.of_nat (length x) * y <= Z.abs (open_a (truncate r th x y) * y - open_a x)).
Proof.
  intros x y L3 L32 Fx Hy Hd. set (n := length x) in *. set (v := open_a x). assert (Iv : in64 v) by (unfold v; rewrite open_a_eq; apply wrap_in64).
  eapply few_sub; [apply (few_le n (Z.abs v + (Z.of_nat n + Z.of_nat n))); [|lia]|].
  - apply few_or; [|apply few_or].
    + destruct n as [|k]; [lia|]. refine (few_sum (Z.abs v) (first_bad_mask v) (fun w => in64 w /\ ~ in64 (v + w)) k _ _ 0); [lia|]. intros w [Iw Hw]. now apply bad_mask.
    + exact (few_hit x).
    + pose proof (few_hit (repeat 0 n)) as G. rewrite repeat_length in G. exact G.
  - intros t [Lt Ft] (th & Lth & Oth & Hb). cbv beta. assert (Ft' : Forall in64 t) by (eapply Forall_impl; [|exact Ft]; intros u; unfold drawn, in64; lia).
    destruct (in_dec Z.eq_dec (- H63) (zipw wadd x t)) as [G1|G1]; [right; left; exact G1|]. destruct (in_dec Z.eq_dec (- H63) t) as [G2|G2].
    { right. right. clearbody n. clear - G2 Lt Ft'. revert t Lt Ft' G2. induction n as [|k IH]; intros [|u t] L F G; try discriminate; [contradiction|]. cbn [repeat]. rewrite zipw_cons. inversion F; subst.
      destruct G as [->|G]; [left; unfold wadd; rewrite Z.add_0_l; now apply wrap_id|right; apply IH; [cbn in L; congruence|assumption|exact G]]. }
    left. split; [apply wrap_in64|]. intros Hin. rewrite Z.add_0_r in Hin. rewrite <- open_a_eq in Hin.
    assert (Hx : ashare (length x) v x) by (split; [reflexivity|split; [exact Fx|unfold v; symmetry; apply open_a_eqm]]).
    pose proof (truncate_within (Z.of_nat n) 1 t th x y v L3 L32 (Z.le_refl _) Hy (or_introl Hd) Lt Lth Ft' Oth Iv Hx Hin G1 G2) as T. unfold within in T. apply Z.ltb_lt in T. fold v in T, Hb. lia.
Qed.

Section Claims.
  Variables (n : nat) (pr : provider) (s : Z) (p : nat) (log_steps cascade_steps isqrt : nat -> nat) (me : method).
  Hypothesis HV : valid n pr.
  Hypothesis Hp : (1 <= p <= 62)%nat.
  Hypothesis Hs : s = 2 ^ Z.of_nat p.
  Hypothesis Hsqrt : forall m, (2 <= m)%nat -> (1 <= isqrt m < m)%nat.
  (** C95: two parties: a program without public products, divisions by integers and maxima computes what C93 says except with the probability found by the analysis. *)
  Lemma k_C95_program_two : forall local_bits E prog hints bs qs xs bs' s0, n = 2%nat -> (forall st, let u := fst (local_bits st) in length u = n /\ Forall (fun z => 0 <= z < s) u) ->
    2 <= E -> Forall for_two prog -> all_represent n s bs qs xs -> analyse s E hints prog bs = Some bs' -> sound_hints s hints prog qs ->
    few (draws product_draws prog) (hazards 1 s E hints prog bs)
      (fun t => ~ exists zs, fst (exec (pr := taped_products pr) s p local_bits log_steps cascade_steps isqrt me no_check prog xs (s0, t)) = Some zs /\ all_represent n s bs' (ideals prog qs) zs).
  Proof.
    intros local_bits E prog hints bs qs xs bs' s0 En Hlocal HE HF H A Hh. subst n.
    assert (Hl : yields local_bits (fun u => length u = 2%nat /\ Forall (fun z => 0 <= z < s) u /\ True)) by (intros st; destruct (Hlocal st) as [L F]; auto).
    assert (Hst : state 2 s bs qs xs) by (apply (all_represent_state 2 ltac:(lia) s p false ltac:(discriminate) Hp Hs), H).
    destruct (exec_risky pr HV s E p HE Hp Hs local_bits Hl log_steps cascade_steps isqrt Hsqrt me prog HF hints bs qs xs bs' Hst A Hh s0) as [F _].
    eapply few_sub; [exact F|]. intros t _ Hb. cbv beta. destruct (fst (exec (pr := taped_products pr) s p local_bits log_steps cascade_steps isqrt me (within E) prog xs (s0, t))) as [zs|] eqn:Ez; [exfalso|exact Ez]. apply Hb. exists zs.
    exact (k_C93_program 2 (taped_products pr) s p local_bits log_steps cascade_steps isqrt me ltac:(lia) (taped_products_valid pr HV) Hp Hs Hlocal Hsqrt E prog hints bs qs xs bs' (s0, t) zs ltac:(lia) H A Hh Ez).
  Qed.
  (** C95: three or more parties: all of C93's instructions except maxima. *)
  Lemma k_C95_program_many : forall local_bits E prog hints bs qs xs bs' s0, (2 < n)%nat -> Z.of_nat n <= 2 ^ 32 -> (forall st, let u := fst (local_bits st) in length u = n /\ Forall (fun z => 0 <= z < s) u) ->
    Z.of_nat n <= E -> Forall (for_many n E) prog -> all_represent n s bs qs xs -> analyse s E hints prog bs = Some bs' -> sound_hints s hints prog qs ->
    few (draws (mask_draws n) prog) (hazards (2 * Z.of_nat n) s E hints prog bs)
      (fun t => ~ exists zs, fst (exec (pr := taped_masks n pr) s p local_bits log_steps cascade_steps isqrt me no_check prog xs (s0, t)) = Some zs /\ all_represent n s bs' (ideals prog qs) zs).
  Proof.
    intros local_bits E prog hints bs qs xs bs' s0 Hn Hn32 Hlocal HE HF H A Hh.
    assert (Hl : yields local_bits (fun u => length u = n /\ Forall (fun z => 0 <= z < s) u /\ True)) by (intros st; destruct (Hlocal st) as [L F]; auto).
    assert (Hst : state n s bs qs xs) by (apply (all_represent_state n ltac:(lia) s p false ltac:(discriminate) Hp Hs), H).
    destruct (exec_risky_many n Hn Hn32 pr HV s E p HE Hp Hs local_bits Hl log_steps cascade_steps isqrt Hsqrt me prog HF hints bs qs xs bs' Hst A Hh s0) as [F _].
    eapply few_sub; [exact F|]. intros t _ Hb. cbv beta. destruct (fst (exec (pr := taped_masks n pr) s p local_bits log_steps cascade_steps isqrt me (within E) prog xs (s0, t))) as [zs|] eqn:Ez; [exfalso|exact Ez]. apply Hb. exists zs.
    exact (k_C93_program n (taped_masks n pr) s p local_bits log_steps cascade_steps isqrt me ltac:(lia) (taped_masks_valid n Hn pr HV) Hp Hs Hlocal Hsqrt E prog hints bs qs xs bs' (s0, t) zs ltac:(lia) H A Hh Ez).
  Qed.
End Claims.

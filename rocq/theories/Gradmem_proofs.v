(** Proofs about backpropagation with gradients in memory. *)
Require Import List Bool Arith Lia PeanoNat Permutation.
From Verif Require Import Autograd Gradmem.
Import ListNotations.

Section Proofs.
  Context {V : Type} (vplus : V -> V -> V) (zero : V).
  Notation vadd := (vadd vplus). Notation content := (content zero). Notation contents := (contents zero).

  Lemma vadd_length a : forall b, length a = length b -> length (vadd a b) = length a.
  Proof. induction a as [|x a IH]; intros [|y b] H; cbn in *; try reflexivity; try discriminate. f_equal. apply IH. lia. Qed.

  (** ** Memory *)
  Lemma write_out (m : memory V) r : forall v a, ~ In a r -> write m r v a = m a.
  Proof.
    revert m. induction r as [|b r IH]; intros m v a H; [reflexivity|]. destruct v as [|x v]; [reflexivity|]. cbn [write]. rewrite IH by (intro; apply H; now right).
    unfold set_cell. destruct (Nat.eqb_spec a b) as [->|]; [|reflexivity]. exfalso. apply H. now left.
  Qed.
  Lemma read_ext (m m' : memory V) r : (forall a, In a r -> m a = m' a) -> read m r = read m' r.
  Proof. intros H. unfold read. apply map_ext_in. exact H. Qed.
  Lemma write_read (m : memory V) r : forall v, NoDup r -> length r = length v -> read (write m r v) r = v.
  Proof.
    revert m. induction r as [|b r IH]; intros m [|x v] N L; try discriminate; [reflexivity|]. inversion N; subst. cbn [write read map]. f_equal.
    - rewrite write_out by assumption. unfold set_cell. now rewrite Nat.eqb_refl.
    - apply IH; [assumption|]. cbn in L. lia.
  Qed.
  Lemma write_disjoint (m : memory V) r v q : (forall a, In a q -> ~ In a r) -> read (write m r v) q = read m q.
  Proof. intros H. apply read_ext. intros a Ha. apply write_out. now apply H. Qed.

  (** ** The relation between the two executions *)
  Variable sz : nat -> nat.
  Definition views (ps : list (piece V)) : list nat := flat_map (fun p => match p with New _ => [] | View l => l end) ps.
  (** a backward function that fits: the gradient of every child has the size of the child; the views it returns do not overlap *)
  Definition fits (i : nat) (dc : list nat) (back : list V -> list (piece V)) : Prop :=
    forall g, length g = sz i -> NoDup (views (back g)) /\ (forall k, In k (views (back g)) -> k < sz i) /\ (forall c p, In (c, p) (combine dc (back g)) -> length (content g p) = sz c).
  Definition sound (i : nat) (t : tensor V) : Prop :=
    (forall c, In c (t_children t) -> c < i) /\ (t_children t <> [] -> fits i (t_differentiable t) (t_back t)) /\ (forall v, t_one t = Some v -> length v = sz i).
  Definition like (t : tensor V) (k : node (list V)) : Prop :=
    requires_grad k = t_requires t /\ grad_fn k = t_fn t /\ expected k = t_expected t /\ received k = t_received t /\ children k = t_children t /\ non_diff k = t_non_diff t /\ local k = contents (t_back t) /\ one k = t_one t.
  Definition held (P : list (ref * list V)) : list nat := flat_map fst P.
  (** [D]: tensors whose backward function is running; [P]: gradients on their way, with their values *)
  Record inv (D : list nat) (P : list (ref * list V)) (s : state V) (k : heap (list V)) : Prop := {
    i_like : forall i, like (snd s i) (k i);
    i_sound : forall i, sound i (snd s i);
    i_grad : forall i, ~ In i D -> grad (k i) = option_map (read (fst (fst s))) (t_grad (snd s i));
    i_own : forall i r, ~ In i D -> t_grad (snd s i) = Some r -> length r = sz i /\ NoDup r /\ (forall a, In a r -> a < snd (fst s) /\ ~ In a (held P));
    i_apart : forall i j r q a, ~ In i D -> ~ In j D -> i <> j -> t_grad (snd s i) = Some r -> t_grad (snd s j) = Some q -> In a r -> ~ In a q;
    i_held : NoDup (held P);
    i_below : forall a, In a (held P) -> a < snd (fst s);
    i_val : forall e, In e P -> read (fst (fst s)) (fst e) = snd e }.

  Lemma held_in (P : list (ref * list V)) e a : In e P -> In a (fst e) -> In a (held P).
  Proof. intros H Ha. unfold held. apply in_flat_map. now exists e. Qed.

  Lemma inv_perm D P Q s k : Permutation P Q -> inv D P s k -> inv D Q s k.
  Proof.
    intros E [L S G O A H B X]. assert (F : Permutation (held P) (held Q)) by (unfold held; now apply Permutation_flat_map).
    assert (F' : forall a, In a (held Q) -> In a (held P)) by (intros a; apply Permutation_in; now symmetry).
    constructor; try assumption.
    - intros i r Hi E'. destruct (O i r Hi E') as (a1 & a2 & a3). repeat split; try assumption; [now apply a3|]. intros HQ. apply (proj2 (a3 a H0)). now apply F'.
    - eapply Permutation_NoDup; eauto.
    - intros a Ha. apply B. now apply F'.
    - intros e He. apply X. eapply Permutation_in; [symmetry; exact E|exact He].
  Qed.
  Lemma nodup_right {A} (a b : list A) : NoDup (a ++ b) -> NoDup b.
  Proof. induction a as [|x a IH]; [auto|]. intros H. inversion H; subst. now apply IH. Qed.
  Lemma inv_drop D P Q s k : inv D (P ++ Q) s k -> inv D Q s k.
  Proof.
    intros [L S G O A H B X]. assert (F : held (P ++ Q) = held P ++ held Q) by (unfold held; apply flat_map_app). rewrite F in *.
    constructor; try assumption.
    - intros i r Hi E'. destruct (O i r Hi E') as (a1 & a2 & a3). repeat split; try assumption; [now apply a3|]. intros HQ. apply (proj2 (a3 a H0)). apply in_or_app. now right.
    - eapply nodup_right; eauto.
    - intros a Ha. apply B. apply in_or_app. now right.
    - intros e He. apply X. apply in_or_app. now right.
  Qed.
  Lemma inv_done D i P s k : inv D P s k -> inv (i :: D) P s k.
  Proof.
    intros [L S G O A H B X]. constructor; try assumption.
    - intros j Hj. apply G. intro; apply Hj; now right.
    - intros j r Hj. apply O. intro; apply Hj; now right.
    - intros j l r q a Hj Hl. apply A; intro; [apply Hj|apply Hl]; now right.
  Qed.

  (** a new tensor *)
  Lemma nodup_app {A} (a b : list A) : NoDup a -> NoDup b -> (forall x, In x a -> ~ In x b) -> NoDup (a ++ b).
  Proof.
    induction a as [|x a IH]; intros Na Nb H; [exact Nb|]. inversion Na; subst. cbn. constructor; [|apply IH; auto; intros y Hy; apply H; now right].
    intros HI. apply in_app_or in HI as [HI|HI]; [contradiction|]. apply (H x); [now left|exact HI].
  Qed.
  Lemma inv_new D P m n h k v : inv D P (m, n, h) k -> inv D ((fresh n v, v) :: P) (write m (fresh n v) v, n + length v, h) k.
  Proof.
    intros [L S G O A H B X]. cbn [fst snd] in *. assert (F : forall a, In a (fresh n v) -> n <= a < n + length v) by (intros a Ha; unfold fresh in Ha; now apply in_seq in Ha).
    assert (K : forall r, (forall a, In a r -> a < n) -> read (write m (fresh n v) v) r = read m r) by (intros r Hr; apply write_disjoint; intros a Ha C; apply F in C; specialize (Hr a Ha); lia).
    constructor; cbn [fst snd held flat_map]; try assumption.
    - intros i Hi. rewrite (G i Hi). destruct (t_grad (h i)) as [r|] eqn:E; [|reflexivity]. cbn [option_map]. f_equal. symmetry. apply K. intros a Ha. now apply (O i r Hi E).
    - intros i r Hi E. destruct (O i r Hi E) as (a1 & a2 & a3). split; [exact a1|]. split; [exact a2|]. intros a Ha. destruct (a3 a Ha) as [b1 b2]. split; [lia|]. intros C. apply in_app_or in C as [C|C]; [apply F in C; lia|]. now apply b2.
    - apply nodup_app; [apply seq_NoDup|exact H|]. intros x Hx C. apply F in Hx. apply B in C. lia.
    - intros a Ha. apply in_app_or in Ha as [Ha|Ha]; [apply F in Ha; lia|]. apply B in Ha. lia.
    - intros e [<-|He]; cbn [fst snd].
      + apply write_read; [apply seq_NoDup|]. unfold fresh. now rewrite seq_length.
      + rewrite K; [now apply X|]. intros a Ha. apply B. now apply held_in with e.
  Qed.

  (** what a backward function returns: in use it is either new or taken from the given gradient *)
  Lemma nth_inj (a : list nat) : NoDup a -> forall i j, i < length a -> j < length a -> nth i a 0 = nth j a 0 -> i = j.
  Proof. intros N i j Hi Hj E. now apply (proj1 (NoDup_nth a 0)). Qed.
  Lemma map_nth_nodup (a : list nat) l : NoDup a -> NoDup l -> (forall k, In k l -> k < length a) -> NoDup (map (fun k => nth k a 0) l).
  Proof.
    intros N. induction l as [|k l IH]; intros Nl B; [constructor|]. inversion Nl; subst. cbn. constructor; [|apply IH; auto; intros; apply B; now right].
    intros C. apply in_map_iff in C as (j & E & Hj). apply nth_inj in E; [subst; contradiction|exact N| |]; apply B; [now right|now left].
  Qed.
  Lemma nth_map' (m : memory V) : forall (l : list nat) k, k < length l -> nth k (map m l) zero = m (nth k l 0).
  Proof. induction l as [|x l IH]; intros k H; [cbn in H; lia|]. destruct k as [|k]; [reflexivity|]. cbn. apply IH. cbn in H. lia. Qed.
  Lemma inv_view D P m n h k (r : ref) v : inv D P (m, n, h) k -> NoDup r -> (forall a, In a r -> a < n /\ ~ In a (held P) /\ forall i q, ~ In i D -> t_grad (h i) = Some q -> ~ In a q) -> read m r = v ->
    inv D ((r, v) :: P) (m, n, h) k.
  Proof.
    intros [L S G O A H B X] N F E. cbn [fst snd] in *. constructor; cbn [fst snd held flat_map]; try assumption.
    - intros i q Hi Eq. destruct (O i q Hi Eq) as (a1 & a2 & a3). split; [exact a1|]. split; [exact a2|]. intros a Ha. destruct (a3 a Ha) as [b1 b2]. split; [exact b1|]. intros C. apply in_app_or in C as [C|C]; [|now apply b2].
      destruct (F a C) as (_ & _ & f3). now apply (f3 i q Hi Eq).
    - apply nodup_app; [exact N|exact H|]. intros x Hx. now apply F.
    - intros a Ha. apply in_app_or in Ha as [Ha|Ha]; [now apply F|now apply B].
    - intros e [<-|He]; cbn [fst snd]; auto.
  Qed.
  Lemma place_fst (a : ref) ps : forall (m : memory V) n, length (fst (fst (place a ps m n))) = length ps.
  Proof.
    induction ps as [|[v|l] ps IH]; intros m n; [reflexivity| |]; cbn [place].
    - specialize (IH (write m (fresh n v) v) (n + length v)). destruct (place a ps _ _) as [[rs m'] n']. cbn [fst length] in *. now rewrite IH.
    - specialize (IH m n). destruct (place a ps m n) as [[rs m'] n']. cbn [fst length] in *. now rewrite IH.
  Qed.
  Lemma place_len (a : ref) g ps : forall (m : memory V) n, map (@length nat) (fst (fst (place a ps m n))) = map (@length V) (map (content g) ps).
  Proof.
    induction ps as [|[v|l] ps IH]; intros m n; [reflexivity| |]; cbn [place].
    - specialize (IH (write m (fresh n v) v) (n + length v)). destruct (place a ps _ _) as [[rs m'] n']. cbn [fst map] in *. rewrite IH. cbn [content]. unfold fresh. now rewrite seq_length.
    - specialize (IH m n). destruct (place a ps m n) as [[rs m'] n']. cbn [fst map] in *. rewrite IH. cbn [content]. now rewrite !map_length.
  Qed.
  Lemma place_ok D (a : ref) g h k : NoDup a -> length g = length a -> forall ps P m n, inv D P (m, n, h) k -> NoDup (views ps) ->
    (forall j, In j (views ps) -> j < length a /\ m (nth j a 0) = nth j g zero /\ nth j a 0 < n /\ ~ In (nth j a 0) (held P) /\ forall i q, ~ In i D -> t_grad (h i) = Some q -> ~ In (nth j a 0) q) ->
    let '(rs, m', n') := place a ps m n in n <= n' /\ inv D (combine rs (map (content g) ps) ++ P) (m', n', h) k.
  Proof.
    intros Na Lg ps. induction ps as [|[v|l] ps IH]; intros P m n I Nv F; [split; [lia|exact I]| |]; cbn [place].
    - pose proof (inv_new D P m n h k v I) as I'. specialize (IH ((fresh n v, v) :: P) _ _ I' Nv).
      assert (W : forall j, In j (views ps) -> ~ In (nth j a 0) (fresh n v)).
      { intros j Hj C. destruct (F j Hj) as (f1 & f2 & f3 & f4 & f5). unfold fresh in C. apply in_seq in C. lia. }
      destruct (place a ps _ _) as [[rs m'] n']. destruct IH as [Hn IH].
      { intros j Hj. destruct (F j Hj) as (f1 & f2 & f3 & f4 & f5). split; [exact f1|]. split; [now rewrite write_out by now apply W|]. split; [lia|]. split; [|exact f5].
        cbn [held flat_map fst]. intros C. apply in_app_or in C as [C|C]; [now apply (W j)|now apply f4]. }
      split; [lia|]. cbn [map combine app content]. eapply inv_perm; [|exact IH]. symmetry. apply Permutation_middle.
    - cbn [views flat_map] in Nv, F. fold (views ps) in *. assert (Nl : NoDup l) by (clear -Nv; induction l as [|x l IH]; [constructor|]; inversion Nv; subst; constructor; [intro; apply H1; apply in_or_app; now left|now apply IH]).
      assert (I' : inv D ((map (fun j => nth j a 0) l, content g (View l)) :: P) (m, n, h) k).
      { apply inv_view; [exact I| | |].
        - apply map_nth_nodup; [exact Na|exact Nl|]. intros j Hj. apply F. apply in_or_app. now left.
        - intros x Hx. apply in_map_iff in Hx as (j & <- & Hj). destruct (F j) as (f1 & f2 & f3 & f4 & f5); [apply in_or_app; now left|]. auto.
        - unfold read. rewrite map_map. cbn [content]. apply map_ext_in. intros j Hj. apply F. apply in_or_app. now left. }
      specialize (IH _ _ _ I' (nodup_right _ _ Nv)). destruct (place a ps m n) as [[rs m'] n']. destruct IH as [Hn IH].
      { intros j Hj. destruct (F j) as (f1 & f2 & f3 & f4 & f5); [apply in_or_app; now right|]. repeat (split; [assumption|]). split; [|exact f5]. cbn [held flat_map fst]. intros C. apply in_app_or in C as [C|C]; [|now apply f4].
        apply in_map_iff in C as (j' & E & Hj'). apply nth_inj in E; [|exact Na|apply F; apply in_or_app; now left|exact f1]. subst j'. clear -Nv Hj Hj'. induction l as [|x l IH]; [contradiction|]. inversion Nv; subst. destruct Hj' as [->|Hj']; [apply H1; apply in_or_app; now right|now apply IH]. }
      split; [lia|]. cbn [map combine app]. eapply inv_perm; [|exact IH]. symmetry. apply Permutation_middle.
  Qed.
  (** nothing that is in use changes *)
  Lemma place_keep D (a : ref) h k : forall ps P m n, inv D P (m, n, h) k -> let '(rs, m', n') := place a ps m n in n <= n' /\ inv D P (m', n', h) k.
  Proof.
    intros ps. induction ps as [|[v|l] ps IH]; intros P m n I; [split; [lia|exact I]| |]; cbn [place].
    - pose proof (inv_drop D [_] P _ _ (inv_new D P m n h k v I)) as I'. specialize (IH _ _ _ I'). destruct (place a ps _ _) as [[rs m'] n']. destruct IH as [Hn IH]. split; [lia|exact IH].
    - specialize (IH _ _ _ I). destruct (place a ps m n) as [[rs m'] n']. exact IH.
  Qed.

  (** changing other fields *)
  Lemma inv_fields D P m n h k i t c : inv D P (m, n, h) k -> like t c -> sound i t -> t_grad t = t_grad (h i) -> grad c = grad (k i) -> inv D P (m, n, tput h i t) (upd k i c).
  Proof.
    intros [L S G O A H B X] Lt St Et Ec. cbn [fst snd] in *. unfold tput, upd.
    assert (T : forall j, t_grad (if Nat.eqb j i then t else h j) = t_grad (h j)) by (intros j; destruct (Nat.eqb_spec j i) as [->|]; auto).
    constructor; cbn [fst snd]; try assumption.
    - intros j. destruct (Nat.eqb_spec j i) as [->|]; auto.
    - intros j. destruct (Nat.eqb_spec j i) as [->|]; auto.
    - intros j Hj. rewrite T, <- (G j Hj). destruct (Nat.eqb_spec j i) as [->|]; auto.
    - intros j r. rewrite T. apply O.
    - intros j l r q a. rewrite !T. apply A.
  Qed.
  (** forgetting a gradient *)
  Lemma inv_clean D P m n h k i : inv (i :: D) P (m, n, h) k -> inv D P (m, n, tput h i (t_clean false (h i))) (upd k i (clean false (k i))).
  Proof.
    intros [L S G O A H B X]. cbn [fst snd] in *. unfold tput, upd. constructor; cbn [fst snd]; try assumption.
    - intros j. destruct (Nat.eqb_spec j i) as [->|]; [|apply L]. destruct (L i) as (l1 & l2 & l3 & l4 & l5 & l6 & l7 & l8). unfold like, clean, t_clean; cbn. auto 10.
    - intros j. destruct (Nat.eqb_spec j i) as [->|]; [|apply S]. destruct (S i) as (s1 & s2 & s3). split; [|split]; cbn; [intros ? []|congruence|exact s3].
    - intros j Hj. destruct (Nat.eqb_spec j i) as [->|N]; [reflexivity|]. apply G. intros [E|E]; congruence.
    - intros j r Hj. destruct (Nat.eqb_spec j i) as [->|N]; [discriminate|]. apply O. intros [E|E]; congruence.
    - intros j l r q a Hj Hl. destruct (Nat.eqb_spec j i) as [->|N]; [discriminate|]. destruct (Nat.eqb_spec l i) as [->|N']; [discriminate|]. apply A; intros [E|E]; congruence.
  Qed.
  Lemma inv_keep D P m n h k i : inv D P (m, n, h) k -> inv D P (m, n, tput h i (t_clean true (h i))) (upd k i (clean true (k i))).
  Proof.
    intros I. apply inv_fields; [exact I| | |reflexivity|reflexivity].
    - destruct (i_like _ _ _ _ I i) as (l1 & l2 & l3 & l4 & l5 & l6 & l7 & l8). unfold like, clean, t_clean; cbn. auto 10.
    - destruct (i_sound _ _ _ _ I i) as (s1 & s2 & s3). split; [|split]; cbn; [intros ? []|congruence|exact s3].
  Qed.

  Lemma inv_identify D P m n f : forall i h k, inv D P (m, n, h) k -> inv D P (m, n, t_identify f i h) (identify f i k).
  Proof.
    induction f as [|f IH]; intros i h k I; [exact I|]. cbn [t_identify identify].
    destruct (i_like _ _ _ _ I i) as (l1 & l2 & l3 & l4 & l5 & l6 & l7 & l8). cbn [fst snd] in *.
    assert (I' : inv D P (m, n, tput h i (t_expect (h i))) (upd k i (expect_more (k i)))).
    { apply inv_fields; [exact I| | |reflexivity|reflexivity].
      - unfold like, expect_more, t_expect; cbn. rewrite l3. auto 10.
      - destruct (i_sound _ _ _ _ I i) as (s1 & s2 & s3). cbn [fst snd] in *. split; [|split]; cbn; assumption. }
    cbn [expected expect_more t_expect t_expected children t_children]. rewrite l3, l5. destruct (Nat.eqb _ 1); [|exact I'].
    clear -IH I'. revert I'. generalize (tput h i (t_expect (h i))) as h'. generalize (upd k i (expect_more (k i))) as k'. generalize (t_children (h i)) as l.
    induction l as [|c l IHl]; intros k' h' I'; [exact I'|]. cbn [fold_left]. apply IHl. now apply IH.
  Qed.
  Lemma t_identify_requires f : forall (h : nat -> tensor V) i j, t_requires (t_identify f i h j) = t_requires (h j).
  Proof.
    induction f as [|f IH]; intros h i j; [reflexivity|]. cbn [t_identify]. assert (E : forall j, t_requires (tput h i (t_expect (h i)) j) = t_requires (h j)) by (intros l; unfold tput; destruct (Nat.eqb_spec l i) as [->|]; reflexivity).
    destruct (Nat.eqb _ 1); [|apply E]. rewrite <- E. generalize (tput h i (t_expect (h i))) as h'. generalize (t_children (t_expect (h i))) as l. induction l as [|c l IHl]; intros h'; [reflexivity|]. cbn [fold_left]. now rewrite IHl, IH.
  Qed.

  (** receiving a gradient *)
  Lemma inv_receive D P m n h k i r g : ~ In i D -> inv D ((r, g) :: P) (m, n, h) k -> length r = sz i -> exists m' a, t_receive vplus m (h i) r = Some (m', a) /\
    inv D P (m', n, tput h i (t_store (h i) a)) (upd k i (receive vadd (k i) g)).
  Proof.
    intros HD I Lr. pose proof I as [L S G O A H B X]. cbn [fst snd] in *. unfold t_receive.
    assert (Lt : forall a, like (t_store (h i) a) (receive vadd (k i) g)) by (intros a; destruct (L i) as (l1 & l2 & l3 & l4 & l5 & l6 & l7 & l8); unfold like, receive, t_store; cbn; rewrite l4; auto 10).
    assert (St : forall a, sound i (t_store (h i) a)) by (intros a; destruct (S i) as (s1 & s2 & s3); split; [|split]; cbn; assumption).
    assert (Er : read m r = g) by (apply (X (r, g)); now left). assert (Hd : held ((r, g) :: P) = r ++ held P) by reflexivity. rewrite Hd in *.
    destruct (t_grad (h i)) as [a|] eqn:Ea.
    - destruct (O i a HD Ea) as (a1 & a2 & a3). rewrite a1, Lr, Nat.eqb_refl. eexists _, a. split; [reflexivity|].
      assert (W : forall q, (forall x, In x q -> ~ In x a) -> read (write m a (vadd (read m a) (read m r))) q = read m q) by (intros q Hq; now apply write_disjoint).
      assert (Ga : grad (k i) = Some (read m a)) by (rewrite (G i HD), Ea; reflexivity).
      assert (T : forall j, t_grad (tput h i (t_store (h i) a) j) = t_grad (h j)) by (intros j; unfold tput; destruct (Nat.eqb_spec j i) as [->|]; [cbn; now rewrite Ea|reflexivity]).
      apply (inv_drop D [] P). constructor; cbn [fst snd app]; try (setoid_rewrite T).
      + intros j. unfold tput, upd. destruct (Nat.eqb_spec j i) as [->|]; auto.
      + intros j. unfold tput. destruct (Nat.eqb_spec j i) as [->|]; auto.
      + intros j Hj. unfold upd. destruct (Nat.eqb_spec j i) as [->|N].
        * rewrite Ea. cbn [receive grad option_map]. rewrite Ga. f_equal. rewrite write_read; [now rewrite Er|exact a2|]. rewrite vadd_length; unfold read; rewrite !map_length; lia.
        * rewrite (G j Hj). destruct (t_grad (h j)) as [q|] eqn:Eq; [|reflexivity]. cbn [option_map]. f_equal. symmetry. apply W. intros x Hx. now apply (A j i q a x).
      + intros j q Hj Eq. destruct (O j q Hj Eq) as (b1 & b2 & b3). split; [exact b1|]. split; [exact b2|]. intros x Hx. destruct (b3 x Hx) as [c1 c2]. split; [exact c1|]. intros C. apply c2. apply in_or_app. now right.
      + exact A.
      + eapply nodup_right; eauto.
      + intros x Hx. apply B. apply in_or_app. now right.
      + intros e He. rewrite W; [apply X; now right|]. intros x Hx C. apply (proj2 (a3 x C)). apply in_or_app. right. now apply held_in with e.
    - exists m, r. split; [reflexivity|]. assert (Ga : grad (k i) = None) by (rewrite (G i HD), Ea; reflexivity).
      constructor; cbn [fst snd].
      + intros j. unfold tput, upd. destruct (Nat.eqb_spec j i) as [->|]; auto.
      + intros j. unfold tput. destruct (Nat.eqb_spec j i) as [->|]; auto.
      + intros j Hj. unfold upd, tput. destruct (Nat.eqb_spec j i) as [->|N]; [|now apply G]. cbn [receive grad t_store t_grad option_map]. rewrite Ga. now rewrite Er.
      + intros j q Hj. unfold tput. destruct (Nat.eqb_spec j i) as [->|N].
        * cbn [t_store t_grad]. injection 1 as <-. split; [exact Lr|]. split; [clear -H; induction r as [|x r IH]; [constructor|]; inversion H; subst; constructor; [intro; apply H2; apply in_or_app; now left|now apply IH]|].
          intros x Hx. split; [apply B; apply in_or_app; now left|]. intros C. clear -H Hx C. induction r as [|y r IH]; [contradiction|]. inversion H; subst. destruct Hx as [->|Hx]; [apply H2; apply in_or_app; now right|now apply IH].
        * intros Eq. destruct (O j q Hj Eq) as (b1 & b2 & b3). split; [exact b1|]. split; [exact b2|]. intros x Hx. destruct (b3 x Hx) as [c1 c2]. split; [exact c1|]. intros C. apply c2. apply in_or_app. now right.
      + intros j l q q' x Hj Hl N. unfold tput. destruct (Nat.eqb_spec j i) as [->|Nj]; destruct (Nat.eqb_spec l i) as [->|Nl]; try congruence.
        * cbn [t_store t_grad]. injection 1 as <-. intros El Hx C. apply (proj2 (proj2 (proj2 (O l q' Hl El)) x C)). apply in_or_app. now left.
        * cbn [t_store t_grad]. intros Ej. injection 1 as <-. intros Hx C. apply (proj2 (proj2 (proj2 (O j q Hj Ej)) x Hx)). apply in_or_app. now left.
        * intros Ej El. now apply (A j l).
      + eapply nodup_right; eauto.
      + intros x Hx. apply B. apply in_or_app. now right.
      + intros e He. apply X. now right.
  Qed.

  (** ** The two executions agree *)
  Lemma diff_like t c : like t c -> differentiable c = t_differentiable t.
  Proof. intros (l1 & l2 & l3 & l4 & l5 & l6 & l7 & l8). unfold differentiable, t_differentiable. now rewrite l5, l6. Qed.
  Definition agree (f : nat) : Prop := forall i r g top D P s k runs k' runs', inv D ((r, g) :: P) s k -> length r = sz i -> (forall d, In d D -> i < d) ->
    backward vadd f i (Some g) top (k, runs) = Some (k', runs') -> exists s', t_backward vplus f i (Some r) top s = Some s' /\ inv D P s' k'.
  Lemma agree_fold f (i : nat) D P : agree f -> (forall d, In d D -> i < d) -> forall dc rs gs s k runs k' runs', (forall c, In c dc -> c < i) -> (forall c r, In (c, r) (combine dc rs) -> length r = sz c) -> length dc <= length rs -> length rs = length gs ->
    inv (i :: D) (combine rs gs ++ P) s k ->
    fold_left (fun acc e => match acc with Some st => backward vadd f (fst e) (Some (snd e)) false st | None => None end) (combine dc gs) (Some (k, runs)) = Some (k', runs') ->
    exists s', fold_left (fun acc e => match acc with Some s => t_backward vplus f (fst e) (Some (snd e)) false s | None => None end) (combine dc rs) (Some s) = Some s' /\ inv (i :: D) P s' k'.
  Proof.
    intros A HD dc. induction dc as [|c dc IH]; intros rs gs s k runs k' runs' Hc Hr Hl Hg I E.
    - cbn in *. injection E as <- <-. exists s. split; [reflexivity|]. eapply inv_drop; eauto.
    - destruct rs as [|r rs]; [cbn in Hl; lia|]. destruct gs as [|g gs]; [discriminate|]. cbn [combine fold_left fst snd app] in *.
      destruct (backward vadd f c (Some g) false (k, runs)) as [[k1 runs1]|] eqn:E1.
      + destruct (A c r g false (i :: D) (combine rs gs ++ P) s k runs k1 runs1 I) as (s1 & F1 & I1); [apply Hr; now left| |exact E1|].
        { intros d [<-|Hd]; [apply Hc; now left|]. specialize (HD d Hd). specialize (Hc c (or_introl eq_refl)). lia. }
        rewrite F1. apply (IH rs gs s1 k1 runs1 k' runs'); [intros; apply Hc; now right|intros; apply Hr; now right|cbn in Hl; lia|cbn in Hg; lia|exact I1|exact E].
      + exfalso. clear -E. revert E. induction (combine dc gs) as [|e l IHl]; [discriminate|]. exact IHl.
  Qed.
  Lemma agrees f : agree f.
  Proof.
    induction f as [|f IH]; [intros i r g top D P s k runs k' runs' _ _ _ E; discriminate E|]. intros i r g top D P s k runs k' runs' I Lr HD E.
    destruct s as [[m n] h]. cbn [t_backward]. cbn [backward] in E. destruct (i_like _ _ _ _ I i) as (l1 & _). cbn [fst snd] in l1. rewrite l1 in E.
    destruct (t_requires (h i)); [|injection E as <- <-; eexists; split; [reflexivity|]; apply (inv_drop D [(r, g)] P); exact I].
    assert (HDi : ~ In i D) by (intros C; specialize (HD i C); lia).
    assert (I0 : inv D ((r, g) :: P) (m, n, if top then t_identify (S i) i h else h) (if top then identify (S i) i k else k)) by (destruct top; [now apply inv_identify|exact I]).
    revert I0 E. generalize (if top then t_identify (S i) i h else h) as h0. generalize (if top then identify (S i) i k else k) as k0. clear I l1 h k. intros k h I E.
    destruct (inv_receive D P m n h k i r g HDi I Lr) as (m1 & a & R & I1). rewrite R.
    remember (receive vadd (k i) g) as c eqn:Ec. remember (t_store (h i) a) as t eqn:Et.
    assert (Lt : like t c) by (pose proof (i_like _ _ _ _ I1 i) as Q; unfold tput, upd in Q; cbn [fst snd] in Q; rewrite Nat.eqb_refl in Q; exact Q).
    assert (St : sound i t) by (pose proof (i_sound _ _ _ _ I1 i) as Q; unfold tput in Q; cbn [fst snd] in Q; rewrite Nat.eqb_refl in Q; exact Q).
    assert (Gt : grad c = Some (read m1 a)) by (pose proof (i_grad _ _ _ _ I1 i HDi) as Q; unfold tput, upd in Q; cbn [fst snd] in Q; rewrite Nat.eqb_refl in Q; rewrite Q, Et; reflexivity).
    assert (Ta : t_grad t = Some a) by now rewrite Et.
    destruct (i_own _ _ _ _ I1 i a HDi) as (La & Na & Fa); [unfold tput; cbn [snd]; now rewrite Nat.eqb_refl|]. cbn [fst snd] in Fa.
    pose proof (diff_like t c Lt) as Dd. destruct Lt as (l1 & l2 & l3 & l4 & l5 & l6 & l7 & l8). rewrite l5, l4, l3, l2, Dd, Gt, l7 in E.
    destruct (Nat.eqb (length (t_children t)) 0 || Nat.ltb (t_received t) (t_expected t)) eqn:Eb.
    { injection E as <- <-. eexists. split; [reflexivity|exact I1]. }
    destruct (negb (t_fn t)); [discriminate|].
    assert (Hch : t_children t <> []) by (intros C; rewrite C in Eb; discriminate).
    destruct (proj1 (proj2 St) Hch (read m1 a)) as (f1 & f2 & f3); [unfold read; now rewrite map_length|].
    unfold contents in E. rewrite map_length in E.
    pose proof (place_fst a (t_back t (read m1 a)) m1 n) as Pl. pose proof (place_len a (read m1 a) (t_back t (read m1 a)) m1 n) as Pn.
    destruct (t_differentiable t) as [|c0 dc] eqn:Edc.
    - cbn [length combine fold_left Nat.leb] in E. injection E as <- <-. pose proof (place_keep D a _ _ (t_back t (read m1 a)) P m1 n I1) as Pk. destruct (place a (t_back t (read m1 a)) m1 n) as [[rs m2] n2]. cbn [length combine fold_left Nat.leb].
      eexists. split; [reflexivity|]. apply inv_keep. exact (proj2 Pk).
    - assert (I2 : inv (i :: D) P (m1, n, tput h i t) (upd k i c)) by now apply inv_done.
      pose proof (place_ok (i :: D) a (read m1 a) _ _ Na ltac:(unfold read; now rewrite map_length) (t_back t (read m1 a)) P m1 n I2 f1) as Po.
      destruct (place a (t_back t (read m1 a)) m1 n) as [[rs m2] n2]. cbn [fst] in Pl, Pn. destruct Po as [Hn Po].
      { intros j Hj. pose proof (f2 j Hj) as Hjs. rewrite <- La in Hjs. split; [exact Hjs|]. split; [unfold read; now rewrite nth_map'|]. destruct (Fa (nth j a 0)) as [b1 b2]; [now apply nth_In|]. split; [exact b1|]. split; [exact b2|].
        intros l q Hl Eq C. assert (Nl : i <> l) by (intros ->; apply Hl; now left). refine (i_apart _ _ _ _ I1 i l a q (nth j a 0) HDi _ Nl _ Eq _ C); [intro; apply Hl; now right|unfold tput; cbn [snd]; now rewrite Nat.eqb_refl|now apply nth_In]. }
      rewrite Pl. destruct (Nat.leb (length (c0 :: dc)) (length (t_back t (read m1 a)))) eqn:Ele; [|discriminate]. apply Nat.leb_le in Ele.
      destruct (fold_left _ (combine (c0 :: dc) _) (Some (upd k i c, i :: runs))) as [[k2 runs2]|] eqn:Ef; [|discriminate].
      assert (h1 : forall x, In x (c0 :: dc) -> x < i) by (intros x Hx; apply (proj1 St); rewrite <- Edc in Hx; unfold t_differentiable in Hx; now apply filter_In in Hx).
      assert (h2 : forall x q, In (x, q) (combine (c0 :: dc) rs) -> length q = sz x).
      { intros x q Hx.
        assert (Q : forall (l : list nat) (rs : list ref) (ps : list (piece V)), map (@length nat) rs = map (@length V) (map (content (read m1 a)) ps) -> In (x, q) (combine l rs) -> exists p, In (x, p) (combine l ps) /\ length q = length (content (read m1 a) p)).
        { clear. intros l. induction l as [|y l IHl]; intros [|u rs] [|w ps] M C; try contradiction; try discriminate. cbn [map] in M. injection M as M1 M2. cbn [combine] in *. destruct C as [C|C]; [injection C as -> ->; exists w; split; [now left|exact M1]|].
          destruct (IHl rs ps M2 C) as (p & Hp & E). exists p. split; [now right|exact E]. }
        destruct (Q _ _ _ Pn Hx) as (p & Hp & Ep). rewrite Ep. now apply f3. }
      rewrite <- Pl in Ele. destruct (agree_fold f i D P IH HD (c0 :: dc) rs (map (content (read m1 a)) (t_back t (read m1 a))) _ _ _ _ _ h1 h2 Ele ltac:(now rewrite map_length) Po Ef) as ([[m3 n3] h3] & F3 & I3).
      injection E as <- <-. match goal with |- context [fold_left ?F ?L ?A] => assert (F4 : fold_left F L A = Some (m3, n3, h3)) by exact F3; rewrite F4 end.
      eexists. split; [reflexivity|]. cbn [length Nat.eqb]. now apply inv_clean.
  Qed.
End Proofs.

(** Proofs about the in-process communicator. *)
Require Import List Arith Bool Lia Permutation.
From Verif Require Import Inproc.
Import ListNotations.

Lemma upd_same {A} (f : nat -> A) i a : upd f i a i = a. Proof. unfold upd. now rewrite Nat.eqb_refl. Qed.
Lemma upd_other {A} (f : nat -> A) i j a : j <> i -> upd f i a j = f j. Proof. unfold upd. intros H. apply Nat.eqb_neq in H. now rewrite H. Qed.

Lemma flat_map_upd {A B} (g : A -> list B) (f : nat -> A) i a l : ~ In i l -> flat_map (fun j => g (upd f i a j)) l = flat_map (fun j => g (f j)) l.
Proof. induction l as [|j l IH]; intros H; cbn [flat_map]; [reflexivity|]. rewrite upd_other by (intros ->; apply H; now left). rewrite IH by (intros I; apply H; now right). reflexivity. Qed.
Lemma flat_map_grow {A B} (g : A -> list B) (f : nat -> A) i a x l : NoDup l -> In i l -> g a = g (f i) ++ x ->
  Permutation (flat_map (fun j => g (upd f i a j)) l) (flat_map (fun j => g (f j)) l ++ x).
Proof.
  intros N I E. induction N as [|j l Nj N IH]; [destruct I|]. cbn [flat_map]. destruct (Nat.eq_dec j i) as [->|D].
  - rewrite upd_same, E, flat_map_upd by assumption. rewrite <- !app_assoc. apply Permutation_app_head. apply Permutation_app_comm.
  - destruct I as [->|I]; [contradiction|]. rewrite upd_other by assumption. rewrite (IH I), app_assoc. reflexivity.
Qed.
Lemma flat_map_single {B} (f : nat -> list B) i l : NoDup l -> In i l -> (forall j, In j l -> j <> i -> f j = []) -> flat_map f l = f i.
Proof.
  intros N I H. induction N as [|j l Nj N IH]; [destruct I|]. cbn [flat_map]. destruct (Nat.eq_dec j i) as [->|D].
  - assert (E : flat_map f l = []).
    { clear IH I N. induction l as [|k l IHl]; [reflexivity|]. cbn [flat_map]. rewrite (H k).
      - cbn. apply IHl; [intros X; apply Nj; now right|]. intros j Hj Hd. apply H; [|assumption]. destruct Hj; [now left|right; now right].
      - right. now left.
      - intros ->. apply Nj. now left. }
    rewrite E. apply app_nil_r.
  - destruct I as [->|I]; [contradiction|]. rewrite (H j) by (assumption || now left). cbn. apply IH; [assumption|]. intros k Hk. apply H. now right.
Qed.

Lemma flat_map_nil {A B} (l : list A) : flat_map (fun _ => @nil B) l = [].
Proof. induction l; [reflexivity|assumption]. Qed.

Section IP.
  Context {V : Type}.
  Variable n : nat.
  Variable bb : bool.
  Notation coll := (coll V).
  Notation msg := (msg V).
  Notation world := (world V).

  Definition to (i : nat) (l : list (nat * msg)) : list msg := map snd (filter (fun p => Nat.eqb (fst p) i) l).
  Lemma to_app i a b : to i (a ++ b) = to i a ++ to i b. Proof. unfold to. now rewrite filter_app, map_app. Qed.
  Definition addressed (o : coll) (i : nat) : list msg := flat_map (fun j => to i (puts V n o j)) (seq 0 n).

  Definition good (o : coll) : Prop :=
    match o with AllGather xs => length xs = n | Gather d xs => d < n /\ length xs = n | Scatter s xs => s < n /\ length xs = n | Broadcast s _ => s < n end.
  Definition expected (o : coll) (i : nat) : result V :=
    match o with
    | AllGather xs => RList xs
    | Gather d xs => if Nat.eqb i d then RList xs else RNone
    | Scatter s xs => match nth_error xs i with Some v => RItem (Plain v) | None => Broken end
    | Broadcast s x => RItem (Plain x)
    end.

  Lemma to_map (f : nat -> nat * msg) (g : nat -> msg) i l : (forall d, f d = (d, g d)) -> NoDup l -> In i l -> to i (map f l) = [g i].
  Proof.
    intros F N I. unfold to. induction N as [|j l Nj N IH]; [destruct I|]. cbn [map filter]. rewrite F. cbn [fst]. destruct (Nat.eqb j i) eqn:E.
    - apply Nat.eqb_eq in E as ->. cbn [map snd]. f_equal. clear - Nj F. induction l as [|k l IH]; [reflexivity|]. cbn [map filter]. rewrite F. cbn [fst].
      destruct (Nat.eqb k i) eqn:E; [apply Nat.eqb_eq in E as ->; exfalso; apply Nj; now left|]. apply IH. intros X. apply Nj. now right.
    - apply Nat.eqb_neq in E. destruct I; [contradiction|]. auto.
  Qed.
  Lemma combine_seq_map (xs : list V) : forall k, combine (seq k (length xs)) xs = map (fun p => (fst p, snd p)) (combine (seq k (length xs)) xs).
  Proof. intros k. rewrite <- (map_id (combine (seq k (length xs)) xs)) at 1. apply map_ext. now intros []. Qed.

  Lemma scatter_to (xs : list V) : forall k i, to (k + i) (map (fun p => (fst p, Plain (snd p))) (combine (seq k (length xs)) xs)) =
    match nth_error xs i with Some v => [Plain v] | None => [] end.
  Proof.
    unfold to. induction xs as [|x xs IH]; intros k i; cbn [length seq combine map filter].
    - destruct i; reflexivity.
    - cbn [fst snd]. destruct i as [|i].
      + rewrite Nat.add_0_r, Nat.eqb_refl. cbn [map snd nth_error]. f_equal.
        assert (G : forall m (l : list V), k < m -> filter (fun p : nat * msg => Nat.eqb (fst p) k) (map (fun p => (fst p, Plain (snd p))) (combine (seq m (length l)) l)) = []).
        { intros m l. revert m. induction l as [|y l IHl]; intros m Hm; cbn [length seq combine map filter]; [reflexivity|]. cbn [fst].
          destruct (Nat.eqb m k) eqn:E; [apply Nat.eqb_eq in E; lia|]. apply IHl. lia. }
        rewrite G by lia. reflexivity.
      + destruct (Nat.eqb k (k + S i)) eqn:E; [apply Nat.eqb_eq in E; lia|]. cbn [nth_error]. rewrite <- (IH (S k) i). replace (S k + i) with (k + S i) by lia. reflexivity.
  Qed.

  Lemma gathered (xs : list V) : length xs = n -> flat_map (fun j => match nth_error xs j with Some v => [Tagged j v] | None => [] end) (seq 0 n)
    = map (fun p => Tagged (fst p) (snd p)) (combine (seq 0 n) xs).
  Proof.
    intros <-. assert (G : forall k ys, (forall j, nth_error ys j = nth_error xs (k + j)) ->
      flat_map (fun j => match nth_error xs j with Some v => [Tagged j v] | None => [] end) (seq k (length ys)) = map (fun p => Tagged (fst p) (snd p)) (combine (seq k (length ys)) ys)).
    { intros k ys. revert k. induction ys as [|y ys IH]; intros k H; cbn [length seq flat_map combine map]; [reflexivity|].
      pose proof (H 0) as H0. rewrite Nat.add_0_r in H0. cbn [nth_error] in H0. rewrite <- H0. cbn [app fst snd]. f_equal. apply IH.
      intros j. specialize (H (S j)). cbn [nth_error] in H. rewrite H. f_equal. lia. }
    apply G. intros j. reflexivity.
  Qed.

  Lemma addressed_all xs i : length xs = n -> i < n -> addressed (AllGather xs) i = map (fun p => Tagged (fst p) (snd p)) (combine (seq 0 n) xs).
  Proof.
    intros L Hi. rewrite <- gathered by assumption. unfold addressed. apply flat_map_ext. intros j. cbn [puts]. destruct (nth_error xs j); [|reflexivity].
    apply (to_map _ (fun _ => Tagged j v)); [reflexivity|apply seq_NoDup|apply in_seq; lia].
  Qed.
  Lemma addressed_gather d xs i : length xs = n -> addressed (Gather d xs) i = if Nat.eqb i d then map (fun p => Tagged (fst p) (snd p)) (combine (seq 0 n) xs) else [].
  Proof.
    intros L. unfold addressed. destruct (Nat.eqb i d) eqn:E.
    - rewrite <- gathered by assumption. apply flat_map_ext. intros j. cbn [puts]. destruct (nth_error xs j); [|reflexivity]. unfold to. cbn [filter fst].
      rewrite Nat.eqb_sym, E. reflexivity.
    - induction (seq 0 n) as [|j l IH]; [reflexivity|]. cbn [flat_map]. rewrite IH. cbn [puts]. destruct (nth_error xs j); [|reflexivity]. unfold to. cbn [filter fst].
      rewrite Nat.eqb_sym, E. reflexivity.
  Qed.
  Lemma addressed_scatter s xs i : s < n -> length xs = n -> i < n -> addressed (Scatter s xs) i = match nth_error xs i with Some v => [Plain v] | None => [] end.
  Proof.
    intros Hs L Hi. unfold addressed. rewrite (flat_map_single _ s); [|apply seq_NoDup|apply in_seq; lia|].
    - cbn [puts]. rewrite Nat.eqb_refl, <- L. exact (scatter_to xs 0 i).
    - intros j _ D. cbn [puts]. apply Nat.eqb_neq in D. now rewrite D.
  Qed.
  Lemma addressed_bcast s x i : s < n -> i < n -> addressed (Broadcast s x) i = [Plain x].
  Proof.
    intros Hs Hi. unfold addressed. rewrite (flat_map_single _ s); [|apply seq_NoDup|apply in_seq; lia|].
    - cbn [puts]. rewrite Nat.eqb_refl. apply (to_map _ (fun _ => Plain x)); [reflexivity|apply seq_NoDup|apply in_seq; lia].
    - intros j _ D. cbn [puts]. apply Nat.eqb_neq in D. now rewrite D.
  Qed.

  Lemma addressed_length o i : good o -> i < n -> length (addressed o i) = gets V n o i.
  Proof.
    intros G Hi. destruct o as [xs|d xs|s xs|s x]; cbn [good gets] in *.
    - rewrite addressed_all, map_length, combine_length, seq_length by assumption. lia.
    - rewrite addressed_gather by apply G. destruct (Nat.eqb i d); [|reflexivity]. rewrite map_length, combine_length, seq_length. lia.
    - rewrite addressed_scatter by tauto. destruct (nth_error xs i) eqn:E; [reflexivity|]. apply nth_error_None in E. lia.
    - now rewrite addressed_bcast.
  Qed.

  (** sorting by rank *)
  Lemma insert_comm r v q w (l : list (nat * V)) : r <> q -> insert V r v (insert V q w l) = insert V q w (insert V r v l).
  Proof.
    intros D. induction l as [|[k x] l IH]; cbn [insert].
    - destruct (r <=? q) eqn:E1, (q <=? r) eqn:E2; try reflexivity; [apply Nat.leb_le in E1, E2; lia|apply Nat.leb_gt in E1, E2; lia].
    - destruct (q <=? k) eqn:Eq, (r <=? k) eqn:Er; cbn [insert]; rewrite ?Eq, ?Er.
      + destruct (r <=? q) eqn:E1, (q <=? r) eqn:E2; cbn [insert]; rewrite ?Eq, ?Er; try reflexivity; [apply Nat.leb_le in E1, E2; lia|apply Nat.leb_gt in E1, E2; lia].
      + apply Nat.leb_le in Eq. apply Nat.leb_gt in Er. destruct (r <=? q) eqn:E1; [apply Nat.leb_le in E1; lia|]. cbn [insert]. reflexivity.
      + apply Nat.leb_gt in Eq. apply Nat.leb_le in Er. destruct (q <=? r) eqn:E1; [apply Nat.leb_le in E1; lia|]. reflexivity.
      + now rewrite IH.
  Qed.
  Definition tag (m : msg) : nat := match m with Tagged r _ => r | Plain _ => 0 end.
  Lemma untag_perm a b : Permutation a b -> NoDup (map tag a) -> (forall m, In m a -> exists r v, m = Tagged r v) -> untag V a = untag V b.
  Proof.
    intros P. induction P as [|m a b P IH|m m' a|a b c P1 IH1 P2 IH2]; intros N T.
    - reflexivity.
    - destruct (T m) as (r & v & ->); [now left|]. cbn [untag]. rewrite IH; [reflexivity| |]. { now inversion N. } intros x Hx. apply T. now right.
    - destruct (T m) as (r & v & ->); [right; now left|]. destruct (T m') as (q & w & ->); [now left|]. cbn [untag].
      destruct (untag V a); [|reflexivity]. cbn [option_map]. f_equal. apply insert_comm. inversion N as [|? ? N1 N2]; subst. cbn [map tag] in N1. intros ->. apply N1. now left.
    - rewrite IH1 by assumption. apply IH2; [|intros m Hm; apply T; now rewrite P1]. apply (Permutation_NoDup (Permutation_map tag P1) N).
  Qed.
  Lemma untag_sorted (xs : list V) : forall k, untag V (map (fun p => Tagged (fst p) (snd p)) (combine (seq k (length xs)) xs)) = Some (combine (seq k (length xs)) xs).
  Proof.
    induction xs as [|x xs IH]; intros k; cbn [length seq combine map untag]; [reflexivity|]. cbn [fst snd]. rewrite IH. cbn [option_map]. f_equal.
    destruct xs as [|y ys]; cbn [length seq combine insert]; [reflexivity|]. destruct (k <=? S k) eqn:E; [reflexivity|]. apply Nat.leb_gt in E. lia.
  Qed.
  Lemma combine_fst (xs : list V) : forall k, map fst (combine (seq k (length xs)) xs) = seq k (length xs).
  Proof. induction xs as [|x xs IH]; intros k; cbn [length seq combine map]; [reflexivity|]. cbn [fst]. now rewrite IH. Qed.
  Lemma combine_snd (xs : list V) : forall k, map snd (combine (seq k (length xs)) xs) = xs.
  Proof. induction xs as [|x xs IH]; intros k; cbn [length seq combine map]; [reflexivity|]. cbn [snd]. now rewrite IH. Qed.
  Lemma in_rank_order_ok xs got : length xs = n -> Permutation got (map (fun p => Tagged (fst p) (snd p)) (combine (seq 0 n) xs)) -> in_rank_order V got = RList xs.
  Proof.
    intros <- P. unfold in_rank_order. rewrite <- (untag_perm _ _ (Permutation_sym P)).
    - rewrite untag_sorted. now rewrite combine_snd.
    - rewrite map_map. cbn [tag]. rewrite combine_fst. apply seq_NoDup.
    - intros m Hm. apply in_map_iff in Hm as ([r v] & <- & _). eauto.
  Qed.
  Lemma returns_expected o i got : good o -> i < n -> Permutation got (addressed o i) -> returns V o i got = expected o i.
  Proof.
    intros G Hi P. destruct o as [xs|d xs|s xs|s x]; cbn [good returns expected] in *.
    - rewrite addressed_all in P by assumption. now apply in_rank_order_ok.
    - rewrite addressed_gather in P by apply G. destruct (Nat.eqb i d); [|reflexivity]. now apply in_rank_order_ok.
    - rewrite addressed_scatter in P by tauto. destruct (nth_error xs i) eqn:E; [|apply nth_error_None in E; lia].
      apply Permutation_sym, Permutation_length_1_inv in P. now subst.
    - rewrite addressed_bcast in P by assumption. apply Permutation_sym, Permutation_length_1_inv in P. now subst.
  Qed.

  (** ** The invariant *)
  Definition exp (l : list coll) (i : nat) : list (result V) := map (fun o => expected o i) l.
  Definition first_puts (p : list coll) (i : nat) : list (nat * msg) := match p with [] => [] | o :: _ => puts V n o i end.

  (** thread [i] is still collecting the items of [o] *)
  Definition inA (pre cur rest : list coll) (w : world) (left : list msg) (sent : list (nat * msg)) (i : nat) : Prop :=
    exists o got, cur = [o] /\ th w i = mkT (o :: rest) (Gets got) (exp pre i) /\ Permutation (got ++ left) (addressed o i) /\ sent = [].
  (** thread [i] is sending the items of the next collective or waiting *)
  Definition inB (pre cur rest : list coll) (w : world) (left : list msg) (sent : list (nat * msg)) (i : nat) : Prop :=
    left = [] /\ exists ps, sent ++ ps = first_puts rest i /\
      (th w i = mkT rest (Puts ps) (exp (pre ++ cur) i) \/ (th w i = mkT rest Wait (exp (pre ++ cur) i) /\ ps = [] /\ rest <> [])).
  Definition inv (p : list coll) (w : world) : Prop :=
    exists pre cur rest left sent new,
      p = pre ++ cur ++ rest /\ (cur = [] \/ exists o, cur = [o]) /\
      (forall i, i < n -> inA pre cur rest w (left i) (sent i) i \/ inB pre cur rest w (left i) (sent i) i) /\
      (forall i, mb w i = left i ++ new i) /\
      (forall i, Permutation (new i) (flat_map (fun j => to i (sent j)) (seq 0 n))).

  Definition sane (p : list coll) : Prop := Forall good p /\ Forall (fun o => waits V bb o = true) p.

  Lemma inv_initial p : inv p (initial V n p).
  Proof.
    exists [], [], p, (fun _ => []), (fun _ => []), (fun _ => []). split; [reflexivity|]. split; [now left|]. split; [|split; [reflexivity|]].
    - intros i _. right. split; [reflexivity|]. exists (first_puts p i). split; [reflexivity|]. left. reflexivity.
    - intros i. induction (seq 0 n); [constructor|exact IHl].
  Qed.

  Lemma inv_step p w w' : 0 < n -> sane p -> inv p w -> step V n bb w w' -> inv p w'.
  Proof.
    intros Hn [Gd Wt] (pre & cur & rest & left & sent & new & Ep & Ecur & Th & Mb & Nw) S.
    assert (Gr : Forall good rest /\ Forall (fun o => waits V bb o = true) rest /\ Forall good cur).
    { subst p. apply Forall_app in Gd as [_ Gd]. apply Forall_app in Gd as [Gc Gd]. apply Forall_app in Wt as [_ Wt]. apply Forall_app in Wt as [_ Wt]. auto. }
    destruct Gr as (Gr & Wr & Gc). destruct S as [w i d m ps q rs Hi E|w i o q rs Hi E|w H|w i o q got rs m mq Hi E Lt Em|w i o q got rs Hi E Le].
    - (* put *)
      destruct (Th i Hi) as [(o & got & _ & E' & _)|(El & ps' & Es & [E'|(E' & _)])]; [congruence| |congruence].
      rewrite E in E'. injection E' as -> <- ->.
      exists pre, cur, rest, left, (upd sent i (sent i ++ [(d, m)])), (upd new d (new d ++ [m])).
      split; [assumption|]. split; [assumption|]. split; [|split].
      + intros j Hj. destruct (Nat.eq_dec j i) as [->|D].
        * rewrite upd_same. right. split; [assumption|]. exists ps. split; [now rewrite <- app_assoc|]. left. cbn [th]. apply upd_same.
        * rewrite upd_other by assumption. unfold inA, inB. cbn [th]. rewrite upd_other by assumption. exact (Th j Hj).
      + intros j. cbn [mb]. unfold upd. destruct (Nat.eqb j d) eqn:Ed; [apply Nat.eqb_eq in Ed as ->; rewrite Mb; now rewrite app_assoc|apply Mb].
      + intros j. assert (I : In i (seq 0 n)) by (apply in_seq; lia). destruct (Nat.eq_dec j d) as [->|D].
        * rewrite upd_same. rewrite (flat_map_grow (to d) sent i (sent i ++ [(d, m)]) [m] (seq 0 n) (seq_NoDup _ _) I).
          2: { rewrite to_app. f_equal. unfold to. cbn [filter fst]. now rewrite Nat.eqb_refl. }
          apply Permutation_app_tail. apply Nw.
        * rewrite upd_other by assumption. rewrite (flat_map_grow (to j) sent i (sent i ++ [(d, m)]) [] (seq 0 n) (seq_NoDup _ _) I).
          2: { rewrite to_app. f_equal. unfold to. cbn [filter fst]. destruct (Nat.eqb d j) eqn:X; [apply Nat.eqb_eq in X; congruence|reflexivity]. }
          rewrite app_nil_r. apply Nw.
    - (* arrive *)
      destruct (Th i Hi) as [(o' & got & _ & E' & _)|(El & ps' & Es & [E'|(E' & _)])]; [congruence| |congruence].
      rewrite E in E'. injection E' as <- <- ->.
      rewrite (Forall_inv Wr). exists pre, cur, (o :: q), left, sent, new.
      split; [assumption|]. split; [assumption|]. split; [|split; assumption].
      intros j Hj. destruct (Nat.eq_dec j i) as [->|D].
      + right. split; [assumption|]. exists []. split; [assumption|]. right. split; [|split; [reflexivity|discriminate]]. cbn [th]. apply upd_same.
      + unfold inA, inB. cbn [th]. rewrite upd_other by assumption. exact (Th j Hj).
    - (* open *)
      assert (B : forall i, i < n -> left i = [] /\ sent i = first_puts rest i /\ th w i = mkT rest Wait (exp (pre ++ cur) i) /\ rest <> []).
      { intros i Hi. specialize (H i Hi). destruct (Th i Hi) as [(o' & got & _ & E' & _)|(El & ps' & Es & [E'|(E' & Eq & Ne)])].
        - rewrite E' in H. discriminate.
        - rewrite E' in H. discriminate.
        - subst ps'. rewrite app_nil_r in Es. auto. }
      destruct rest as [|o q]; [destruct (B 0 Hn) as (_ & _ & _ & X); congruence|].
      exists (pre ++ cur), [o], q, (fun i => mb w i), (fun _ => []), (fun _ => []).
      split; [rewrite Ep; now rewrite <- app_assoc|]. split; [right; now exists o|]. split; [|split].
      + intros i Hi. left. destruct (B i Hi) as (B1 & B2 & B3 & _). exists o, []. split; [reflexivity|]. split; [|split; [|reflexivity]].
        * cbn [th]. now rewrite B3.
        * cbn [app]. rewrite Mb, B1. cbn [app]. rewrite Nw. unfold addressed.
          assert (F : forall l, (forall j, In j l -> j < n) -> flat_map (fun j => to i (sent j)) l = flat_map (fun j => to i (puts V n o j)) l).
          { clear - B. induction l as [|j l IH]; intros Hl; [reflexivity|]. cbn [flat_map]. rewrite IH by (intros k Hk; apply Hl; now right).
            destruct (B j) as (_ & -> & _); [apply Hl; now left|]. reflexivity. }
          rewrite F; [reflexivity|]. intros j Hj. apply in_seq in Hj. lia.
      + intros i. cbn [mb]. now rewrite app_nil_r.
      + intros i. change (to i []) with (@nil msg). now rewrite flat_map_nil.
    - (* get *)
      destruct (Th i Hi) as [(o' & got' & Ec & E' & P & Es)|(El & ps' & Es & [E'|(E' & _)])]; [|congruence|congruence].
      rewrite E in E'. injection E' as <- -> <- ->. subst cur. pose proof (addressed_length o i (Forall_inv Gc) Hi) as La.
      pose proof (Permutation_length P) as Lp. rewrite app_length in Lp.
      destruct (left i) as [|m' l'] eqn:Eli; [cbn [length] in Lp; lia|].
      pose proof (Mb i) as Mi. rewrite Em, Eli in Mi. cbn [app] in Mi. injection Mi as <- ->.
      exists pre, [o], rest, (upd left i l'), sent, new.
      split; [assumption|]. split; [assumption|]. split; [|split; [|assumption]].
      + intros j Hj. destruct (Nat.eq_dec j i) as [->|D].
        * left. exists o, (got ++ [m]). split; [reflexivity|]. split; [cbn [th]; apply upd_same|]. split; [|assumption]. rewrite upd_same. rewrite <- app_assoc. exact P.
        * rewrite upd_other by assumption. unfold inA, inB. cbn [th]. rewrite upd_other by assumption. exact (Th j Hj).
      + intros j. cbn [mb]. unfold upd. destruct (Nat.eqb j i) eqn:Ed; [apply Nat.eqb_eq in Ed as ->; reflexivity|apply Mb].
    - (* return *)
      destruct (Th i Hi) as [(o' & got' & Ec & E' & P & Es)|(El & ps' & Es & [E'|(E' & _)])]; [|congruence|congruence].
      rewrite E in E'. injection E' as <- -> <- ->. subst cur. pose proof (addressed_length o i (Forall_inv Gc) Hi) as La.
      pose proof (Permutation_length P) as Lp. rewrite app_length in Lp.
      destruct (left i) as [|m' l'] eqn:Eli; [|cbn [length] in Lp; lia]. rewrite app_nil_r in P.
      exists pre, [o], rest, left, sent, new.
      split; [assumption|]. split; [assumption|]. split; [|split; assumption].
      intros j Hj. destruct (Nat.eq_dec j i) as [->|D].
      + right. split; [assumption|]. rewrite Es. exists (first_puts rest i). split; [reflexivity|]. left. cbn [th]. rewrite upd_same.
        unfold begin. f_equal. rewrite (returns_expected o i got (Forall_inv Gc) Hi P). unfold exp. now rewrite map_app.
      + unfold inA, inB. cbn [th]. rewrite upd_other by assumption. exact (Th j Hj).
  Qed.

  Lemma reach_inv p w : 0 < n -> sane p -> reach V n bb p w -> inv p w.
  Proof. intros Hn Sn R. induction R as [|w w' R IH S]; [apply inv_initial|]. eapply inv_step; eassumption. Qed.

  Lemma exp_firstn a b i : exp a i = firstn (length (exp a i)) (exp (a ++ b) i).
  Proof. unfold exp. rewrite map_app, firstn_app, firstn_all, Nat.sub_diag. cbn [firstn]. now rewrite app_nil_r. Qed.
  Lemma inv_results p w i : inv p w -> i < n -> rets (th w i) = firstn (length (rets (th w i))) (exp p i) /\ (todo (th w i) = [] -> rets (th w i) = exp p i).
  Proof.
    intros (pre & cur & rest & left & sent & new & Ep & Ecur & Th & Mb & Nw) Hi. subst p.
    destruct (Th i Hi) as [(o & got & Ec & E & _)|(El & ps & Es & [E|(E & _ & Ne)])]; rewrite E; cbn [rets todo].
    - split; [apply exp_firstn|discriminate].
    - rewrite app_assoc. split; [apply exp_firstn|]. intros ->. now rewrite app_nil_r.
    - rewrite app_assoc. split; [apply exp_firstn|]. intros ->. now rewrite app_nil_r.
  Qed.

  (** ** Progress *)
  Lemma bounded_dec (P : nat -> bool) k : (exists i, i < k /\ P i = true) \/ (forall i, i < k -> P i = false).
  Proof.
    induction k as [|k [(i & A & B)|H]]; [right; lia|left; exists i; split; [lia|assumption]|].
    destruct (P k) eqn:E; [left; exists k; split; [lia|assumption]|]. right. intros i Hi. destruct (Nat.eq_dec i k) as [->|]; [assumption|]. apply H. lia.
  Qed.
  Lemma inv_progress p w : 0 < n -> sane p -> inv p w -> (forall i, i < n -> todo (th w i) = []) \/ exists w', step V n bb w w'.
  Proof.
    intros Hn [Gd Wt] (pre & cur & rest & left & sent & new & Ep & Ecur & Th & Mb & Nw).
    assert (Gc : Forall good cur) by (subst p; apply Forall_app in Gd as [_ Gd]; now apply Forall_app in Gd).
    destruct (bounded_dec (fun i => match ph (th w i) with Gets _ => true | _ => false end) n) as [(i & Hi & X)|NoA].
    - right. destruct (Th i Hi) as [(o & got & Ec & E & P & Es)|(El & ps & Es & [E|(E & _)])]; [|rewrite E in X; discriminate|rewrite E in X; discriminate].
      subst cur. pose proof (addressed_length o i (Forall_inv Gc) Hi) as La. pose proof (Permutation_length P) as Lp. rewrite app_length in Lp.
      destruct (left i) as [|m l'] eqn:Eli.
      + eexists. eapply s_return; [exact Hi|exact E|]. cbn [length] in Lp. lia.
      + eexists. eapply (s_get _ _ _ w i o rest got _ m (l' ++ new i)); [exact Hi|exact E| |].
        * cbn [length] in Lp. lia.
        * rewrite Mb, Eli. reflexivity.
    - assert (B : forall i, i < n -> exists ps, (th w i = mkT rest (Puts ps) (exp (pre ++ cur) i) \/ (th w i = mkT rest Wait (exp (pre ++ cur) i) /\ ps = [] /\ rest <> []))).
      { intros i Hi. specialize (NoA i Hi). destruct (Th i Hi) as [(o & got & Ec & E & P & Es)|(El & ps & Es & X)]; [rewrite E in NoA; discriminate|]. eauto. }
      destruct rest as [|o q].
      { left. intros i Hi. destruct (B i Hi) as (ps & [E|(_ & _ & X)]); [now rewrite E|congruence]. }
      right. destruct (bounded_dec (fun i => match ph (th w i) with Puts _ => true | _ => false end) n) as [(i & Hi & X)|NoP].
      + destruct (B i Hi) as (ps & [E|(E & _)]); [|rewrite E in X; discriminate]. destruct ps as [|[d m] ps].
        * eexists. eapply s_arrive; eassumption.
        * eexists. eapply s_put; eassumption.
      + eexists. apply s_open. intros i Hi. specialize (NoP i Hi). destruct (B i Hi) as (ps & [E|(E & _)]); rewrite E in *; [discriminate|reflexivity].
  Qed.

  (** ** Every run ends *)
  Definition cost (o : coll) (i : nat) : nat := length (puts V n o i) + gets V n o i + 3.
  Definition costs (p : list coll) (i : nat) : nat := list_sum (map (fun o => cost o i) p).
  Definition work (i : nat) (t : thread V) : nat :=
    match ph t, todo t with
    | Puts ps, [] => length ps
    | Puts ps, o :: p => length ps + gets V n o i + 3 + costs p i
    | Wait, [] => 1
    | Wait, o :: p => gets V n o i + 2 + costs p i
    | Gets got, [] => 0
    | Gets got, o :: p => (gets V n o i - length got) + 1 + costs p i
    end.
  Definition total (w : world) : nat := list_sum (map (fun i => work i (th w i)) (seq 0 n)).
  Lemma sum_upd (f : nat -> thread V) i t l : NoDup l -> In i l -> work i t < work i (f i) ->
    list_sum (map (fun j => work j (upd f i t j)) l) < list_sum (map (fun j => work j (f j)) l).
  Proof.
    intros N I H. induction N as [|j l Nj N IH]; [destruct I|]. cbn [map list_sum fold_right]. destruct (Nat.eq_dec j i) as [->|D].
    - rewrite upd_same. assert (E : map (fun j => work j (upd f i t j)) l = map (fun j => work j (f j)) l).
      { apply map_ext_in. intros k Hk. rewrite upd_other; [reflexivity|]. intros ->. contradiction. }
      unfold list_sum in *. rewrite E. lia.
    - destruct I as [->|I]; [contradiction|]. rewrite upd_other by assumption. specialize (IH I). unfold list_sum in *. lia.
  Qed.
  Lemma sum_all (f g : nat -> nat) l : l <> [] -> (forall i, In i l -> f i < g i) -> list_sum (map f l) < list_sum (map g l).
  Proof.
    intros Ne H. destruct l as [|i l]; [congruence|]. clear Ne. revert i H. induction l as [|j l IH]; intros i H.
    - specialize (H i (or_introl eq_refl)). cbn. lia.
    - pose proof (H i (or_introl eq_refl)). specialize (IH j (fun k Hk => H k (or_intror Hk))). cbn [map list_sum fold_right] in *. unfold list_sum in IH. cbn [map fold_right] in IH. unfold list_sum. lia.
  Qed.
  Lemma work_begin p i rs : work i (begin V n p i rs) = costs p i.
  Proof. unfold work, begin. cbn [ph todo]. destruct p as [|o p]; [reflexivity|]. unfold costs. cbn [map list_sum fold_right]. unfold cost at 2. unfold list_sum. lia. Qed.
  Lemma step_decreases w w' : 0 < n -> (forall i, i < n -> ph (th w i) = Wait -> todo (th w i) <> []) -> step V n bb w w' -> total w' < total w.
  Proof.
    intros Hn Hw S. unfold total. destruct S as [w i d m ps q rs Hi E|w i o q rs Hi E|w H|w i o q got rs m mq Hi E Lt Em|w i o q got rs Hi E Le]; cbn [th].
    1,2,4,5: apply sum_upd; [apply seq_NoDup|apply in_seq; lia|]; rewrite E; unfold work; cbn [ph todo].
    - destruct q; cbn [length]; lia.
    - cbn [length]. destruct (waits V bb o); cbn [length]; lia.
    - rewrite app_length. cbn [length]. lia.
    - fold (work i (begin V n q i (rs ++ [returns V o i got]))). rewrite work_begin. lia.
    - apply sum_all; [destruct n; [lia|discriminate]|]. intros i Hi. apply in_seq in Hi. assert (Hi' : i < n) by lia.
      pose proof (H i Hi') as Hp. pose proof (Hw i Hi' Hp) as Ht. unfold work. cbn [ph todo]. rewrite Hp. destruct (todo (th w i)); [congruence|]. cbn [length]. lia.
  Qed.
  (** [k] steps from [w] to [w'] *)
  Inductive steps : nat -> world -> world -> Prop :=
  | st_0 w : steps 0 w w
  | st_S k w w1 w2 : steps k w w1 -> step V n bb w1 w2 -> steps (S k) w w2.
  Lemma steps_reach p k w : steps k (initial V n p) w -> reach V n bb p w.
  Proof. intros S. remember (initial V n p) as w0. induction S; subst; [constructor|]. econstructor; [now apply IHS|assumption]. Qed.
  Lemma inv_wait p w : inv p w -> forall i, i < n -> ph (th w i) = Wait -> todo (th w i) <> [].
  Proof.
    intros (pre & cur & rest & left & sent & new & Ep & Ecur & Th & Mb & Nw) i Hi Hp.
    destruct (Th i Hi) as [(o & got & Ec & E & _)|(El & ps & Es & [E|(E & _ & Ne)])]; rewrite E in *; cbn [ph todo] in *; congruence.
  Qed.
  Lemma steps_bound p k w : 0 < n -> sane p -> steps k (initial V n p) w -> k + total w <= list_sum (map (costs p) (seq 0 n)).
  Proof.
    intros Hn Sn S. remember (initial V n p) as w0. induction S as [w|k w w1 w2 S IH St]; subst.
    - cbn [plus]. unfold total, initial. cbn [th]. apply Nat.eq_le_incl. f_equal. apply map_ext. intros i. apply work_begin.
    - specialize (IH eq_refl). pose proof (reach_inv p w1 Hn Sn (steps_reach p k w1 S)) as I.
      pose proof (step_decreases w1 w2 Hn (inv_wait p w1 I) St). lia.
  Qed.
End IP.

(** * Broadcasts without a barrier, all from one source *)
Section OneSource.
  Context {V : Type}.
  Variable n : nat.
  Variable s : nat.
  Hypothesis Hs : s < n.
  Variable xs : list V.
  Notation bc := (fun x => Broadcast s x).

  Definition at_ (w : world V) (i : nat) (K T : nat) (C : nat -> nat) : Prop :=
    K <= length xs /\ todo (th w i) = map bc (skipn K xs) /\ rets (th w i) = map (fun x => RItem (Plain x)) (firstn K xs) /\
    match ph (th w i) with
    | Puts ps => T = K /\ (i <> s -> ps = []) /\
        (i = s -> (K = length xs /\ ps = [] /\ forall d, d < n -> C d = K) \/
                  exists c x, c <= n /\ nth_error xs K = Some x /\ ps = map (fun d => (d, Plain x)) (seq c (n - c)) /\ forall d, d < n -> C d = K + (if d <? c then 1 else 0))
    | Wait => False
    | Gets got => exists x, nth_error xs K = Some x /\ (got = [] /\ T = K \/ got = [Plain x] /\ T = S K) /\ (i = s -> forall d, d < n -> C d = S K)
    end.
  Definition binv (w : world V) : Prop :=
    exists (K T C : nat -> nat), (forall i, i < n -> at_ w i (K i) (T i) C) /\
      (forall d, d < n -> T d <= C d /\ C d <= length xs /\ mb w d = map Plain (skipn (T d) (firstn (C d) xs))).

  Lemma skipn_cons (l : list V) : forall k x, nth_error l k = Some x -> skipn k l = x :: skipn (S k) l.
  Proof. induction l as [|y l IH]; intros [|k] x H; cbn in H; try discriminate. { now injection H as ->. } cbn [skipn]. rewrite (IH k x H). reflexivity. Qed.
  Lemma firstn_snoc (l : list V) : forall k x, nth_error l k = Some x -> firstn (S k) l = firstn k l ++ [x].
  Proof. induction l as [|y l IH]; intros [|k] x H; cbn in H; try discriminate. { now injection H as ->. } cbn [firstn app]. f_equal. now apply IH. Qed.

  Lemma puts_bcast x i : puts V n (Broadcast s x) i = if Nat.eqb i s then map (fun d => (d, Plain x)) (seq 0 n) else []. Proof. reflexivity. Qed.
  Lemma begin_at w i C (K : nat) : K <= length xs -> th w i = begin V n (map bc (skipn K xs)) i (map (fun x => RItem (Plain x)) (firstn K xs)) ->
    (i = s -> forall d, d < n -> C d = K) -> at_ w i K K C.
  Proof.
    intros HK E HC. unfold at_. rewrite E. unfold begin. cbn [todo rets ph]. split; [assumption|]. split; [reflexivity|]. split; [reflexivity|]. split; [reflexivity|].
    destruct (nth_error xs K) as [x|] eqn:Ex.
    - rewrite (skipn_cons _ _ _ Ex). cbn [map]. rewrite puts_bcast. split.
      + intros D. apply Nat.eqb_neq in D. now rewrite D.
      + intros ->. right. exists 0, x. rewrite Nat.eqb_refl, Nat.sub_0_r. split; [lia|]. split; [reflexivity|]. split; [reflexivity|]. intros d Hd. cbn. rewrite HC by (reflexivity || assumption). lia.
    - apply nth_error_None in Ex. rewrite skipn_all2 by assumption. cbn [map]. split; [reflexivity|]. intros ->. left. split; [lia|]. split; [reflexivity|]. auto.
  Qed.
  Lemma binv_initial : binv (initial V n (map bc xs)).
  Proof.
    exists (fun _ => 0), (fun _ => 0), (fun _ => 0). split.
    - intros i Hi. apply begin_at; [lia|reflexivity|reflexivity].
    - intros d Hd. split; [lia|]. split; [lia|]. reflexivity.
  Qed.
  (** changing another thread's entry or the mailboxes does not matter *)
  Lemma at_other w w' i K T C C' : th w' i = th w i -> (i = s -> C' = C) -> at_ w i K T C -> at_ w' i K T C'.
  Proof.
    intros E HC A. unfold at_ in *. rewrite E. destruct A as (A1 & A2 & A3 & A4). split; [assumption|]. split; [assumption|]. split; [assumption|].
    destruct (ph (th w i)); [|assumption|].
    - destruct A4 as (B1 & B2 & B3). split; [assumption|]. split; [assumption|]. intros Es. rewrite (HC Es). auto.
    - destruct A4 as (x & B1 & B2 & B3). exists x. split; [assumption|]. split; [assumption|]. intros Es. rewrite (HC Es). auto.
  Qed.

  Lemma binv_step w w' : binv w -> step V n false w w' -> binv w'.
  Proof.
    intros (K & T & C & Th & Mb) S. destruct S as [w i d m ps q rs Hi E|w i o q rs Hi E|w H|w i o q got rs m mq Hi E Lt Em|w i o q got rs Hi E Le].
    - pose proof (Th i Hi) as A. unfold at_ in A. rewrite E in A. cbn [todo rets ph] in A. destruct A as (A1 & A2 & A3 & A4 & A5 & A6).
      destruct (Nat.eq_dec i s) as [Ei|D]; [|specialize (A5 D); discriminate].
      destruct (A6 Ei) as [(_ & X & _)|(c & x & Hc & Ex & Eps & HC)]; [discriminate|]. subst i.
      assert (c < n) by (destruct (Nat.eq_dec c n) as [->|]; [rewrite Nat.sub_diag in Eps; discriminate|lia]).
      replace (n - c) with (S (n - S c)) in Eps by lia. cbn [seq map] in Eps. injection Eps as -> -> ->.
      exists K, T, (upd C c (S (K s))). split.
      + intros j Hj. destruct (Nat.eq_dec j s) as [->|D].
        * unfold at_. cbn [th]. rewrite upd_same. cbn [todo rets ph]. split; [assumption|]. split; [assumption|]. split; [assumption|]. split; [assumption|]. split; [congruence|].
          intros _. right. exists (S c), x. split; [lia|]. split; [assumption|]. split; [reflexivity|]. intros d Hd. unfold upd. destruct (Nat.eqb d c) eqn:Ed.
          -- apply Nat.eqb_eq in Ed as ->. destruct (c <? S c) eqn:X; [lia|apply Nat.ltb_ge in X; lia].
          -- apply Nat.eqb_neq in Ed. rewrite (HC d Hd). destruct (d <? c) eqn:X, (d <? S c) eqn:Y; try reflexivity; [apply Nat.ltb_lt in X; apply Nat.ltb_ge in Y; lia|apply Nat.ltb_ge in X; apply Nat.ltb_lt in Y; lia].
        * apply (at_other w _ _ _ _ C); [cbn [th]; now apply upd_other|congruence|exact (Th j Hj)].
      + intros d Hd. destruct (Nat.eq_dec d c) as [->|D].
        * rewrite upd_same. destruct (Mb c Hd) as (M1 & M2 & M3). pose proof (HC c Hd) as Hcc. rewrite Nat.ltb_irrefl, Nat.add_0_r in Hcc.
          assert (K s < length xs) by (apply nth_error_Some; congruence). split; [lia|]. split; [lia|].
          cbn [mb]. rewrite upd_same, M3, (firstn_snoc _ _ _ Ex), skipn_app, map_app, Hcc. f_equal.
          replace (T c - length (firstn (K s) xs)) with 0 by (rewrite firstn_length; lia). reflexivity.
        * cbn [mb]. rewrite !upd_other by assumption. now apply Mb.
    - pose proof (Th i Hi) as A. unfold at_ in A. rewrite E in A. cbn [todo rets ph] in A. destruct A as (A1 & A2 & A3 & A4 & A5 & A6).
      destruct (nth_error xs (K i)) as [x|] eqn:Ex; [|apply nth_error_None in Ex; rewrite skipn_all2 in A2 by assumption; discriminate].
      pose proof A2 as A2'. rewrite (skipn_cons _ _ _ Ex) in A2'. cbn [map] in A2'. injection A2' as -> Eq. cbn [waits].
      exists K, T, C. split; [|exact Mb]. intros j Hj. destruct (Nat.eq_dec j i) as [->|D].
      + unfold at_. cbn [th]. rewrite upd_same. cbn [todo rets ph]. split; [assumption|]. split; [assumption|]. split; [assumption|].
        exists x. split; [assumption|]. split; [left; auto|]. intros Ei. destruct (A6 Ei) as [(X & _)|(c & y & Hc & Ey & Eps & HC)].
        * assert (K i < length xs) by (apply nth_error_Some; congruence). lia.
        * intros d Hd. rewrite (HC d Hd). destruct (Nat.eq_dec c n) as [->|]; [|replace (n - c) with (S (n - S c)) in Eps by lia; discriminate].
          apply Nat.ltb_lt in Hd. rewrite Hd. lia.
      + apply (at_other w _ _ _ _ C); [cbn [th]; now apply upd_other|congruence|exact (Th j Hj)].
    - specialize (H s Hs). pose proof (Th s Hs) as A. unfold at_ in A. rewrite H in A. tauto.
    - pose proof (Th i Hi) as A. unfold at_ in A. rewrite E in A. cbn [todo rets ph] in A. destruct A as (A1 & A2 & A3 & x & Ex & A4 & A5).
      pose proof A2 as A2'. rewrite (skipn_cons _ _ _ Ex) in A2'. cbn [map] in A2'. injection A2' as -> Eq. cbn [gets] in Lt.
      destruct A4 as [(-> & ET)|(-> & _)]; [|cbn [length] in Lt; lia].
      destruct (Mb i Hi) as (M1 & M2 & M3). rewrite Em, ET in M3.
      assert (HC : K i < C i). { destruct (Nat.eq_dec (C i) (K i)) as [X|]; [|lia]. rewrite skipn_all2 in M3 by (rewrite firstn_length; lia). discriminate. }
      assert (Ef : nth_error (firstn (C i) xs) (K i) = Some x).
      { rewrite <- Ex. clear - HC. revert HC. generalize (C i) (K i). intros c k. revert c k. induction xs as [|y l IH]; intros c k H; [destruct c, k; reflexivity|].
        destruct c; [lia|]. destruct k; [reflexivity|]. cbn [firstn nth_error]. apply IH. lia. }
      rewrite (skipn_cons _ _ _ Ef) in M3. cbn [map] in M3. injection M3 as -> ->.
      exists K, (upd T i (S (K i))), C. split.
      + intros j Hj. destruct (Nat.eq_dec j i) as [->|D].
        * rewrite upd_same. unfold at_. cbn [th]. rewrite upd_same. cbn [todo rets ph]. split; [assumption|]. split; [assumption|]. split; [assumption|].
          exists x. split; [assumption|]. split; [right; auto|assumption].
        * rewrite upd_other by assumption. apply (at_other w _ _ _ _ C); [cbn [th]; now apply upd_other|congruence|exact (Th j Hj)].
      + intros d Hd. destruct (Nat.eq_dec d i) as [->|D].
        * cbn [mb]. rewrite !upd_same. split; [lia|]. split; [assumption|reflexivity].
        * cbn [mb]. rewrite !upd_other by assumption. now apply Mb.
    - pose proof (Th i Hi) as A. unfold at_ in A. rewrite E in A. cbn [todo rets ph] in A. destruct A as (A1 & A2 & A3 & x & Ex & A4 & A5).
      pose proof A2 as A2'. rewrite (skipn_cons _ _ _ Ex) in A2'. cbn [map] in A2'. injection A2' as -> Eq. cbn [gets] in Le.
      destruct A4 as [(-> & _)|(-> & ET)]; [cbn [length] in Le; lia|].
      assert (K i < length xs) by (apply nth_error_Some; congruence).
      exists (upd K i (S (K i))), T, C. split; [|exact Mb]. intros j Hj. destruct (Nat.eq_dec j i) as [->|D].
      + rewrite upd_same, ET. apply begin_at; [lia| |assumption]. cbn [th]. rewrite upd_same, Eq. f_equal. cbn [returns]. rewrite A3, (firstn_snoc _ _ _ Ex), map_app. reflexivity.
      + rewrite upd_other by assumption. apply (at_other w _ _ _ _ C); [cbn [th]; now apply upd_other|congruence|exact (Th j Hj)].
  Qed.
  Lemma binv_reach w : reach V n false (map bc xs) w -> binv w.
  Proof. intros R. induction R; [apply binv_initial|]. eapply binv_step; eassumption. Qed.
  Lemma binv_results w i : binv w -> i < n -> rets (th w i) = firstn (length (rets (th w i))) (map (fun x => RItem (Plain x)) xs) /\
    (todo (th w i) = [] -> rets (th w i) = map (fun x => RItem (Plain x)) xs).
  Proof.
    intros (K & T & C & Th & Mb) Hi. destruct (Th i Hi) as (A1 & A2 & A3 & _). rewrite A3. split.
    - rewrite map_length, firstn_length, Nat.min_l by assumption. symmetry. apply firstn_map.
    - rewrite A2. intros E. apply map_eq_nil in E. pose proof (firstn_skipn (K i) xs) as X. rewrite E, app_nil_r in X. now rewrite X.
  Qed.
  Lemma binv_progress w : binv w -> (forall i, i < n -> todo (th w i) = []) \/ exists w', step V n false w w'.
  Proof.
    intros (K & T & C & Th & Mb).
    assert (Live : forall i, i < n -> todo (th w i) <> [] -> (exists ps, ph (th w i) = Puts ps) \/ K i < C i -> exists w', step V n false w w').
    { intros i Hi Ne Or. pose proof (Th i Hi) as A. destruct (th w i) as [td p rs] eqn:E. unfold at_ in A. rewrite E in A. cbn [todo rets ph] in *. destruct A as (A1 & A2 & A3 & A4).
      destruct td as [|o td]; [congruence|]. destruct p as [ps| |got]; [|tauto|].
      - destruct ps as [|[d m] ps]; eexists; [eapply s_arrive; eassumption|eapply s_put; eassumption].
      - destruct Or as [(ps & X)|Lt]; [discriminate|]. destruct A4 as (x & Ex & A4 & A5). rewrite (skipn_cons _ _ _ Ex) in A2. cbn [map] in A2. injection A2 as -> Eq.
        destruct A4 as [(-> & ET)|(-> & ET)].
        + destruct (Mb i Hi) as (M1 & M2 & M3). destruct (mb w i) as [|m q] eqn:Em.
          * exfalso. apply (f_equal (@length _)) in M3. rewrite map_length, skipn_length, firstn_length in M3. cbn [length] in M3. lia.
          * eexists. eapply s_get; [exact Hi|exact E|cbn; lia|exact Em].
        + eexists. eapply s_return; [exact Hi|exact E|reflexivity]. }
    destruct (todo (th w s)) as [|o td] eqn:Es.
    - destruct (bounded_dec (fun i => match todo (th w i) with [] => false | _ => true end) n) as [(i & Hi & X)|No].
      + right. apply (Live i Hi); [destruct (todo (th w i)); congruence|]. right. pose proof (Th s Hs) as A. unfold at_ in A. destruct A as (A1 & A2 & A3 & A4). rewrite Es in A2.
        symmetry in A2. apply map_eq_nil in A2. assert (HK : K s = length xs). { apply (f_equal (@length _)) in A2. rewrite skipn_length in A2. cbn [length] in A2. lia. }
        assert (HC : C i = K s).
        { destruct (ph (th w s)); [|tauto|].
          - destruct A4 as (_ & _ & A6). destruct (A6 eq_refl) as [(_ & _ & HC)|(c & x & _ & Ex & _)]; [now apply HC|]. assert (K s < length xs) by (apply nth_error_Some; congruence). lia.
          - destruct A4 as (x & Ex & _). assert (K s < length xs) by (apply nth_error_Some; congruence). lia. }
        rewrite HC, HK. pose proof (Th i Hi) as (B1 & B2 & _). destruct (Nat.eq_dec (K i) (length xs)) as [Y|]; [|lia].
        rewrite B2, Y, skipn_all in X. discriminate.
      + left. intros i Hi. specialize (No i Hi). destruct (todo (th w i)); [reflexivity|discriminate].
    - right. apply (Live s Hs); [congruence|]. pose proof (Th s Hs) as A. unfold at_ in A. destruct A as (A1 & A2 & A3 & A4). destruct (ph (th w s)) as [ps| |got]; [left; eauto|tauto|].
      destruct A4 as (x & Ex & _ & A5). right. rewrite (A5 eq_refl s Hs). lia.
  Qed.
End OneSource.

(** * Running a chosen schedule *)
Section Sched.
  Context {V : Type}.
  Variable n : nat.
  Variable bb : bool.
  Definition waiting (t : thread V) : bool := match ph t with Wait => true | _ => false end.
  (** let thread [i] do what it can do next *)
  Definition act (w : world V) (i : nat) : option (world V) :=
    if negb (i <? n) then None else
    match th w i with
    | mkT p (Puts ((d, m) :: ps)) rs => Some (mkW (upd (th w) i (mkT p (Puts ps) rs)) (upd (mb w) d (mb w d ++ [m])))
    | mkT (o :: p) (Puts []) rs => Some (mkW (upd (th w) i (mkT (o :: p) (if waits V bb o then Wait else Gets []) rs)) (mb w))
    | mkT _ Wait _ => if forallb (fun j => waiting (th w j)) (seq 0 n) then Some (mkW (fun i => mkT (todo (th w i)) (Gets []) (rets (th w i))) (mb w)) else None
    | mkT (o :: p) (Gets got) rs =>
        if length got =? gets V n o i then Some (mkW (upd (th w) i (begin V n p i (rs ++ [returns V o i got]))) (mb w))
        else if length got <? gets V n o i then match mb w i with m :: q => Some (mkW (upd (th w) i (mkT (o :: p) (Gets (got ++ [m])) rs)) (upd (mb w) i q)) | [] => None end
        else None
    | _ => None
    end.
  Lemma act_step w i w' : act w i = Some w' -> step V n bb w w'.
  Proof.
    unfold act. destruct (i <? n) eqn:Hi; cbn [negb]; [|discriminate]. apply Nat.ltb_lt in Hi. destruct (th w i) as [td p rs] eqn:E. destruct td as [|o td], p as [ps| |got]; try discriminate.
    - destruct ps as [|[d m] ps]; [discriminate|]. intros X. injection X as <-. eapply s_put; eassumption.
    - destruct (forallb _ _) eqn:F; [|discriminate]. intros X. injection X as <-. apply s_open. intros j Hj. rewrite forallb_forall in F. specialize (F j). unfold waiting in F.
      destruct (ph (th w j)); [|reflexivity|]; discriminate F; apply in_seq; lia.
    - destruct ps as [|[d m] ps]; intros X; injection X as <-; [eapply s_arrive|eapply s_put]; eassumption.
    - destruct (forallb _ _) eqn:F; [|discriminate]. intros X. injection X as <-. apply s_open. intros j Hj. rewrite forallb_forall in F. specialize (F j). unfold waiting in F.
      destruct (ph (th w j)); [|reflexivity|]; discriminate F; apply in_seq; lia.
    - destruct (length got =? gets V n o i) eqn:L; [apply Nat.eqb_eq in L; intros X; injection X as <-; eapply s_return; eassumption|].
      destruct (length got <? gets V n o i) eqn:M; [|discriminate]. apply Nat.ltb_lt in M. destruct (mb w i) as [|m q] eqn:Em; [discriminate|]. intros X. injection X as <-. eapply s_get; eassumption.
  Qed.
  Fixpoint sched (is : list nat) (w : world V) : option (world V) :=
    match is with [] => Some w | i :: is => match act w i with Some w' => sched is w' | None => None end end.
  Lemma sched_reach p is : forall w w', reach V n bb p w -> sched is w = Some w' -> reach V n bb p w'.
  Proof.
    induction is as [|i is IH]; intros w w' R S; cbn [sched] in S; [now injection S as <-|]. destruct (act w i) as [w1|] eqn:A; [|discriminate].
    apply (IH w1); [|assumption]. eapply r_step; [exact R|]. eapply act_step. exact A.
  Qed.
End Sched.

(** Proofs about configuration overrides. *)
Require Import List Arith Bool Lia.
From Verif Require Import Config.
Import ListNotations.

Section CP.
  Context {V : Type}.
  Variable reparse : V -> V.
  Notation st := (cstate V).

  Lemma upd_same {A} (f : nat -> A) i a : upd f i a i = a. Proof. unfold upd. now rewrite Nat.eqb_refl. Qed.
  Lemma upd_other {A} (f : nat -> A) i j a : j <> i -> upd f i a j = f j. Proof. unfold upd. intros H. apply Nat.eqb_neq in H. now rewrite H. Qed.

  (** every assignment goes through [cfg] *)
  Fixpoint through_cfg (p : prog V) : Prop :=
    match p with
    | SetVar _ _ _ _ | Use _ _ => False
    | Seq _ a b | Catch _ a b | Case _ _ a b => through_cfg a /\ through_cfg b
    | Override _ _ a => through_cfg a
    | _ => True
    end.

  Definition wf (s : st) : Prop := cur s < next s /\ forall x, vars s x < next s.
  Lemma wf_install c s : wf s -> wf (install V c s).
  Proof. intros [A B]. split; cbn; [lia|]. intros x. specialize (B x). lia. Qed.
  Lemma exec_wf p : forall s, wf s -> wf (snd (exec V reparse p s)) /\ next s <= next (snd (exec V reparse p s)).
  Proof.
    induction p as [|a IHa b IHb|k v|k v|c|x|x k v|x| |a IHa b IHb|f a IHa b IHb|d a IHa]; intros s W; cbn [exec].
    - auto.
    - destruct (IHa s W) as [Wa La]. destruct (exec V reparse a s) as [ok s1]. cbn [snd] in *. destruct ok; [|auto]. destruct (IHb s1 Wa). split; [assumption|lia].
    - cbn [snd]. split; [now apply wf_install|cbn; lia].
    - cbn [snd]. split; [exact W|cbn; lia].
    - cbn [snd]. split; [now apply wf_install|cbn; lia].
    - destruct W as [A B]. cbn [snd]. split; [|cbn; lia]. split; cbn; [assumption|]. intros y. unfold upd. destruct (Nat.eqb y x); auto.
    - cbn [snd]. split; [exact W|cbn; lia].
    - destruct W as [A B]. cbn [snd]. split; [|cbn; lia]. split; cbn; auto.
    - auto.
    - destruct (IHa s W) as [Wa La]. destruct (exec V reparse a s) as [ok s1]. cbn [snd] in *. destruct ok; [auto|]. destruct (IHb s1 Wa). split; [assumption|lia].
    - destruct (f s); auto.
    - destruct d as [kvs|].
      + pose proof (wf_install (merge V reparse (objs s (cur s)) kvs) s W) as W1. destruct (IHa _ W1) as [Wa La].
        destruct (exec V reparse a (install V (merge V reparse (objs s (cur s)) kvs) s)) as [ok s1]. cbn [snd] in *. destruct W as [A B], Wa as [A' B']. cbn in La |- *.
        split; [|lia]. split; cbn; [lia|assumption].
      + cbn [snd]. split; [|cbn; lia]. destruct W as [A B]. split; assumption.
  Qed.

  (** With the configuration at or above [b], nothing below [b] changes. *)
  Lemma exec_frame p : forall b s, through_cfg p -> b <= cur s -> wf s ->
    b <= cur (snd (exec V reparse p s)) /\ forall i, i < b -> objs (snd (exec V reparse p s)) i = objs s i.
  Proof.
    induction p as [|p1 IH1 p2 IH2|k v|k v|c|x|x k v|x| |p1 IH1 p2 IH2|f p1 IH1 p2 IH2|d p1 IH1]; intros b s C Hb W; cbn [exec through_cfg] in *; try contradiction.
    - auto.
    - destruct C as [C1 C2]. destruct (IH1 b s C1 Hb W) as [A B]. destruct (exec_wf p1 s W) as [W1 _]. destruct (exec V reparse p1 s) as [ok s1]. cbn [snd] in *.
      destruct ok; [|auto]. destruct (IH2 b s1 C2 A W1) as [A2 B2]. split; [assumption|]. intros i Hi. rewrite B2, B; auto.
    - destruct W as [W _]. cbn. split; [lia|]. intros i Hi. apply upd_other. lia.
    - cbn. split; [assumption|]. intros i Hi. apply upd_other. lia.
    - destruct W as [W _]. cbn. split; [lia|]. intros i Hi. apply upd_other. lia.
    - cbn. auto.
    - auto.
    - destruct C as [C1 C2]. destruct (IH1 b s C1 Hb W) as [A B]. destruct (exec_wf p1 s W) as [W1 _]. destruct (exec V reparse p1 s) as [ok s1]. cbn [snd] in *.
      destruct ok; [auto|]. destruct (IH2 b s1 C2 A W1) as [A2 B2]. split; [assumption|]. intros i Hi. rewrite B2, B; auto.
    - destruct C as [C1 C2]. destruct (f s); auto.
    - destruct d as [kvs|]; [|cbn; auto].
      set (s1 := install V (merge V reparse (objs s (cur s)) kvs) s).
      assert (W1 : wf s1) by (now apply wf_install). destruct W as [W Wx].
      destruct (IH1 b s1 C ltac:(cbn; lia) W1) as [A B]. destruct (exec V reparse p1 s1) as [ok s2]. cbn [snd cur objs] in *.
      split; [assumption|]. intros i Hi. rewrite B by assumption. unfold s1. cbn. apply upd_other. lia.
  Qed.

  Lemma override_undone d p s : through_cfg p -> wf s ->
    cur (snd (exec V reparse (Override V d p) s)) = cur s /\ forall i, i < next s -> objs (snd (exec V reparse (Override V d p) s)) i = objs s i.
  Proof.
    intros C W. cbn [exec]. destruct d as [kvs|]; [|cbn; auto].
    set (s1 := install V (merge V reparse (objs s (cur s)) kvs) s).
    assert (W1 : wf s1) by (now apply wf_install).
    destruct (exec_frame p (next s) s1 C ltac:(cbn; lia) W1) as [A B]. destruct (exec V reparse p s1) as [ok s2]. cbn [snd cur objs] in *.
    split; [reflexivity|]. intros i Hi. rewrite B by assumption. unfold s1. cbn. apply upd_other. lia.
  Qed.

  (** ** What the block sees *)
  Lemma same_eq p : forall q, same p q = true <-> p = q.
  Proof.
    induction p as [|a p IH]; intros [|b q]; cbn [same]; try (split; congruence).
    rewrite andb_true_iff, Nat.eqb_eq, IH. split; [intros [-> ->]; reflexivity|]. intros H. injection H. auto.
  Qed.
  Lemma put_same (c : conf V) k v : put V c k v k = Some v.
  Proof. unfold put. now rewrite (proj2 (same_eq k k) eq_refl). Qed.
  Definition clash (p q : name) : bool := prefix p q || prefix q p.
  Lemma prefix_refl p : prefix p p = true. Proof. induction p; cbn; [reflexivity|]. now rewrite Nat.eqb_refl. Qed.
  Lemma put_apart (c : conf V) k q v : clash k q = false -> put V c k v q = c q.
  Proof.
    unfold put, clash. intros H. rewrite H. destruct (same k q) eqn:E; [|reflexivity]. apply same_eq in E as ->. rewrite prefix_refl in H. discriminate.
  Qed.
  Lemma merge_apart kvs : forall c q, (forall k v, In (k, v) kvs -> clash k q = false) -> merge V reparse c kvs q = c q.
  Proof.
    unfold merge. induction kvs as [|[k v] kvs IH]; intros c q H; cbn [fold_left]; [reflexivity|]. rewrite IH by (intros k' v' I; apply (H k' v'); now right).
    cbn [fst snd]. apply put_apart. apply (H k v). now left.
  Qed.
  Lemma merge_here kvs : forall c k v, In (k, v) kvs -> NoDup (map fst kvs) ->
    (forall k1 k2, In k1 (map fst kvs) -> In k2 (map fst kvs) -> k1 <> k2 -> clash k1 k2 = false) -> merge V reparse c kvs k = Some (reparse v).
  Proof.
    unfold merge. induction kvs as [|[k0 v0] kvs IH]; intros c k v I N H; [destruct I|]. cbn [fold_left fst snd]. cbn [map fst] in N. inversion N as [|? ? N1 N2]; subst.
    destruct I as [E|I].
    - injection E as -> ->. fold (merge V reparse (put V c k (reparse v)) kvs). rewrite merge_apart; [apply put_same|].
      intros k' v' I. assert (I' : In k' (map fst kvs)) by (apply in_map_iff; exists (k', v'); auto). apply H; [now right|now left|]. intros ->. contradiction.
    - apply IH; [assumption|assumption|]. intros k1 k2 I1 I2. apply H; now right.
  Qed.
End CP.

(** Specification for C90 (PyTorch's tensors: storages and views, every element with its own scale) and the proofs. *)
Require Import ZArith List Bool Arith Lia.
From Verif Require Import Ring64 Views.
Import ListNotations.
Local Open Scope nat_scope.

(** an element: an integer and its scale *)
Notation element := (Z * Z)%type.

Section Spec.
  Variable n : nat.

  (** ** PyTorch: elements live in storages, a tensor is a list of positions in a storage; an element is a number in fixed point, that is
      an integer and its scale *)
  Record rtensor := { r_sto : nat; r_off : list nat }.
  Record rstate := { r_heap : list (list element); r_vars : list rtensor }.
  Definition r_start : rstate := {| r_heap := []; r_vars := [] |}.
  Definition r_var (r : rstate) (x : nat) : rtensor := nth x (r_vars r) {| r_sto := 0; r_off := [] |}.
  Definition contents (r : rstate) (x : nat) : list element :=
    map (fun o => nth o (nth (r_sto (r_var r x)) (r_heap r) []) (0, 1)%Z) (r_off (r_var r x)).
  Definition r_fresh (r : rstate) (v : list element) : rstate :=
    {| r_heap := r_heap r ++ [v]; r_vars := r_vars r ++ [{| r_sto := length (r_heap r); r_off := seq 0 (length v) |}] |}.

  (** What an operation computes, as a relation between the elements of its operands and of its result. *)
  Definition meaning := list (list element) -> list element -> Prop.
  Definition at_scale (s : Z) (l : list Z) : list element := map (fun r : Z => (r, s)) l.
  (** all parties have a share of the same length *)
  Definition sharing (sh : nat -> list Z) : Prop := forall p, p < n -> length (sh p) = length (sh 0).
  (** the shares an operation makes reveal to what it means *)
  Definition implements (o : operation) (m : meaning) : Prop :=
    forall args, Forall (fun a => sharing (fst a)) args ->
      sharing (fst (o args)) /\
      m (map (fun a => at_scale (snd a) (reveal n (fst a))) args) (at_scale (snd (o args)) (reveal n (fst (o args)))).

  (** [None]: an exception *)
  Definition r_step (mean : operation -> meaning) (r : rstate) (s : stmt) (out : option rstate) : Prop :=
    let known x := Nat.ltb x (length (r_vars r)) in
    let len x := length (r_off (r_var r x)) in
    match s with
    | Encrypt sh s => out = Some (r_fresh r (at_scale s (reveal n sh)))
    | View x idx =>
      if known x && inside idx (len x)
      then out = Some {| r_heap := r_heap r;
                         r_vars := r_vars r ++ [{| r_sto := r_sto (r_var r x); r_off := map (fun i => nth i (r_off (r_var r x)) 0) idx |}] |}
      else out = None
    | Clone x => if known x then out = Some (r_fresh r (contents r x)) else out = None
    | Op o args => if forallb known args then exists v, mean o (map (contents r) args) v /\ out = Some (r_fresh r v) else out = None
    | AddPublic x idx ys =>
      if known x && inside idx (len x) && (length idx =? length ys)
      then out = Some (r_fresh r (map (fun iy => (wadd (fst (nth (fst iy) (contents r x) (0, 1)%Z)) (snd iy), snd (nth (fst iy) (contents r x) (0, 1)%Z))) (combine idx ys)))
      else out = None
    | InPlace x o args =>
      if known x && forallb known args then
        exists v, mean o (map (contents r) args) v /\
          out = if (length v =? len x) && nodupb (r_off (r_var r x))
                then Some {| r_heap := setn (r_heap r) (r_sto (r_var r x))
                                        (write (nth (r_sto (r_var r x)) (r_heap r) []) (r_off (r_var r x)) v);
                             r_vars := r_vars r |}
                else None
      else out = None
    | SetItem x idx y =>
      if known x && known y && inside idx (len x) && (length idx =? len y) then
        let target := map (fun i => nth i (r_off (r_var r x)) 0) idx in
        out = if nodupb target
              then Some {| r_heap := setn (r_heap r) (r_sto (r_var r x))
                                      (write (nth (r_sto (r_var r x)) (r_heap r) []) target (contents r y));
                           r_vars := r_vars r |}
              else None
      else out = None
    end.
  Fixpoint r_run (mean : operation -> meaning) (r : rstate) (prog : list stmt) (out : option rstate) : Prop :=
    match prog with
    | [] => out = Some r
    | s :: rest => exists o, r_step mean r s o /\ match o with Some r' => r_run mean r' rest out | None => out = None end
    end.

  (** ** The programs the property speaks of *)
  (** encryptions give every party a share, and every operation implements its meaning *)
  Definition proper (mean : operation -> meaning) (s : stmt) : Prop :=
    match s with
    | Encrypt sh _ => sharing sh
    | Op o _ | InPlace _ o _ => implements o (mean o)
    | _ => True
    end.
  (** two tensors have an element in common *)
  Definition meet (t u : tensor) : Prop := sto t = sto u /\ exists p o, p < n /\ In o (off t p) /\ In o (off u p).
  (** Writing is harmless: the storage was not made by a broadcasting addition of a public tensor; an in-place operation keeps the
      scale, or nothing else refers to the elements written; an assigned value has the scale of the tensor it is assigned to, and comes
      from another storage. *)
  Definition harmless (st : state) (s : stmt) : Prop :=
    match s with
    | InPlace x o args =>
      spread (nth (sto (var st x)) (heap st) no_storage) = false /\
      forall y, y < length (vars st) -> y <> x -> meet (var st x) (var st y) ->
        snd (o (map (fun z => (share st (var st z), scale (var st z))) args)) = scale (var st y)
    | SetItem x idx y =>
      spread (nth (sto (var st x)) (heap st) no_storage) = false /\ scale (var st y) = scale (var st x) /\ sto (var st y) <> sto (var st x)
    | _ => True
    end.
  Fixpoint careful (st : state) (prog : list stmt) : Prop :=
    match prog with
    | [] => True
    | s :: r => harmless st s /\ match step n st s with Done st' => careful st' r | Raised _ => True end
    end.

  (** what a user sees: every tensor has the elements (integer and scale, hence [get_plain_text]) it has in PyTorch *)
  Definition plain (st : state) (x : nat) : list element := at_scale (scale (var st x)) (reveal n (share st (var st x))).
  Definition agree (st : state) (r : rstate) : Prop :=
    length (vars st) = length (r_vars r) /\ forall x, x < length (vars st) -> plain st x = contents r x.
End Spec.

(** ** Lists *)
Lemma setn_length {A} (l : list A) k v : length (setn l k v) = length l.
Proof. revert k. induction l as [|a l IH]; intros [|k]; cbn; congruence. Qed.
Lemma setn_nth {A} (l : list A) k v j d : nth j (setn l k v) d = if (j =? k) && (k <? length l) then v else nth j l d.
Proof.
  revert k j. induction l as [|a l IH]; intros [|k] [|j]; cbn; try reflexivity.
  - now destruct (j =? k).
  - rewrite IH. reflexivity.
Qed.
Lemma write_length {A} (l : list A) os vs : length (write l os vs) = length l.
Proof. unfold write. revert l vs. induction os as [|o os IH]; intros l [|v vs]; cbn; auto. rewrite IH. apply setn_length. Qed.
Lemma write_out {A} os (vs : list A) : forall l j d, ~ In j os -> nth j (write l os vs) d = nth j l d.
Proof.
  unfold write. revert vs. induction os as [|o os IH]; intros [|v vs] l j d H; cbn; auto. cbn in H. rewrite IH by tauto. rewrite setn_nth.
  destruct (Nat.eqb_spec j o) as [->|]; [tauto|reflexivity].
Qed.
Lemma write_in {A} os (vs : list A) : forall l k d e, NoDup os -> length os = length vs -> (forall o, In o os -> o < length l) ->
  k < length os -> nth (nth k os e) (write l os vs) d = nth k vs d.
Proof.
  revert vs. induction os as [|o os IH]; intros [|v vs] l k d e N E B Hk; cbn in *; try lia. inversion N as [|? ? N1 N2]; subst.
  destruct k as [|k].
  - change (nth o (write (setn l o v) os vs) d = v). rewrite write_out by assumption. rewrite setn_nth, Nat.eqb_refl.
    assert (o < length l) by auto. now destruct (Nat.ltb_spec o (length l)); [|lia].
  - change (nth (nth k os e) (write (setn l o v) os vs) d = nth k vs d). apply IH; auto; [|lia]. intros o' H. rewrite setn_length. auto.
Qed.
Lemma nodupb_iff l : nodupb l = true <-> NoDup l.
Proof.
  induction l as [|a l IH]; cbn; [split; [constructor|reflexivity]|]. rewrite andb_true_iff, negb_true_iff, IH. split.
  - intros [H K]. constructor; [|assumption]. intros I. assert (X : existsb (Nat.eqb a) l = true); [|congruence].
    apply existsb_exists. exists a. split; [assumption|apply Nat.eqb_refl].
  - intros H. inversion H as [|? ? H1 H2]; subst. split; [|assumption]. destruct (existsb (Nat.eqb a) l) eqn:E; [|reflexivity].
    apply existsb_exists in E as (y & I & ->%Nat.eqb_eq). tauto.
Qed.
Lemma inside_iff l k : inside l k = true <-> forall i, In i l -> i < k.
Proof. unfold inside. rewrite forallb_forall. split; intros H i I; specialize (H i I); [now apply Nat.ltb_lt|now apply Nat.ltb_lt]. Qed.
Lemma nth_map {A B} (f : A -> B) l k d e : k < length l -> nth k (map f l) e = f (nth k l d).
Proof. revert k. induction l as [|a l IH]; intros [|k] H; cbn in *; try lia; [reflexivity|]. apply IH. lia. Qed.
Lemma nth_seq k m a d : k < m -> nth k (seq a m) d = a + k.
Proof. intros H. now rewrite seq_nth. Qed.
Lemma list_ext {A} (l l' : list A) d : length l = length l' -> (forall k, k < length l -> nth k l d = nth k l' d) -> l = l'.
Proof. intros. eapply nth_ext; eauto. Qed.
Lemma zsum_ext {A} (f g : A -> Z) l : (forall p, In p l -> f p = g p) -> zsum (map f l) = zsum (map g l).
Proof. intros H. f_equal. now apply map_ext_in. Qed.

Section Proofs.
  Variable n : nat.
  Hypothesis n_pos : 0 < n.
  Variable mean : operation -> meaning.

  Lemma reveal_length (sh : nat -> list Z) : length (reveal n sh) = length (sh 0).
  Proof. unfold reveal. now rewrite map_length, seq_length. Qed.
  Lemma reveal_nth (sh : nat -> list Z) k d : k < length (sh 0) -> nth k (reveal n sh) d = wrap (zsum (map (fun p => nth k (sh p) 0%Z) (seq 0 n))).
  Proof. intros H. unfold reveal. rewrite (nth_map _ _ _ 0) by now rewrite seq_length. now rewrite nth_seq. Qed.
  Lemma at_scale_length s l : length (at_scale s l) = length l.
  Proof. apply map_length. Qed.
  Lemma at_scale_nth s l k d : k < length l -> nth k (at_scale s l) d = (nth k l 0%Z, s).
  Proof. intros H. unfold at_scale. now rewrite (nth_map _ l k 0%Z). Qed.

  Definition cells (r : rstate) (i : nat) : list element := nth i (r_heap r) [].

  (** party [p] keeps its share of cell [k] of storage [i] at position [nth k (lay i p)] *)
  Record inv (lay : nat -> nat -> list nat) (st : state) (r : rstate) : Prop := {
    i_heap : length (heap st) = length (r_heap r);
    i_vars : length (vars st) = length (r_vars r);
    i_lay : forall i p, i < length (heap st) -> p < n -> length (lay i p) = length (cells r i);
    i_in : forall i p k, i < length (heap st) -> p < n -> k < length (cells r i) -> nth k (lay i p) 0 < length (memory st i p);
    i_plain : forall i p, i < length (heap st) -> p < n -> spread (nth i (heap st) no_storage) = false -> lay i p = seq 0 (length (cells r i));
    i_val : forall i k, i < length (heap st) -> k < length (cells r i) ->
      wrap (zsum (map (fun p => nth (nth k (lay i p) 0) (memory st i p) 0%Z) (seq 0 n))) = fst (nth k (cells r i) (0, 1)%Z);
    i_sto : forall x, x < length (vars st) -> sto (var st x) = r_sto (r_var r x) /\ sto (var st x) < length (heap st);
    i_off : forall x p, x < length (vars st) -> p < n -> off (var st x) p = map (fun k => nth k (lay (sto (var st x)) p) 0) (r_off (r_var r x));
    i_bound : forall x k, x < length (vars st) -> In k (r_off (r_var r x)) -> k < length (cells r (sto (var st x)));
    i_scale : forall x k, x < length (vars st) -> In k (r_off (r_var r x)) -> snd (nth k (cells r (sto (var st x))) (0, 1)%Z) = scale (var st x) }.

  Section One.
    Variables (lay : nat -> nat -> list nat) (st : state) (r : rstate).
    Hypothesis I : inv lay st r.

    Lemma off_length x p : x < length (vars st) -> p < n -> length (off (var st x) p) = length (r_off (r_var r x)).
    Proof. intros Hx Hp. rewrite (i_off _ _ _ I x p Hx Hp). apply map_length. Qed.
    Lemma size_len x : x < length (vars st) -> size (var st x) = length (r_off (r_var r x)).
    Proof. intros Hx. unfold size. now apply off_length. Qed.
    Lemma share_length x p : x < length (vars st) -> p < n -> length (share st (var st x) p) = length (r_off (r_var r x)).
    Proof. intros Hx Hp. unfold share. rewrite map_length. now apply off_length. Qed.
    Lemma share_sharing x : x < length (vars st) -> sharing n (share st (var st x)).
    Proof. intros Hx p Hp. now rewrite !share_length by (auto; lia). Qed.
    Lemma contents_length x : length (contents r x) = length (r_off (r_var r x)).
    Proof. apply map_length. Qed.
    Lemma share_nth x p k : x < length (vars st) -> p < n -> k < length (r_off (r_var r x)) ->
      nth k (share st (var st x) p) 0%Z = nth (nth (nth k (r_off (r_var r x)) 0) (lay (sto (var st x)) p) 0) (memory st (sto (var st x)) p) 0%Z.
    Proof.
      intros Hx Hp Hk. unfold share. rewrite (i_off _ _ _ I x p Hx Hp), map_map. now rewrite (nth_map _ _ _ 0).
    Qed.
    Lemma reveal_contents x k : x < length (vars st) -> k < length (r_off (r_var r x)) ->
      wrap (zsum (map (fun p => nth k (share st (var st x) p) 0%Z) (seq 0 n))) = fst (nth k (contents r x) (0, 1)%Z).
    Proof.
      intros Hx Hk. destruct (i_sto _ _ _ I x Hx) as [E B]. unfold contents. rewrite (nth_map _ _ _ 0) by assumption. rewrite <- E.
      assert (Hc : nth k (r_off (r_var r x)) 0 < length (cells r (sto (var st x)))) by (apply (i_bound _ _ _ I x); [assumption|now apply nth_In]).
      etransitivity; [|apply (i_val _ _ _ I _ _ B Hc)]. f_equal. apply zsum_ext. intros p Hp. apply in_seq in Hp. apply share_nth; auto; lia.
    Qed.
    Lemma plain_contents x : x < length (vars st) -> plain n st x = contents r x.
    Proof.
      intros Hx. unfold plain. assert (L : length (share st (var st x) 0) = length (r_off (r_var r x))) by (apply share_length; auto).
      apply (list_ext _ _ (0, 1)%Z). { now rewrite at_scale_length, reveal_length, contents_length, L. }
      rewrite at_scale_length, reveal_length, L. intros k Hk. rewrite at_scale_nth by now rewrite reveal_length, L.
      rewrite reveal_nth by now rewrite L. rewrite reveal_contents by assumption.
      assert (E : snd (nth k (contents r x) (0, 1)%Z) = scale (var st x)).
      { unfold contents. rewrite (nth_map _ _ _ 0) by assumption. destruct (i_sto _ _ _ I x Hx) as [E B]. rewrite <- E.
        apply (i_scale _ _ _ I x); [assumption|now apply nth_In]. }
      rewrite <- E. symmetry. apply surjective_pairing.
    Qed.
    Lemma args_contents args : forallb (fun x => x <? length (vars st)) args = true ->
      map (fun a => at_scale (snd a) (reveal n (fst a))) (map (fun x => (share st (var st x), scale (var st x))) args) = map (contents r) args /\
      Forall (fun a => sharing n (fst a)) (map (fun x => (share st (var st x), scale (var st x))) args).
    Proof.
      intros F. rewrite forallb_forall in F. split.
      - rewrite map_map. apply map_ext_in. intros x Hx. apply F, Nat.ltb_lt in Hx. now apply plain_contents.
      - apply Forall_forall. intros a Ha. apply in_map_iff in Ha as (x & <- & Hx). apply F, Nat.ltb_lt in Hx. now apply share_sharing.
    Qed.

    (** a new storage and a tensor on all of it *)
    Definition lay_add (l : nat -> list nat) (i p : nat) : list nat := if i =? length (heap st) then l p else lay i p.
    Lemma inv_alloc f m o s v :
      (forall p, p < n -> length (o p) = length v) ->
      (forall p k, p < n -> k < length v -> nth k (o p) 0 < length (m p)) ->
      (f = false -> forall p, p < n -> o p = seq 0 (length v)) ->
      (forall k, k < length v -> wrap (zsum (map (fun p => nth (nth k (o p) 0) (m p) 0%Z) (seq 0 n))) = fst (nth k v (0, 1)%Z)) ->
      (forall k, k < length v -> snd (nth k v (0, 1)%Z) = s) ->
      inv (lay_add o) (alloc st f m o s) (r_fresh r v).
    Proof.
      intros Lo Bo Po Vo So. pose proof (i_heap _ _ _ I) as Eh. pose proof (i_vars _ _ _ I) as Ev.
      set (N := length (heap st)) in *.
      assert (Cn : cells (r_fresh r v) N = v). { unfold cells, r_fresh; cbn. rewrite Eh, app_nth2, Nat.sub_diag by lia. reflexivity. }
      assert (Co : forall i, i < N -> cells (r_fresh r v) i = cells r i). { intros i Hi. unfold cells, r_fresh; cbn. rewrite app_nth1 by lia. reflexivity. }
      assert (Mn : forall p, memory (alloc st f m o s) N p = m p). { intros p. unfold memory, alloc; cbn. now rewrite app_nth2, Nat.sub_diag by (unfold N; lia). }
      assert (Mo : forall i p, i < N -> memory (alloc st f m o s) i p = memory st i p). { intros i p Hi. unfold memory, alloc; cbn. now rewrite app_nth1 by (unfold N in *; lia). }
      assert (Ln : forall p, lay_add o N p = o p) by (intros p; unfold lay_add; now rewrite Nat.eqb_refl).
      assert (Lo' : forall i p, i < N -> lay_add o i p = lay i p). { intros i p Hi. unfold lay_add. fold N. destruct (Nat.eqb_spec i N); [lia|reflexivity]. }
      assert (Vn : var (alloc st f m o s) (length (vars st)) = {| sto := N; off := o; scale := s |}). { unfold var, alloc; cbn. now rewrite app_nth2, Nat.sub_diag by lia. }
      assert (Vo' : forall x, x < length (vars st) -> var (alloc st f m o s) x = var st x). { intros x Hx. unfold var, alloc; cbn. now rewrite app_nth1 by lia. }
      assert (Rn : r_var (r_fresh r v) (length (vars st)) = {| r_sto := N; r_off := seq 0 (length v) |}). { unfold r_var, r_fresh; cbn. rewrite app_nth2, Ev, Nat.sub_diag by lia. cbn. now rewrite <- Eh. }
      assert (Ro : forall x, x < length (vars st) -> r_var (r_fresh r v) x = r_var r x). { intros x Hx. unfold r_var, r_fresh; cbn. now rewrite app_nth1 by lia. }
      assert (Hn : length (heap (alloc st f m o s)) = S N) by (unfold alloc; cbn; rewrite app_length; cbn; unfold N; lia).
      assert (Hv : length (vars (alloc st f m o s)) = S (length (vars st))) by (unfold alloc; cbn; rewrite app_length; cbn; lia).
      constructor.
      - rewrite Hn. unfold r_fresh; cbn. rewrite app_length; cbn; lia.
      - rewrite Hv. unfold r_fresh; cbn. rewrite app_length; cbn; lia.
      - intros i p Hi Hp. rewrite Hn in Hi. destruct (Nat.eq_dec i N) as [->|Ne]; [rewrite Ln, Cn; auto|]. rewrite Lo', Co by lia. apply (i_lay _ _ _ I); auto; unfold N in *; lia.
      - intros i p k Hi Hp. rewrite Hn in Hi. destruct (Nat.eq_dec i N) as [->|Ne]; [rewrite Ln, Cn, Mn; auto|]. rewrite Lo', Co, Mo by lia. apply (i_in _ _ _ I); auto; unfold N in *; lia.
      - intros i p Hi Hp. rewrite Hn in Hi. destruct (Nat.eq_dec i N) as [->|Ne].
        + unfold alloc; cbn [heap]. rewrite app_nth2, Nat.sub_diag by (unfold N; lia). cbn [nth spread]. intros Ef. specialize (Po Ef). rewrite Ln, Cn. auto.
        + unfold alloc; cbn [heap]. rewrite app_nth1 by (unfold N in *; lia). rewrite Lo', Co by lia. apply (i_plain _ _ _ I); auto; unfold N in *; lia.
      - intros i k Hi. rewrite Hn in Hi. destruct (Nat.eq_dec i N) as [->|Ne].
        + rewrite Cn. intros Hk. rewrite <- Vo by assumption. f_equal. apply zsum_ext. intros p _. now rewrite Ln, Mn.
        + assert (Hi' : i < N) by lia. rewrite Co by lia. intros Hk. rewrite <- (i_val _ _ _ I i k Hi' Hk). f_equal. apply zsum_ext. intros p _. now rewrite Lo', Mo by lia.
      - intros x Hx. rewrite Hv in Hx. rewrite Hn. destruct (Nat.eq_dec x (length (vars st))) as [->|Ne]; [rewrite Vn, Rn; cbn; split; [reflexivity|lia]|].
        rewrite Vo', Ro by lia. destruct (i_sto _ _ _ I x) as [E B]; [lia|]. split; [assumption|unfold N; lia].
      - intros x p Hx Hp. rewrite Hv in Hx. destruct (Nat.eq_dec x (length (vars st))) as [->|Ne].
        + rewrite Vn, Rn; cbn [off sto r_off]. rewrite Ln. apply (list_ext _ _ 0); rewrite ?map_length, ?seq_length; [auto|]. rewrite (Lo p Hp). intros k Hk.
          rewrite (nth_map _ _ _ 0) by now rewrite seq_length. now rewrite nth_seq.
        + rewrite Vo', Ro by lia. destruct (i_sto _ _ _ I x) as [E B]; [lia|]. rewrite Lo' by exact B. apply (i_off _ _ _ I); auto; lia.
      - intros x k Hx. rewrite Hv in Hx. destruct (Nat.eq_dec x (length (vars st))) as [->|Ne].
        + rewrite Vn, Rn; cbn [off sto r_off]. rewrite Cn, in_seq. cbn [Nat.add]. intros [_ B]; exact B.
        + rewrite Vo', Ro by lia. destruct (i_sto _ _ _ I x) as [E B]; [lia|]. rewrite Co by exact B. apply (i_bound _ _ _ I); lia.
      - intros x k Hx. rewrite Hv in Hx. destruct (Nat.eq_dec x (length (vars st))) as [->|Ne].
        + rewrite Vn, Rn; cbn [off sto r_off scale]. rewrite Cn, in_seq. intros [_ Hk]. apply So. lia.
        + rewrite Vo', Ro by lia. destruct (i_sto _ _ _ I x) as [E B]; [lia|]. rewrite Co by exact B. apply (i_scale _ _ _ I); lia.
    Qed.
    Lemma inv_fresh sh s v : sharing n sh -> v = at_scale s (reveal n sh) -> exists lay', inv lay' (fresh st sh s) (r_fresh r v).
    Proof.
      intros Sh ->. assert (L : length (at_scale s (reveal n sh)) = length (sh 0)) by now rewrite at_scale_length, reveal_length.
      eexists. apply inv_alloc; rewrite L.
      - intros p Hp. rewrite seq_length. now apply Sh.
      - intros p k Hp Hk. rewrite (Sh p Hp), nth_seq; [lia|assumption].
      - intros _ p Hp. now rewrite (Sh p Hp).
      - intros k Hk. rewrite at_scale_nth by now rewrite reveal_length. cbn. rewrite reveal_nth by assumption. f_equal. apply zsum_ext. intros p Hp.
        apply in_seq in Hp. rewrite (Sh p) by lia. now rewrite nth_seq.
      - intros k Hk. now rewrite at_scale_nth by now rewrite reveal_length.
    Qed.
    Lemma inv_view x idx : x < length (vars st) -> (forall i, In i idx -> i < length (r_off (r_var r x))) ->
      inv lay {| heap := heap st; vars := vars st ++ [{| sto := sto (var st x); off := fun p => map (fun i => nth i (off (var st x) p) 0) idx; scale := scale (var st x) |}] |}
        {| r_heap := r_heap r; r_vars := r_vars r ++ [{| r_sto := r_sto (r_var r x); r_off := map (fun i => nth i (r_off (r_var r x)) 0) idx |}] |}.
    Proof.
      intros Hx Hi. pose proof (i_vars _ _ _ I) as Ev. destruct (i_sto _ _ _ I x Hx) as [Es Bs].
      set (st' := {| heap := heap st; vars := _ |}). set (r' := {| r_heap := r_heap r; r_vars := _ |}).
      assert (Vn : var st' (length (vars st)) = {| sto := sto (var st x); off := fun p => map (fun i => nth i (off (var st x) p) 0) idx; scale := scale (var st x) |}).
      { unfold var at 1, st'; cbn [vars]. now rewrite app_nth2, Nat.sub_diag by lia. }
      assert (Vo : forall y, y < length (vars st) -> var st' y = var st y) by (intros y Hy; unfold var, st'; cbn [vars]; now rewrite app_nth1 by lia).
      assert (Rn : r_var r' (length (vars st)) = {| r_sto := r_sto (r_var r x); r_off := map (fun i => nth i (r_off (r_var r x)) 0) idx |}).
      { unfold r_var at 1, r'; cbn [r_vars]. now rewrite app_nth2, Ev, Nat.sub_diag by lia. }
      assert (Ro : forall y, y < length (vars st) -> r_var r' y = r_var r y) by (intros y Hy; unfold r_var, r'; cbn [r_vars]; now rewrite app_nth1 by lia).
      assert (Hv : length (vars st') = S (length (vars st))) by (unfold st'; cbn [vars]; rewrite app_length; cbn; lia).
      constructor.
      - exact (i_heap _ _ _ I).
      - rewrite Hv. unfold r'; cbn [r_vars]. rewrite app_length; cbn; lia.
      - exact (i_lay _ _ _ I).
      - exact (i_in _ _ _ I).
      - exact (i_plain _ _ _ I).
      - exact (i_val _ _ _ I).
      - intros y Hy. rewrite Hv in Hy. destruct (Nat.eq_dec y (length (vars st))) as [->|Ne]; [rewrite Vn, Rn; cbn; auto|]. rewrite Vo, Ro by lia. apply (i_sto _ _ _ I). lia.
      - intros y p Hy Hp. rewrite Hv in Hy. destruct (Nat.eq_dec y (length (vars st))) as [->|Ne]; [|rewrite Vo, Ro by lia; apply (i_off _ _ _ I); auto; lia].
        rewrite Vn, Rn; cbn [off sto r_off]. rewrite map_map. apply map_ext_in. intros i Hin. rewrite (i_off _ _ _ I x p Hx Hp). rewrite (nth_map _ _ _ 0) by auto. reflexivity.
      - intros y k Hy. rewrite Hv in Hy. destruct (Nat.eq_dec y (length (vars st))) as [->|Ne]; [|rewrite Vo, Ro by lia; apply (i_bound _ _ _ I); lia].
        rewrite Vn, Rn; cbn [off sto r_off]. rewrite in_map_iff. intros (i & <- & Hin). apply (i_bound _ _ _ I x); [assumption|]. apply nth_In. auto.
      - intros y k Hy. rewrite Hv in Hy. destruct (Nat.eq_dec y (length (vars st))) as [->|Ne]; [|rewrite Vo, Ro by lia; apply (i_scale _ _ _ I); lia].
        rewrite Vn, Rn; cbn [off sto r_off scale]. rewrite in_map_iff. intros (i & <- & Hin). apply (i_scale _ _ _ I x); [assumption|]. apply nth_In. auto.
    Qed.

    (** writing new elements into some cells of a storage with the same layout at every party *)
    Lemma inv_write x tgt sh v s : x < length (vars st) -> spread (nth (sto (var st x)) (heap st) no_storage) = false ->
      NoDup tgt -> (forall k, In k tgt -> In k (r_off (r_var r x))) ->
      sharing n sh -> length (sh 0) = length tgt -> v = at_scale s (reveal n sh) ->
      forall sc, (forall y, y < length (vars st) -> y <> x -> sto (var st y) = sto (var st x) -> (exists k, In k (r_off (r_var r y)) /\ In k tgt) -> scale (var st y) = s) ->
      (forall k, In k (r_off (r_var r x)) -> (In k tgt -> sc = s) /\ (~ In k tgt -> sc = scale (var st x))) ->
      forall m vs, (forall p, p < n -> m p = write (memory st (sto (var st x)) p) tgt (sh p)) -> length vs = length (vars st) ->
      (forall y, nth y vs no_tensor = if y =? x then {| sto := sto (var st x); off := off (var st x); scale := sc |} else var st y) ->
      inv lay {| heap := put_memory st (sto (var st x)) m; vars := vs |}
        {| r_heap := setn (r_heap r) (r_sto (r_var r x)) (write (nth (r_sto (r_var r x)) (r_heap r) []) tgt v); r_vars := r_vars r |}.
    Proof.
      intros Hx Sp Nd Ht Sh Ls Ev sc Hy Hsc m vs Hm Lvs Hvs. destruct (i_sto _ _ _ I x Hx) as [Es Bs]. rewrite <- Es. set (X := sto (var st x)) in *.
      pose proof (i_heap _ _ _ I) as Eh.
      set (st' := {| heap := _; vars := _ |}). set (r' := {| r_heap := _; r_vars := _ |}).
      assert (Hh : length (heap st') = length (heap st)) by (unfold st', put_memory; cbn [heap]; apply setn_length).
      assert (Hv : length (vars st') = length (vars st)) by exact Lvs.
      assert (Mo : forall i p, i <> X -> memory st' i p = memory st i p).
      { intros i p Ne. unfold memory, st', put_memory; cbn [heap]. rewrite setn_nth. destruct (Nat.eqb_spec i X); [lia|reflexivity]. }
      assert (Mn : forall p, p < n -> memory st' X p = write (memory st X p) tgt (sh p)).
      { intros p Hp. unfold memory at 1, st', put_memory; cbn [heap]. rewrite setn_nth, Nat.eqb_refl. destruct (Nat.ltb_spec X (length (heap st))); [now apply Hm|lia]. }
      assert (Sf : forall i, spread (nth i (heap st') no_storage) = spread (nth i (heap st) no_storage)).
      { intros i. unfold st', put_memory; cbn [heap]. rewrite setn_nth. destruct (Nat.eqb_spec i X) as [->|]; [|reflexivity]. cbn [andb]. destruct (X <? length (heap st)); reflexivity. }
      assert (Co : forall i, i <> X -> cells r' i = cells r i).
      { intros i Ne. unfold cells, r'; cbn [r_heap]. rewrite setn_nth. destruct (Nat.eqb_spec i X); [lia|reflexivity]. }
      assert (Cn : cells r' X = write (cells r X) tgt v).
      { unfold cells, r'; cbn [r_heap]. rewrite setn_nth, Nat.eqb_refl. destruct (Nat.ltb_spec X (length (r_heap r))); [reflexivity|lia]. }
      assert (Cl : forall i, length (cells r' i) = length (cells r i)).
      { intros i. destruct (Nat.eq_dec i X) as [->|Ne]; [rewrite Cn; apply write_length|now rewrite Co]. }
      assert (Ml : forall i p, p < n -> length (memory st' i p) = length (memory st i p)).
      { intros i p Hp. destruct (Nat.eq_dec i X) as [->|Ne]; [rewrite Mn by assumption; apply write_length|now rewrite Mo]. }
      assert (Vx : var st' x = {| sto := X; off := off (var st x); scale := sc |}).
      { unfold var at 1, st'; cbn [vars]. now rewrite Hvs, Nat.eqb_refl. }
      assert (Vo : forall y, y <> x -> var st' y = var st y).
      { intros y Ne. unfold var at 1, st'; cbn [vars]. rewrite Hvs. destruct (Nat.eqb_spec y x); [lia|reflexivity]. }
      assert (Vs : forall y, sto (var st' y) = sto (var st y) /\ off (var st' y) = off (var st y)).
      { intros y. destruct (Nat.eq_dec y x) as [->|Ne]; [rewrite Vx; auto|rewrite Vo; auto]. }
      assert (Bt : forall k, In k tgt -> k < length (cells r X)) by (intros k Hk; apply (i_bound _ _ _ I x); auto).
      assert (Bm : forall p k, p < n -> In k tgt -> k < length (memory st X p)).
      { intros p k Hp Hk. pose proof (i_in _ _ _ I X p k Bs Hp (Bt k Hk)) as B. rewrite (i_plain _ _ _ I X p Bs Hp Sp) in B. rewrite nth_seq in B by auto. exact B. }
      assert (Lv : length v = length tgt) by (subst v; now rewrite at_scale_length, reveal_length).
      constructor.
      - rewrite Hh. unfold r'; cbn [r_heap]. now rewrite setn_length.
      - rewrite Hv. exact (i_vars _ _ _ I).
      - intros i p Hi Hp. rewrite Hh in Hi. rewrite Cl. now apply (i_lay _ _ _ I).
      - intros i p k Hi Hp Hk. rewrite Hh in Hi. rewrite Cl in Hk. rewrite Ml by assumption. now apply (i_in _ _ _ I).
      - intros i p Hi Hp Hs. rewrite Hh in Hi. rewrite Sf in Hs. rewrite Cl. now apply (i_plain _ _ _ I).
      - intros i k Hi Hk. rewrite Hh in Hi. rewrite Cl in Hk. destruct (Nat.eq_dec i X) as [->|Ne].
        + rewrite Cn. destruct (in_dec Nat.eq_dec k tgt) as [Hin|Hin].
          * destruct (In_nth _ _ 0 Hin) as (j & Hj & <-). rewrite (write_in tgt v) by (auto; lia). subst v.
            rewrite at_scale_nth by (rewrite reveal_length; lia). cbn [fst]. rewrite reveal_nth by lia. f_equal. apply zsum_ext. intros p Hp. apply in_seq in Hp.
            rewrite Mn by lia. rewrite (i_plain _ _ _ I X p Bs ltac:(lia) Sp), nth_seq by auto. cbn [Nat.add]. apply write_in; auto; [|intros o Ho; apply Bm; auto; lia].
            rewrite (Sh p) by lia. lia.
          * rewrite write_out by assumption. rewrite <- (i_val _ _ _ I X k Bs Hk). f_equal. apply zsum_ext. intros p Hp. apply in_seq in Hp. rewrite Mn by lia.
            rewrite (i_plain _ _ _ I X p Bs ltac:(lia) Sp), nth_seq by auto. cbn [Nat.add]. now apply write_out.
        + rewrite Co by assumption. rewrite <- (i_val _ _ _ I i k Hi Hk). f_equal. apply zsum_ext. intros p _. now rewrite Mo.
      - intros y Hy'. rewrite Hv in Hy'. rewrite Hh. destruct (Vs y) as [-> _]. exact (i_sto _ _ _ I y Hy').
      - intros y p Hy' Hp. rewrite Hv in Hy'. destruct (Vs y) as [-> ->]. exact (i_off _ _ _ I y p Hy' Hp).
      - intros y k Hy' Hk. rewrite Hv in Hy'. destruct (Vs y) as [-> _]. rewrite Cl. exact (i_bound _ _ _ I y k Hy' Hk).
      - intros y k Hy' Hk. rewrite Hv in Hy'. destruct (Vs y) as [-> _]. change (r_var r' y) with (r_var r y) in Hk.
        destruct (Nat.eq_dec (sto (var st y)) X) as [E|Ne].
        2:{ rewrite Co by assumption. rewrite (i_scale _ _ _ I y k Hy' Hk). destruct (Nat.eq_dec y x) as [->|Nx]; [now elim Ne|now rewrite Vo]. }
        rewrite E, Cn. destruct (in_dec Nat.eq_dec k tgt) as [Hin|Hin].
        + assert (Ek : snd (nth k (write (cells r X) tgt v) (0, 1)%Z) = s).
          { destruct (In_nth _ _ 0 Hin) as (j & Hj & <-). rewrite (write_in tgt v) by (auto; lia). subst v. rewrite at_scale_nth by (rewrite reveal_length; lia). reflexivity. }
          rewrite Ek. destruct (Nat.eq_dec y x) as [->|Nx]; [rewrite Vx; cbn; symmetry; apply (Hsc k Hk); assumption|].
          rewrite Vo by assumption. symmetry. apply Hy; auto. now exists k.
        + rewrite write_out by assumption. destruct (Nat.eq_dec y x) as [->|Nx]; [rewrite Vx; cbn; rewrite (proj2 (Hsc k Hk) Hin); exact (i_scale _ _ _ I x k Hx Hk)|].
          rewrite Vo by assumption. rewrite <- E. exact (i_scale _ _ _ I y k Hy' Hk).
    Qed.
  End One.

  (** one call, under the invariant *)
  Definition matched (o : outcome) (ro : option rstate) : Prop :=
    match o, ro with
    | Done st, Some r => exists lay, inv lay st r
    | Raised w, None => forall p, p < n -> w p = true
    | _, _ => False
    end.
  Lemma off_plain lay st r x p : inv lay st r -> x < length (vars st) -> p < n -> spread (nth (sto (var st x)) (heap st) no_storage) = false ->
    off (var st x) p = r_off (r_var r x).
  Proof.
    intros I Hx Hp Sp. rewrite (i_off _ _ _ I x p Hx Hp). destruct (i_sto _ _ _ I x Hx) as [_ B]. rewrite (i_plain _ _ _ I _ p B Hp Sp).
    transitivity (map (fun k => k) (r_off (r_var r x))); [|apply map_id]. apply map_ext_in. intros k Hk. rewrite nth_seq; [reflexivity|]. now apply (i_bound _ _ _ I x).
  Qed.
  Lemma known_eq lay st r : inv lay st r -> (fun x => x <? length (r_vars r)) = (fun x => x <? length (vars st)).
  Proof. intros I. now rewrite (i_vars _ _ _ I). Qed.
  Lemma step_sim lay st r s : inv lay st r -> proper n mean s -> harmless n st s -> exists ro, r_step n mean r s ro /\ matched (step n st s) ro.
  Proof.
    intros I P H. unfold r_step, step. rewrite (known_eq lay st r I). rewrite <- (i_vars _ _ _ I). destruct s as [sh s|x idx|x|o args|x idx ys|x o args|x idx y].
    - eexists. split; [reflexivity|]. destruct (inv_fresh lay st r I sh s _ P eq_refl) as (l & J). cbn. eauto.
    - destruct (Nat.ltb_spec x (length (vars st))) as [Hx|]; [|exists None; split; [reflexivity|cbn; auto]]. rewrite (size_len lay st r I x Hx).
      cbn [andb]. destruct (inside idx _) eqn:Ei; [|exists None; split; [reflexivity|cbn; auto]]. eexists. split; [reflexivity|].
      cbn. exists lay. apply inv_view; auto. now apply inside_iff.
    - destruct (Nat.ltb_spec x (length (vars st))) as [Hx|]; [|exists None; split; [reflexivity|cbn; auto]]. eexists. split; [reflexivity|].
      cbn. apply inv_fresh with (lay := lay); auto; [now apply (share_sharing lay st r)|]. symmetry. now apply (plain_contents lay).
    - destruct (forallb _ args) eqn:F; [|exists None; split; [reflexivity|cbn; auto]]. destruct (args_contents lay st r I args F) as [E Fs].
      destruct (P _ Fs) as [Sh M]. rewrite E in M. eexists. split; [eexists; split; [exact M|reflexivity]|].
      cbn. apply inv_fresh with (lay := lay); auto.
    - destruct (Nat.ltb_spec x (length (vars st))) as [Hx|]; [|exists None; split; [reflexivity|cbn; auto]]. rewrite (size_len lay st r I x Hx).
      cbn [andb]. destruct (inside idx _) eqn:Ei; [|exists None; split; [reflexivity|cbn; auto]]. cbn [andb]. destruct (Nat.eqb_spec (length idx) (length ys)) as [El|]; [|exists None; split; [reflexivity|cbn; auto]].
      eexists. split; [reflexivity|]. cbn [matched]. pose proof (proj1 (inside_iff _ _) Ei) as Ei'; clear Ei; rename Ei' into Ei. eexists.
      assert (Lv : length (map (fun iy : nat * Z => (wadd (fst (nth (fst iy) (contents r x) (0, 1)%Z)) (snd iy), snd (nth (fst iy) (contents r x) (0, 1)%Z))) (combine idx ys)) = length ys).
      { rewrite map_length, combine_length. lia. }
      assert (Sn : forall k, k < length ys -> nth k (combine idx ys) (0, 0%Z) = (nth k idx 0, nth k ys 0%Z)) by (intros k Hk; apply combine_nth; assumption).
      assert (Vn : forall k, k < length ys -> nth k (map (fun iy : nat * Z => (wadd (fst (nth (fst iy) (contents r x) (0, 1)%Z)) (snd iy), snd (nth (fst iy) (contents r x) (0, 1)%Z))) (combine idx ys)) (0, 1)%Z =
        (wadd (fst (nth (nth k idx 0) (contents r x) (0, 1)%Z)) (nth k ys 0%Z), snd (nth (nth k idx 0) (contents r x) (0, 1)%Z))).
      { intros k Hk. rewrite (nth_map _ _ _ (0, 0%Z)) by (rewrite combine_length; lia). rewrite Sn by assumption. reflexivity. }
      assert (Bi : forall k, k < length ys -> nth k idx 0 < length (r_off (r_var r x))) by (intros k Hk; apply Ei, nth_In; lia).
      apply (inv_alloc lay st r I); rewrite Lv.
      + intros [|p] Hp; [apply seq_length|assumption].
      + intros [|p] k Hp Hk; [rewrite nth_seq by assumption; rewrite map_length, combine_length; lia|].
        rewrite (share_length lay st r I) by assumption. auto.
      + intros Hf [|p] Hp; [reflexivity|]. destruct (list_eq_dec Nat.eq_dec idx _) as [E|]; [|discriminate]. rewrite E, seq_length in El. now rewrite E, El.
      + intros k Hk. rewrite Vn by assumption. cbn [fst]. rewrite <- (reveal_contents lay st r I x (nth k idx 0) Hx (Bi k Hk)).
        destruct n as [|m]; [lia|]. cbn [seq map zsum fold_right]. rewrite nth_seq by assumption. cbn [Nat.add].
        rewrite (nth_map _ _ _ (0, 0%Z)) by (rewrite combine_length; lia). rewrite Sn by assumption. cbn [fst snd].
        assert (Em : map (fun p => nth (nth k match p with 0 => seq 0 (length ys) | S _ => idx end 0)
           match p with 0 => map (fun iy : nat * Z => wadd (nth (fst iy) (share st (var st x) p) 0%Z) (snd iy)) (combine idx ys) | S _ => share st (var st x) p end 0%Z) (seq 1 m) =
           map (fun p => nth (nth k idx 0) (share st (var st x) p) 0%Z) (seq 1 m)).
        { apply map_ext_in. intros [|p] Hp; [apply in_seq in Hp; lia|reflexivity]. }
        rewrite Em. set (S := fold_right Z.add 0%Z _). set (a := nth (nth k idx 0) _ _). unfold wadd. apply eqm_wrap_eq. rewrite !wrap_eqm. apply eqm_iff. exists 0%Z. lia.
      + intros k Hk. rewrite Vn by assumption. cbn [snd]. unfold contents. rewrite (nth_map _ _ _ 0) by auto.
        destruct (i_sto _ _ _ I x Hx) as [<- B]. apply (i_scale _ _ _ I x); [assumption|]. apply nth_In. auto.
    - destruct (Nat.ltb_spec x (length (vars st))) as [Hx|]; [|exists None; split; [reflexivity|cbn; auto]]. cbn [andb].
      destruct (forallb _ args) eqn:F; [|exists None; split; [reflexivity|cbn; auto]]. destruct (args_contents lay st r I args F) as [E Fs].
      destruct (P _ Fs) as [Sh M]. rewrite E in M. destruct H as [Sp H]. eexists. split; [eexists; split; [exact M|reflexivity]|].
      set (res := o (map _ args)) in *. rewrite at_scale_length, reveal_length. rewrite (size_len lay st r I x Hx).
      destruct (Nat.eqb_spec (length (fst res 0)) (length (r_off (r_var r x)))) as [El|]; [|cbn; auto]. cbn [andb].
      assert (Off : forall p, p < n -> off (var st x) p = r_off (r_var r x)) by (intros p Hp; now apply (off_plain lay)).
      destruct (nodupb (r_off (r_var r x))) eqn:Nd.
      + assert (T : forallb (fun p => nodupb (off (var st x) p)) (seq 0 n) = true). { apply forallb_forall. intros p Hp. apply in_seq in Hp. rewrite Off by lia. assumption. }
        rewrite T. cbn [matched]. exists lay. apply nodupb_iff in Nd.
        eapply (inv_write lay st r I x (r_off (r_var r x)) (fst res) _ (snd res)); eauto.
        * intros y Hy Ny Es (k & K1 & K2). symmetry. apply H; [assumption|assumption|]. split; [now symmetry|]. exists 0, k. split; [lia|].
          split; [rewrite Off by lia; assumption|]. rewrite (off_plain lay st r y 0 I Hy n_pos) by (rewrite Es; assumption). assumption.
        * intros k Hk. split; [reflexivity|]. now intros [].
        * intros p Hp. cbn beta. now rewrite Off.
        * apply setn_length.
        * intros y. rewrite setn_nth. apply Nat.ltb_lt in Hx. rewrite Hx, andb_true_r. reflexivity.
      + assert (T : forallb (fun p => nodupb (off (var st x) p)) (seq 0 n) = false).
        { destruct (forallb _ (seq 0 n)) eqn:T; [|reflexivity]. rewrite forallb_forall in T. specialize (T 0 ltac:(apply in_seq; lia)). rewrite Off in T by lia. congruence. }
        rewrite T. cbn. intros p Hp. rewrite Off by assumption. now rewrite Nd.
    - destruct (Nat.ltb_spec x (length (vars st))) as [Hx|]; [|exists None; split; [reflexivity|cbn; auto]]. cbn [andb].
      destruct (Nat.ltb_spec y (length (vars st))) as [Hy|]; [|exists None; split; [reflexivity|cbn; auto]]. cbn [andb].
      rewrite (size_len lay st r I x Hx), (size_len lay st r I y Hy). destruct (inside idx _) eqn:Ei; [|exists None; split; [reflexivity|cbn; auto]]. cbn [andb].
      destruct (Nat.eqb_spec (length idx) (length (r_off (r_var r y)))) as [El|]; [|exists None; split; [reflexivity|cbn; auto]].
      destruct H as (Sp & Hs & Hd). pose proof (proj1 (inside_iff _ _) Ei) as Ei'; clear Ei; rename Ei' into Ei. eexists. split; [reflexivity|]. set (tgt := map (fun i => nth i (r_off (r_var r x)) 0) idx).
      assert (Off : forall p, p < n -> map (fun i => nth i (off (var st x) p) 0) idx = tgt) by (intros p Hp; now rewrite (off_plain lay st r x p I)).
      destruct (nodupb tgt) eqn:Nd.
      + assert (T : forallb (fun p => nodupb (map (fun i => nth i (off (var st x) p) 0) idx)) (seq 0 n) = true).
        { apply forallb_forall. intros p Hp. apply in_seq in Hp. rewrite Off by lia. assumption. }
        rewrite T. cbn [matched]. exists lay. apply nodupb_iff in Nd.
        assert (Ht : forall k, In k tgt -> In k (r_off (r_var r x))) by (intros k Hk; apply in_map_iff in Hk as (i & <- & Hi); apply nth_In; auto).
        eapply (inv_write lay st r I x tgt (share st (var st y)) _ (scale (var st y))) with (sc := scale (var st x)); eauto.
        * now apply (share_sharing lay st r).
        * rewrite (share_length lay st r I) by assumption. unfold tgt. now rewrite map_length.
        * symmetry. now apply (plain_contents lay).
        * intros z Hz Nz Es (k & K1 & K2). rewrite Hs. rewrite <- (i_scale _ _ _ I z k Hz K1), Es. apply (i_scale _ _ _ I x); auto.
        * intros p Hp. cbn beta. now rewrite Off.
        * intros z. destruct (Nat.eqb_spec z x) as [->|]; [|reflexivity]. fold (var st x). now destruct (var st x).
      + assert (T : forallb (fun p => nodupb (map (fun i => nth i (off (var st x) p) 0) idx)) (seq 0 n) = false).
        { destruct (forallb _ (seq 0 n)) eqn:T; [|reflexivity]. rewrite forallb_forall in T. specialize (T 0 ltac:(apply in_seq; lia)). rewrite Off in T by lia. congruence. }
        rewrite T. cbn. intros p Hp. rewrite Off by assumption. now rewrite Nd.
  Qed.
  Lemma run_sim prog : forall lay st r, inv lay st r -> Forall (proper n mean) prog -> careful n st prog ->
    exists ro, r_run n mean r prog ro /\ matched (run n st prog) ro.
  Proof.
    induction prog as [|s prog IH]; intros lay st r I P C; [exists (Some r); split; [reflexivity|cbn; eauto]|].
    apply Forall_cons_iff in P as [P1 P2]. destruct C as [C1 C2]. destruct (step_sim lay st r s I P1 C1) as (ro & R1 & M1).
    cbn [r_run run]. destruct (step n st s) as [st'|w], ro as [r'|]; cbn in M1; try contradiction.
    - destruct M1 as (lay' & I'). destruct (IH lay' st' r' I' P2 C2) as (ro & R2 & M2). exists ro. split; [|assumption]. exists (Some r'). auto.
    - exists None. split; [|exact M1]. exists None. auto.
  Qed.
  Lemma inv_start lay : inv lay start r_start.
  Proof. constructor; cbn; try reflexivity; intros; lia. Qed.

  (** C90: careful programs give every tensor the elements PyTorch gives it, and raise where PyTorch raises, at every party *)
  Lemma k_C90_pytorch prog : Forall (proper n mean) prog -> careful n start prog ->
    match run n start prog with
    | Done st => exists r, r_run n mean r_start prog (Some r) /\ agree n st r
    | Raised w => r_run n mean r_start prog None /\ forall p, p < n -> w p = true
    end.
  Proof.
    intros P C. destruct (run_sim prog (fun _ _ => []) start r_start (inv_start _) P C) as (ro & R & M).
    destruct (run n start prog) as [st|w], ro as [r|]; cbn in M; try contradiction.
    - destruct M as (lay & I). exists r. split; [assumption|]. split; [exact (i_vars _ _ _ I)|]. intros x Hx. now apply (plain_contents lay).
    - auto.
  Qed.
End Proofs.

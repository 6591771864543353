(** Proofs about the tuple cache. *)
Require Import List Arith Lia Permutation Bool.
From Verif Require Import Cache.
Import ListNotations.

Section CP.
  Context {R : Type}.
  Variable eqb : R -> R -> bool.
  Hypothesis eqb_ok : forall a b, eqb a b = true <-> a = b.
  Notation pst := (pstate R).

  Lemma eqb_refl a : eqb a a = true. Proof. now apply eqb_ok. Qed.
  Lemma eqb_neq a b : a <> b -> eqb a b = false.
  Proof. intros H. destruct (eqb a b) eqn:E; [|reflexivity]. apply eqb_ok in E. contradiction. Qed.

  Lemma pop_spec {A} (l : list A) : match pop l with Some (t, l') => l = l' ++ [t] | None => l = [] end.
  Proof.
    induction l as [|a l IH]; cbn [pop]; [reflexivity|]. destruct (pop l) as [[b l']|]; rewrite IH; reflexivity.
  Qed.

  Lemma lookup_store_same (d : dict R) r v : lookup R eqb (store R eqb d r v) r = Some v.
  Proof. induction d as [|[k w] d IH]; cbn [store lookup]; [now rewrite eqb_refl|]. destruct (eqb k r) eqn:E; cbn [lookup]; rewrite E; auto. Qed.
  Lemma lookup_store_other (d : dict R) r q v : q <> r -> lookup R eqb (store R eqb d r v) q = lookup R eqb d q.
  Proof.
    intros H. induction d as [|[k w] d IH]; cbn [store lookup].
    - now rewrite eqb_neq by congruence.
    - destruct (eqb k r) eqn:E; cbn [lookup].
      + apply eqb_ok in E as ->. now rewrite (eqb_neq r q) by congruence.
      + now rewrite IH.
  Qed.
  Lemma store_ne d r v : store R eqb d r v <> [].
  Proof. destruct d as [|[k w] d]; cbn [store]; [discriminate|]. destruct (eqb k r); discriminate. Qed.

  (** all serial numbers in a dict *)
  Definition dser (d : dict R) : list nat := map t_serial (flat_map snd d).
  Lemma flat_store_some d r l v : lookup R eqb d r = Some l ->
    exists x y, flat_map snd d = x ++ l ++ y /\ flat_map snd (store R eqb d r v) = x ++ v ++ y.
  Proof.
    induction d as [|[k w] d IH]; cbn [lookup store flat_map snd]; [discriminate|]. destruct (eqb k r) eqn:E.
    - intros H. injection H as ->. exists [], (flat_map snd d). split; reflexivity.
    - intros H. destruct (IH H) as (x & y & A & B). exists (w ++ x), y. cbn [flat_map snd]. rewrite A, B. now rewrite <- !app_assoc.
  Qed.
  Lemma flat_store_none d r v : lookup R eqb d r = None -> flat_map snd (store R eqb d r v) = flat_map snd d ++ v.
  Proof.
    induction d as [|[k w] d IH]; cbn [lookup store flat_map snd]; [now rewrite app_nil_r|]. destruct (eqb k r) eqn:E; [discriminate|].
    intros H. cbn [flat_map snd]. rewrite IH by assumption. now rewrite app_assoc.
  Qed.
  Lemma dser_pop d r t l' l : lookup R eqb d r = Some l -> pop l = Some (t, l') -> Permutation (dser d) (t_serial t :: dser (store R eqb d r l')).
  Proof.
    intros H P. pose proof (pop_spec l) as S. rewrite P in S. destruct (flat_store_some d r l l' H) as (x & y & A & B).
    unfold dser. rewrite A, B, S. rewrite !map_app. cbn [map]. rewrite <- app_assoc. cbn [app].
    rewrite (app_assoc (map t_serial x) (map t_serial l') (t_serial t :: map t_serial y)), (app_assoc (map t_serial x)). symmetry. apply Permutation_middle.
  Qed.
  Lemma dser_push d r t : Permutation (dser (store R eqb d r (match lookup R eqb d r with Some l => l ++ [t] | None => [t] end))) (t_serial t :: dser d).
  Proof.
    destruct (lookup R eqb d r) as [l|] eqn:E.
    - destruct (flat_store_some d r l (l ++ [t]) E) as (x & y & A & B). unfold dser. rewrite A, B. rewrite !map_app. cbn [map].
      rewrite <- app_assoc. cbn [app]. rewrite (app_assoc (map t_serial x) (map t_serial l)), (app_assoc (map t_serial x) (map t_serial l) (map t_serial y)).
      symmetry. apply Permutation_middle.
    - unfold dser. rewrite (flat_store_none d r _ E). rewrite map_app. cbn [map]. symmetry. apply Permutation_cons_append.
  Qed.

  (** ** Every tuple is where it belongs, and nowhere twice *)
  Definition right_key (d : dict R) : Prop := Forall (fun e => Forall (fun t => t_for t = fst e) (snd e)) d.
  Lemma right_lookup d r l : right_key d -> lookup R eqb d r = Some l -> Forall (fun t => t_for t = r) l.
  Proof.
    intros F. induction F as [|[k w] d Fk F IH]; cbn [lookup]; [discriminate|]. destruct (eqb k r) eqn:E; [|exact IH].
    intros H. injection H as <-. apply eqb_ok in E as <-. exact Fk.
  Qed.
  Lemma right_store d r l : right_key d -> Forall (fun t => t_for t = r) l -> right_key (store R eqb d r l).
  Proof.
    intros F Fl. induction F as [|[k w] d Fk F IH]; cbn [store]; [constructor; [exact Fl|constructor]|]. destruct (eqb k r) eqn:E.
    - constructor; [|exact F]. apply eqb_ok in E as ->. exact Fl.
    - constructor; assumption.
  Qed.

  Definition fser (s : pst) (p : nat) : list nat := match tup_file R s p with Some d => dser d | None => [] end.
  Definition disj (a b : list nat) : Prop := forall x, In x a -> In x b -> False.
  Record inv (out : list nat) (s : pst) : Prop := mkInv {
    i_nodup : NoDup (out ++ dser (cache s));
    i_bound : Forall (fun x => x < generated s) (out ++ dser (cache s));
    i_fnodup : forall p, NoDup (fser s p);
    i_fbound : forall p, Forall (fun x => x < generated s) (fser s p);
    i_fdisj : forall p, disj (out ++ dser (cache s)) (fser s p);
    i_ffdisj : forall p q, p <> q -> disj (fser s p) (fser s q);
    i_right : right_key (cache s);
    i_fright : forall p d, tup_file R s p = Some d -> right_key d }.

  Lemma inv_fresh : inv [] (fresh_provider R).
  Proof. constructor; intros; cbn in *; try constructor; try discriminate; intros x []. Qed.

  Lemma bound_weaken l n m : n <= m -> Forall (fun x => x < n) l -> Forall (fun x => x < m) l.
  Proof. intros H. apply Forall_impl. intros; lia. Qed.
  Lemma fresh_notin l n : Forall (fun x => x < n) l -> ~ In n l.
  Proof. intros F H. rewrite Forall_forall in F. specialize (F _ H). lia. Qed.

  Lemma inv_emit out s (r : R) tr rq : inv out s -> inv (out ++ [generated s]) (mkP R tr rq (cache s) (S (generated s)) (req_file R s) (tup_file R s))
    /\ t_for (mkTup r (generated s)) = r.
  Proof.
    intros [A B C D E F G H]. split; [|reflexivity].
    assert (P : Permutation ((out ++ [generated s]) ++ dser (cache s)) (generated s :: out ++ dser (cache s))).
    { rewrite <- app_assoc. cbn [app]. symmetry. apply Permutation_middle. }
    constructor; cbn [cache generated]; unfold fser in *; cbn [tup_file] in *.
    - apply (Permutation_NoDup (Permutation_sym P)). constructor; [now apply fresh_notin|assumption].
    - rewrite P. constructor; [lia|]. eapply bound_weaken; [|exact B]. lia.
    - assumption.
    - intros p. eapply bound_weaken; [|apply D]. lia.
    - intros p x Hx Hy. rewrite P in Hx. destruct Hx as [<-|Hx]; [|exact (E p x Hx Hy)]. exact (fresh_notin _ _ (D p) Hy).
    - assumption.
    - assumption.
    - assumption.
  Qed.

  Definition out_ser (o : outcome R) : list nat := match o with Served t => [t_serial t] | IndexError => [] end.
  Definition fits (r : R) (o : outcome R) : Prop := match o with Served t => t_for t = r | IndexError => True end.

  Lemma inv_ask out s r : inv out s -> let (o, s') := ask R eqb r s in inv (out ++ out_ser o) s' /\ fits r o.
  Proof.
    intros I. unfold ask. destruct (tracing s) eqn:T.
    { cbn [generate generated tracing requests cache req_file tup_file]. apply (inv_emit out s r true (requests s ++ [r]) I). }
    assert (Gen : let (o, s') := (let (t, s') := generate R r s in (Served t, s')) in inv (out ++ out_ser o) s' /\ fits r o).
    { cbn [generate]. rewrite T. apply (inv_emit out s r false (requests s) I). }
    destruct (cache s) as [|e d] eqn:Ec; [exact Gen|]. rewrite <- Ec.
    destruct (lookup R eqb (cache s) r) as [l|] eqn:El; [|exact Gen]. destruct (pop l) as [[t l']|] eqn:Ep.
    2: { cbn [out_ser fits]. rewrite app_nil_r. auto. }
    cbn [out_ser fits]. pose proof (dser_pop (cache s) r t l' l El Ep) as P. destruct I as [A B C D E F G H].
    assert (Q : Permutation (out ++ dser (cache s)) ((out ++ [t_serial t]) ++ dser (store R eqb (cache s) r l'))).
    { rewrite P. rewrite <- app_assoc. reflexivity. }
    pose proof (right_lookup _ _ _ G El) as Fl. pose proof (pop_spec l) as Sp. rewrite Ep in Sp. subst l. apply Forall_app in Fl as [Fl Ft].
    split; [|now inversion Ft].
    constructor; cbn [cache generated]; unfold fser in *; cbn [tup_file] in *; auto.
    - exact (Permutation_NoDup Q A).
    - now rewrite <- Q.
    - intros p x Hx Hy. rewrite <- Q in Hx. exact (E p x Hx Hy).
    - now apply right_store.
  Qed.

  Lemma inv_fill_one out s r : inv out s -> inv out (fill_one R eqb s r).
  Proof.
    intros [A B C D E F G H]. unfold fill_one. cbn [generate cache generated tracing requests req_file tup_file].
    pose proof (dser_push (cache s) r (mkTup r (generated s))) as P. cbn [t_serial] in P.
    set (l := match lookup R eqb (cache s) r with Some l => l ++ [mkTup r (generated s)] | None => [mkTup r (generated s)] end) in *.
    assert (Q : Permutation (out ++ dser (store R eqb (cache s) r l)) (generated s :: out ++ dser (cache s))).
    { rewrite P. symmetry. apply Permutation_middle. }
    constructor; cbn [cache generated]; unfold fser in *; cbn [tup_file] in *; auto.
    - apply (Permutation_NoDup (Permutation_sym Q)). constructor; [now apply fresh_notin|assumption].
    - rewrite Q. constructor; [lia|]. eapply bound_weaken; [|exact B]. lia.
    - intros p. eapply bound_weaken; [|apply D]. lia.
    - intros p x Hx Hy. rewrite Q in Hx. destruct Hx as [<-|Hx]; [|exact (E p x Hx Hy)]. exact (fresh_notin _ _ (D p) Hy).
    - apply right_store; [assumption|]. unfold l. destruct (lookup R eqb (cache s) r) as [l0|] eqn:El; [|repeat constructor].
      apply Forall_app. split; [exact (right_lookup _ _ _ G El)|repeat constructor].
  Qed.
  Lemma inv_fill out s : inv out s -> inv out (fill_cache R eqb s).
  Proof. unfold fill_cache. generalize (requests s). intros rs. revert s. induction rs as [|r rs IH]; intros s I; cbn [fold_left]; [assumption|]. apply IH. now apply inv_fill_one. Qed.

  Lemma inv_trace out s b : inv out s -> inv out (trace R b s).
  Proof. intros [A B C D E F G H]. constructor; assumption. Qed.
  Lemma inv_same out s s' : cache s' = cache s -> generated s' = generated s -> tup_file R s' = tup_file R s -> inv out s -> inv out s'.
  Proof. intros Ec Eg Ef [A B C D E F G H]. constructor; unfold fser in *; rewrite ?Ec, ?Eg, ?Ef; auto. Qed.
  Lemma upd_same {A} (f : nat -> A) p a : upd f p a p = a. Proof. unfold upd. now rewrite Nat.eqb_refl. Qed.
  Lemma upd_other {A} (f : nat -> A) p q a : q <> p -> upd f p a q = f q. Proof. unfold upd. intros H. apply Nat.eqb_neq in H. now rewrite H. Qed.

  Lemma NoDup_app_l (a b : list nat) : NoDup (a ++ b) -> NoDup a.
  Proof. induction a as [|x a IH]; intros H; [constructor|]. inversion H; subst. constructor; [|now apply IH]. intros Hx. apply H2. apply in_or_app. auto. Qed.
  Lemma NoDup_app_r (a b : list nat) : NoDup (a ++ b) -> NoDup b.
  Proof. induction a as [|x a IH]; intros H; [assumption|]. inversion H; subst. auto. Qed.
  Lemma NoDup_app_d (a b : list nat) : NoDup (a ++ b) -> disj a b.
  Proof. induction a as [|x a IH]; intros H y Hy Hb; [destruct Hy|]. inversion H; subst. destruct Hy as [<-|Hy]; [|exact (IH H3 y Hy Hb)]. apply H2. apply in_or_app. auto. Qed.
  Lemma NoDup_app_i (a b : list nat) : NoDup a -> NoDup b -> disj a b -> NoDup (a ++ b).
  Proof.
    induction a as [|x a IH]; intros A B D; [assumption|]. inversion A; subst. cbn [app]. constructor.
    - intros H. apply in_app_or in H as [H|H]; [contradiction|]. exact (D x (or_introl eq_refl) H).
    - apply IH; auto. intros y Hy. apply D. now right.
  Qed.

  Lemma inv_save_tup out s p tr rq rf : inv out s -> inv out (mkP R tr rq [] (generated s) rf (upd (tup_file R s) p (Some (cache s)))).
  Proof.
    intros [A B C D E F G H].
    assert (X : forall q, fser (mkP R tr rq [] (generated s) rf (upd (tup_file R s) p (Some (cache s)))) q = if Nat.eqb q p then dser (cache s) else fser s q).
    { intros q. unfold fser. cbn [tup_file]. unfold upd. destruct (Nat.eqb q p); reflexivity. }
    constructor; cbn [cache generated dser flat_map map]; rewrite ?app_nil_r.
    - now apply NoDup_app_l in A.
    - now apply Forall_app in B.
    - intros q. rewrite X. destruct (Nat.eqb q p); [now apply NoDup_app_r in A|apply C].
    - intros q. rewrite X. destruct (Nat.eqb q p); [now apply Forall_app in B|apply D].
    - intros q. rewrite X. destruct (Nat.eqb q p); [now apply NoDup_app_d in A|]. intros x Hx. apply (E q). apply in_or_app. auto.
    - intros q r Hqr. rewrite !X. destruct (Nat.eqb q p) eqn:Eq, (Nat.eqb r p) eqn:Er.
      + apply Nat.eqb_eq in Eq, Er. congruence.
      + intros x Hx. apply (E r). apply in_or_app. auto.
      + intros x Hx Hy. apply (E q x); [apply in_or_app; auto|assumption].
      + now apply F.
    - constructor.
    - intros q d. cbn [tup_file]. unfold upd. destruct (Nat.eqb q p); [|apply H]. intros Hd. injection Hd as <-. assumption.
  Qed.
  Lemma inv_load_tup out s p d tr rq rf : inv out s -> tup_file R s p = Some d -> inv out (mkP R tr rq d (generated s) rf (upd (tup_file R s) p None)).
  Proof.
    intros [A B C D E F G H] Ep.
    assert (X : forall q, fser (mkP R tr rq d (generated s) rf (upd (tup_file R s) p None)) q = if Nat.eqb q p then [] else fser s q).
    { intros q. unfold fser. cbn [tup_file]. unfold upd. destruct (Nat.eqb q p); reflexivity. }
    assert (Y : dser d = fser s p) by (unfold fser; now rewrite Ep).
    constructor; cbn [cache generated]; rewrite ?Y.
    - apply NoDup_app_i; [now apply NoDup_app_l in A|apply C|]. intros x Hx. apply (E p). apply in_or_app. auto.
    - apply Forall_app. split; [now apply Forall_app in B|apply D].
    - intros q. rewrite X. destruct (Nat.eqb q p); [constructor|apply C].
    - intros q. rewrite X. destruct (Nat.eqb q p); [constructor|apply D].
    - intros q. rewrite X. destruct (Nat.eqb q p) eqn:Eq; [intros x _ []|]. apply Nat.eqb_neq in Eq. intros x Hx Hy.
      apply in_app_or in Hx as [Hx|Hx]; [apply (E q x); [apply in_or_app; auto|assumption]|]. exact (F p q (fun h => Eq (eq_sym h)) x Hx Hy).
    - intros q r Hqr. rewrite !X. destruct (Nat.eqb q p), (Nat.eqb r p); try (intros x []); try (intros x _ []). now apply F.
    - now apply (H p).
    - intros q d'. cbn [tup_file]. unfold upd. destruct (Nat.eqb q p); [discriminate|apply H].
  Qed.
  Lemma inv_save out s p : inv out s -> inv out (save_cache R p s).
  Proof.
    intros I. unfold save_cache.
    set (s1 := match requests s with [] => s | _ => _ end).
    assert (I1 : inv out s1) by (unfold s1; destruct (requests s); [assumption|]; apply (inv_same out s); [reflexivity|reflexivity|reflexivity|exact I]).
    destruct (cache s1) eqn:Ec; [assumption|]. rewrite <- Ec. now apply inv_save_tup.
  Qed.
  Lemma inv_load out s p : inv out s -> inv out (load_cache R p s).
  Proof.
    intros I. unfold load_cache.
    set (s1 := match req_file R s p with Some _ => _ | None => s end).
    assert (I1 : inv out s1) by (unfold s1; destruct (req_file R s p); [|assumption]; apply (inv_same out s); [reflexivity|reflexivity|reflexivity|exact I]).
    destruct (tup_file R s1 p) eqn:Ec; [|assumption]. now apply inv_load_tup.
  Qed.

  Definition asked (h : list (pcall R)) : list R := flat_map (fun c => match c with PAsk _ r => [r] | _ => [] end) h.
  Definition outs (os : list (outcome R)) : list nat := flat_map out_ser os.
  Lemma inv_perform h : forall out s, inv out s -> let (os, s') := perform R eqb h s in inv (out ++ outs os) s' /\ Forall2 fits (asked h) os.
  Proof.
    induction h as [|c h IH]; intros out s I; cbn [perform].
    { cbn [outs flat_map asked]. rewrite app_nil_r. split; [assumption|constructor]. }
    destruct c as [r|b| | |p|p]; cbn [do_call asked flat_map app].
    - pose proof (inv_ask out s r I) as J. destruct (ask R eqb r s) as [o s1]. destruct J as [J Fo]. specialize (IH _ _ J).
      destruct (perform R eqb h s1) as [os s2]. destruct IH as [IH F]. cbn [app outs flat_map]. fold (outs os). rewrite app_assoc.
      split; [assumption|]. constructor; assumption.
    - specialize (IH _ _ (inv_trace out s b I)). destruct (perform R eqb h (trace R b s)) as [os s2]. exact IH.
    - cbn [trace_once]. specialize (IH _ _ I). destruct (perform R eqb h s) as [os s2]. exact IH.
    - specialize (IH _ _ (inv_fill out s I)). destruct (perform R eqb h (fill_cache R eqb s)) as [os s2]. exact IH.
    - specialize (IH _ _ (inv_save out s p I)). destruct (perform R eqb h (save_cache R p s)) as [os s2]. exact IH.
    - specialize (IH _ _ (inv_load out s p I)). destruct (perform R eqb h (load_cache R p s)) as [os s2]. exact IH.
  Qed.

  (** ** What is served after tracing and filling *)
  Definition uses (r : R) (rs : list R) : nat := length (filter (eqb r) rs).
  Lemma uses_app r a b : uses r (a ++ b) = uses r a + uses r b.
  Proof. unfold uses. now rewrite filter_app, app_length. Qed.
  Lemma uses_one r q : uses r [q] = if eqb r q then 1 else 0.
  Proof. unfold uses. cbn [filter]. destruct (eqb r q); reflexivity. Qed.
  Lemma uses_pos r rs : In r rs <-> 0 < uses r rs.
  Proof.
    unfold uses. split; intros H.
    - assert (In r (filter (eqb r) rs)) by (apply filter_In; split; [assumption|apply eqb_refl]). destruct (filter (eqb r) rs); [easy|cbn; lia].
    - destruct (filter (eqb r) rs) as [|q l] eqn:E; [cbn in H; lia|]. assert (In q (filter (eqb r) rs)) by (rewrite E; now left).
      apply filter_In in H0 as [H0 H1]. apply eqb_ok in H1. now subst.
  Qed.

  Lemma perform_app a b s : perform R eqb (a ++ b) s = let (o, s1) := perform R eqb a s in let (o', s2) := perform R eqb b s1 in (o ++ o', s2).
  Proof.
    revert s. induction a as [|c a IH]; intros s; cbn [perform app].
    - destruct (perform R eqb b s). reflexivity.
    - destruct (do_call R eqb s c) as [o s1]. rewrite IH. destruct (perform R eqb a s1) as [o1 s2]. destruct (perform R eqb b s2) as [o2 s3]. now rewrite app_assoc.
  Qed.

  (** Tracing [rs] from a fresh provider. *)
  Lemma traced rs : forall s, tracing s = true ->
    snd (ask_all R eqb rs s) = mkP R true (requests s ++ rs) (cache s) (length rs + generated s) (req_file R s) (tup_file R s).
  Proof.
    unfold ask_all. induction rs as [|r rs IH]; intros s T; cbn [map perform].
    - rewrite app_nil_r. destruct s; cbn in *. subst. reflexivity.
    - cbn [do_call]. unfold ask. rewrite T. cbn [generate requests cache generated req_file tup_file tracing].
      specialize (IH (mkP R true (requests s ++ [r]) (cache s) (S (generated s)) (req_file R s) (tup_file R s)) eq_refl).
      destruct (perform R eqb (map (PAsk R) rs) _) as [os s']. cbn [snd] in *. rewrite IH. cbn [requests cache generated req_file tup_file].
      rewrite <- app_assoc. cbn [app length]. f_equal. lia.
  Qed.

  (** [holds f g d]: under [q] the dict has [f q] tuples, and it has the key [q] exactly when [g q] is not zero *)
  Definition holds (f g : R -> nat) (d : dict R) : Prop :=
    forall q, match lookup R eqb d q with Some l => 0 < g q /\ length l = f q | None => g q = 0 /\ f q = 0 end.
  Lemma holds_ext f f' g g' d : (forall q, f q = f' q) -> (forall q, g q = g' q) -> holds f g d -> holds f' g' d.
  Proof. intros A B H q. specialize (H q). rewrite <- (A q), <- (B q). exact H. Qed.

  Definition made_since (lo : nat) (s : pst) : Prop := Forall (fun x => lo <= x < generated s) (dser (cache s)) /\ lo <= generated s.
  Lemma fill_one_holds lo f g s r : holds f g (cache s) -> made_since lo s ->
    let s' := fill_one R eqb s r in
    holds (fun q => f q + uses q [r]) (fun q => g q + uses q [r]) (cache s') /\ made_since lo s' /\
    generated s' = S (generated s) /\ requests s' = requests s /\ tracing s' = tracing s.
  Proof.
    intros H [M Mlo]. unfold fill_one. cbn [generate cache generated tracing requests req_file tup_file]. split; [|split; [|auto]].
    - intros q. rewrite uses_one. pose proof (H q) as Hq. destruct (eqb q r) eqn:Q.
      + apply eqb_ok in Q as ->. rewrite lookup_store_same. destruct (lookup R eqb (cache s) r) as [l|].
        * rewrite app_length. cbn [length]. lia.
        * cbn [length]. lia.
      + rewrite lookup_store_other by (intros ->; rewrite eqb_refl in Q; discriminate). destruct (lookup R eqb (cache s) q); lia.
    - pose proof (dser_push (cache s) r (mkTup r (generated s))) as P. cbn [t_serial] in P. split; cbn [cache generated]; [|lia].
      rewrite P. constructor; [lia|]. revert M. apply Forall_impl. intros; lia.
  Qed.
  Lemma fill_holds lo rs : forall f g s, holds f g (cache s) -> made_since lo s ->
    let s' := fold_left (fill_one R eqb) rs s in
    holds (fun q => f q + uses q rs) (fun q => g q + uses q rs) (cache s') /\ made_since lo s' /\
    generated s' = generated s + length rs /\ requests s' = requests s /\ tracing s' = tracing s.
  Proof.
    induction rs as [|r rs IH]; intros f g s H M; cbn [fold_left length].
    - cbv zeta. split; [|auto]. revert H. apply holds_ext; intros; unfold uses; cbn [filter length]; lia.
    - destruct (fill_one_holds lo f g s r H M) as (H1 & M1 & G1 & R1 & T1). destruct (IH _ _ _ H1 M1) as (H2 & M2 & G2 & R2 & T2).
      split; [|split; [assumption|]; split; [lia|]; split; congruence].
      revert H2. apply holds_ext; intros q; change (r :: rs) with ([r] ++ rs); rewrite uses_app; lia.
  Qed.
  Lemma fills_holds lo m rs : forall f g s, holds f g (cache s) -> made_since lo s -> requests s = rs ->
    let s' := snd (perform R eqb (repeat (PFill R) m) s) in
    holds (fun q => f q + m * uses q rs) (fun q => g q + m * uses q rs) (cache s') /\ made_since lo s' /\
    generated s' = generated s + m * length rs /\ tracing s' = tracing s.
  Proof.
    induction m as [|m IH]; intros f g s H M Er; cbn [repeat perform].
    - cbv zeta. cbn [snd]. split; [|split; [assumption|split; [lia|reflexivity]]]. revert H. apply holds_ext; intros; lia.
    - cbn [do_call]. unfold fill_cache. rewrite Er. destruct (fill_holds lo rs f g s H M) as (H1 & M1 & G1 & R1 & T1).
      assert (Er' : requests (fold_left (fill_one R eqb) rs s) = rs) by congruence.
      destruct (IH _ _ _ H1 M1 Er') as (H2 & M2 & G2 & T2). destruct (perform R eqb (repeat (PFill R) m) (fold_left (fill_one R eqb) rs s)) as [os s'].
      cbv zeta. cbn [snd] in *. split; [|split; [assumption|split; [lia|congruence]]]. revert H2. apply holds_ext; intros; lia.
  Qed.

  Lemma ask_holds lo f g s r : tracing s = false -> cache s <> [] -> holds f g (cache s) -> made_since lo s ->
    let (o, s') := ask R eqb r s in
    holds (fun q => f q - uses q [r]) g (cache s') /\ made_since lo s' /\ tracing s' = false /\ cache s' <> [] /\
    (0 < g r -> generated s' = generated s) /\
    (0 < f r -> exists t, o = Served t /\ lo <= t_serial t /\ In (t_serial t) (dser (cache s))) /\
    (0 < g r -> f r = 0 -> o = IndexError) /\
    (g r = 0 -> o = Served (mkTup r (generated s))).
  Proof.
    intros T Ne H M. unfold ask. rewrite T.
    assert (Gen : lookup R eqb (cache s) r = None ->
      let (o, s') := (let (t, s') := generate R r s in (Served t, s')) in
      holds (fun q => f q - uses q [r]) g (cache s') /\ made_since lo s' /\ tracing s' = false /\ cache s' <> [] /\
      (0 < g r -> generated s' = generated s) /\
      (0 < f r -> exists t, o = Served t /\ lo <= t_serial t /\ In (t_serial t) (dser (cache s))) /\
      (0 < g r -> f r = 0 -> o = IndexError) /\ (g r = 0 -> o = Served (mkTup r (generated s)))).
    { intros El. cbn [generate]. pose proof (H r) as Hr. rewrite El in Hr. destruct M as [M1 M2]. cbn [cache generated tracing].
      split; [|split; [|split; [assumption|split; [assumption|]]]].
      - intros q. specialize (H q). rewrite uses_one. destruct (eqb q r) eqn:Q; [apply eqb_ok in Q as ->; rewrite El; lia|]. rewrite Nat.sub_0_r. exact H.
      - split; cbn [cache generated]; [|lia]. revert M1. apply Forall_impl. intros; lia.
      - split; [lia|]. split; [lia|]. split; [lia|]. reflexivity. }
    destruct (cache s) as [|e d] eqn:Ec; [congruence|]. rewrite <- Ec in *.
    destruct (lookup R eqb (cache s) r) as [l|] eqn:El; [|exact (Gen eq_refl)]. clear Gen. pose proof (H r) as Hr. rewrite El in Hr.
    pose proof (pop_spec l) as Sp. destruct (pop l) as [[t l']|] eqn:Ep.
    - subst l. rewrite app_length in Hr. cbn [length] in Hr. pose proof (dser_pop (cache s) r t l' _ El Ep) as P. destruct M as [M1 M2].
      cbn [cache generated tracing]. split; [|split; [|split; [reflexivity|split; [apply store_ne|]]]].
      + intros q. specialize (H q). rewrite uses_one. destruct (eqb q r) eqn:Q.
        * apply eqb_ok in Q as ->. rewrite lookup_store_same. lia.
        * rewrite lookup_store_other by (intros ->; rewrite eqb_refl in Q; discriminate). rewrite Nat.sub_0_r. exact H.
      + split; cbn [cache generated]; [|assumption]. rewrite P in M1. now inversion M1.
      + split; [reflexivity|]. split; [|split; [lia|lia]]. intros _. exists t. split; [reflexivity|].
        assert (I : In (t_serial t) (dser (cache s))) by (rewrite P; now left). split; [|assumption]. rewrite Forall_forall in M1. now apply M1.
    - subst l. cbn [length] in Hr. split; [|split; [assumption|split; [assumption|split; [assumption|split; [reflexivity|]]]]].
      + intros q. specialize (H q). rewrite uses_one. destruct (eqb q r) eqn:Q; [apply eqb_ok in Q as ->; rewrite El in *; cbn [length] in *; lia|]. rewrite Nat.sub_0_r. exact H.
      + split; [lia|]. split; [reflexivity|lia].
  Qed.
  Lemma asks_hold lo rs : forall f g s, tracing s = false -> cache s <> [] -> holds f g (cache s) -> made_since lo s ->
    let s' := snd (ask_all R eqb rs s) in
    holds (fun q => f q - uses q rs) g (cache s') /\ made_since lo s' /\ tracing s' = false /\ cache s' <> [] /\
    (forall x, In x (dser (cache s')) -> In x (dser (cache s))).
  Proof.
    unfold ask_all. induction rs as [|r rs IH]; intros f g s T Ne H M; cbn [map perform].
    - cbv zeta. cbn [snd]. split; [|auto]. revert H. apply holds_ext; intros; unfold uses; cbn [filter length]; lia.
    - cbn [do_call]. pose proof (ask_holds lo f g s r T Ne H M) as A.
      assert (Sub : let (o, s1) := ask R eqb r s in forall x, In x (dser (cache s1)) -> In x (dser (cache s))).
      { clear - T eqb_ok. unfold ask. rewrite T. destruct (cache s) as [|e d] eqn:Ec; [cbn [generate cache]; now rewrite Ec|]. rewrite <- Ec.
        destruct (lookup R eqb (cache s) r) as [l|] eqn:El; [|now cbn [generate cache]]. destruct (pop l) as [[t l']|] eqn:Ep; [|auto].
        cbn [cache]. intros x Hx. rewrite (dser_pop (cache s) r t l' l El Ep). now right. }
      destruct (ask R eqb r s) as [o s1]. destruct A as (H1 & M1 & T1 & N1 & _).
      specialize (IH _ _ _ T1 N1 H1 M1). destruct (perform R eqb (map (PAsk R) rs) s1) as [os s2]. cbv zeta in *. cbn [snd] in *.
      destruct IH as (H2 & M2 & T2 & N2 & S2). split; [|auto 6].
      revert H2. apply holds_ext; [|reflexivity]. intros q. change (r :: rs) with ([r] ++ rs). rewrite uses_app. lia.
  Qed.

  (** The provider after tracing [rs], switching tracing off, and filling the cache [m] times. *)
  Definition prepared (rs : list R) (m : nat) : list (pcall R) := PTrace R true :: map (PAsk R) rs ++ PTrace R false :: repeat (PFill R) m.
  Lemma prepared_state rs m : let s := snd (perform R eqb (prepared rs m) (fresh_provider R)) in
    holds (fun q => m * uses q rs) (fun q => m * uses q rs) (cache s) /\ made_since (length rs) s /\ tracing s = false /\ generated s = length rs + m * length rs.
  Proof.
    unfold prepared. cbn [perform do_call]. rewrite perform_app.
    pose proof (traced rs (trace R true (fresh_provider R)) eq_refl) as T. unfold ask_all in T.
    destruct (perform R eqb (map (PAsk R) rs) (trace R true (fresh_provider R))) as [os s1]. cbn [snd] in T. subst s1. cbn [perform do_call].
    cbn [trace requests cache generated req_file tup_file fresh_provider app]. rewrite Nat.add_0_r.
    set (s2 := mkP R false rs [] (length rs) (fun _ => None) (fun _ => None)).
    change (trace R false _) with s2.
    assert (H2 : holds (fun _ => 0) (fun _ => 0) (cache s2)) by (intros q; cbn; auto).
    assert (M2 : made_since (length rs) s2) by (split; [constructor|cbn; lia]).
    destruct (fills_holds (length rs) m rs _ _ s2 H2 M2 eq_refl) as (H3 & M3 & G3 & T3).
    destruct (perform R eqb (repeat (PFill R) m) s2) as [o3 s3]. cbn [snd] in G3, T3, M3, H3. cbv beta iota zeta. cbn [snd]. exact (conj H3 (conj M3 (conj T3 G3))).
  Qed.

  Lemma answers rs m rs' r : (0 < m) -> rs <> [] ->
    let s := snd (perform R eqb (prepared rs m) (fresh_provider R)) in
    let s' := snd (ask_all R eqb rs' s) in
    let (o, s'') := ask R eqb r s' in
    (In r rs -> generated s'' = generated s') /\
    (uses r rs' < m * uses r rs -> exists t, o = Served t /\ length rs <= t_serial t < generated s) /\
    (In r rs -> m * uses r rs <= uses r rs' -> o = IndexError) /\
    (~ In r rs -> o = Served (mkTup r (generated s'))).
  Proof.
    intros Hm Ne s s'. destruct (prepared_state rs m) as (H & M & T & G). fold s in H, M, T, G.
    assert (Nc : cache s <> []).
    { intros E. destruct rs as [|r0 rs0]; [congruence|]. specialize (H r0). rewrite E in H. cbn [lookup] in H.
      assert (0 < uses r0 (r0 :: rs0)) by (apply uses_pos; now left). nia. }
    destruct (asks_hold (length rs) rs' _ _ s T Nc H M) as (H1 & M1 & T1 & N1 & S1). fold s' in H1, M1, T1, N1, S1.
    pose proof (ask_holds (length rs) _ _ s' r T1 N1 H1 M1) as A. destruct (ask R eqb r s') as [o s''].
    destruct A as (_ & _ & _ & _ & A1 & A2 & A3 & A4). rewrite uses_pos.
    split; [|split; [|split]].
    - intros Hu. apply A1. nia.
    - intros Hu. destruct A2 as (t & -> & Lo & I); [lia|]. exists t. split; [reflexivity|]. split; [assumption|].
      apply S1 in I. destruct M as [M _]. rewrite Forall_forall in M. apply (M _ I).
    - intros Hu Hle. apply A3; [nia|lia].
    - intros Hu. apply A4. assert (uses r rs = 0) by lia. nia.
  Qed.

  Lemma no_requests_misses m s : tracing s = false -> cache s = [] -> requests s = [] -> forall r,
    ask R eqb r (snd (perform R eqb (repeat (PFill R) m) s)) = (Served (mkTup r (generated s)), snd (generate R r s)).
  Proof.
    intros T Ec Er r. replace (snd (perform R eqb (repeat (PFill R) m) s)) with s.
    - unfold ask. rewrite T, Ec. reflexivity.
    - induction m as [|m IH]; cbn [repeat perform]; [reflexivity|]. cbn [do_call]. unfold fill_cache. rewrite Er. cbn [fold_left].
      destruct (perform R eqb (repeat (PFill R) m) s). cbn [snd] in *. assumption.
  Qed.

  Lemma save_load p s : let s' := load_cache R p (save_cache R p s) in
    tracing s' = tracing s /\ generated s' = generated s /\
    requests s' = (match requests s with [] => match req_file R s p with Some rs => rs | None => [] end | rs => rs end) /\
    cache s' = (match cache s with [] => match tup_file R s p with Some d => d | None => [] end | d => d end) /\
    req_file R s' p = None /\ tup_file R s' p = None /\
    (forall q, q <> p -> req_file R s' q = req_file R s q /\ tup_file R s' q = tup_file R s q).
  Proof.
    destruct s as [tr rq ca g rf tf]. unfold load_cache, save_cache. cbn [requests cache generated tracing req_file tup_file].
    destruct rq as [|r0 rq], ca as [|e ca]; cbn [requests cache generated tracing req_file tup_file]; rewrite ?upd_same.
    1,2: destruct (rf p) eqn:E1.
    all: cbn [requests cache generated tracing req_file tup_file]; rewrite ?upd_same.
    1,2,5: destruct (tf p) eqn:E2.
    all: cbn [requests cache generated tracing req_file tup_file]; rewrite ?upd_same.
    all: do 6 (split; [first [reflexivity|assumption]|]); intros q Hq; rewrite ?(upd_other _ _ _ _ Hq); auto.
  Qed.
End CP.

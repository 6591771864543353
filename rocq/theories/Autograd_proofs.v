(** Proofs about the autograd tape. *)
Require Import List Bool Arith Lia PeanoNat.
From Verif Require Import Autograd.
Import ListNotations.

(** ** sums in the monoid of optional gradients *)
Section Sums.
  Context {G : Type} (plus : G -> G -> G).
  Hypothesis plus_comm : forall a b, plus a b = plus b a.
  Hypothesis plus_assoc : forall a b c, plus a (plus b c) = plus (plus a b) c.
  Definition oplus (a b : option G) : option G := match a, b with None, _ => b | _, None => a | Some x, Some y => Some (plus x y) end.
  Definition osum (l : list (option G)) : option G := fold_right oplus None l.
  Lemma oplus_comm a b : oplus a b = oplus b a.
  Proof using plus_comm. destruct a, b; cbn; try reflexivity. now rewrite plus_comm. Qed.
  Lemma oplus_assoc a b c : oplus a (oplus b c) = oplus (oplus a b) c.
  Proof using plus_assoc. destruct a, b, c; cbn; try reflexivity. now rewrite plus_assoc. Qed.
  Lemma oplus_none a : oplus a None = a. Proof. now destruct a. Qed.
  Lemma osum_app a b : osum (a ++ b) = oplus (osum a) (osum b).
  Proof using plus_assoc. induction a as [|x a IH]; [reflexivity|]. cbn [app osum fold_right]. fold (osum (a ++ b)). rewrite IH. apply oplus_assoc. Qed.
  Lemma osum_flat {A} (f : A -> list (option G)) l : osum (flat_map f l) = osum (map (fun a => osum (f a)) l).
  Proof using plus_assoc. induction l as [|a l IH]; [reflexivity|]. cbn [flat_map map]. rewrite osum_app, IH. reflexivity. Qed.
  Lemma osum_plus {A} (f g : A -> option G) l : osum (map (fun a => oplus (f a) (g a)) l) = oplus (osum (map f l)) (osum (map g l)).
  Proof using plus_assoc plus_comm.
    induction l as [|a l IH]; [reflexivity|]. cbn [map osum fold_right]. fold (osum (map (fun a => oplus (f a) (g a)) l)). rewrite IH. fold (osum (map f l)). fold (osum (map g l)).
    rewrite <- !oplus_assoc. f_equal. rewrite !oplus_assoc. f_equal. apply oplus_comm.
  Qed.
  Lemma osum_ext {A} (f g : A -> option G) l : (forall a, In a l -> f a = g a) -> osum (map f l) = osum (map g l).
  Proof. intros H. f_equal. now apply map_ext_in. Qed.
  (** one term replaced *)
  Lemma osum_change {A} (dec : forall a b : A, {a = b} + {a <> b}) (f g : A -> option G) l k u v : NoDup l -> In k l -> (forall a, a <> k -> f a = g a) -> oplus (f k) u = oplus (g k) v -> oplus (osum (map f l)) u = oplus (osum (map g l)) v.
  Proof using plus_assoc plus_comm.
    induction l as [|a l IH]; intros N I H E; [destruct I|]. inversion N; subst. cbn [map osum fold_right]. fold (osum (map f l)). fold (osum (map g l)). destruct (dec a k) as [->|D].
    - assert (E2 : osum (map f l) = osum (map g l)) by (apply osum_ext; intros b Hb; apply H; intros ->; contradiction). rewrite E2.
      rewrite <- !oplus_assoc. rewrite (oplus_comm (osum (map g l)) u), (oplus_comm (osum (map g l)) v). rewrite !oplus_assoc. now rewrite E.
    - destruct I as [I|I]; [contradiction|]. rewrite <- !oplus_assoc. rewrite (IH H3 I H E). now rewrite (H a D).
  Qed.
End Sums.

(** ** counting *)
Definition cnt (y : nat) (l : list nat) : nat := count_occ Nat.eq_dec l y.
Lemma cnt_app y a b : cnt y (a ++ b) = cnt y a + cnt y b.
Proof. unfold cnt. apply count_occ_app. Qed.
Lemma cnt_cons y a l : cnt y (a :: l) = (if Nat.eqb a y then 1 else 0) + cnt y l.
Proof. unfold cnt. cbn [count_occ]. destruct (Nat.eq_dec a y) as [->|N]; [now rewrite Nat.eqb_refl|]. destruct (Nat.eqb_spec a y); [contradiction|reflexivity]. Qed.
Lemma cnt_in y l : In y l <-> 0 < cnt y l.
Proof. unfold cnt. rewrite (count_occ_In Nat.eq_dec). lia. Qed.
Definition total (f : nat -> nat) (t : nat) : nat := list_sum (map f (seq 0 (S t))).
Lemma list_sum_change (f g : nat -> nat) l k u v : NoDup l -> In k l -> (forall a, a <> k -> f a = g a) -> f k + u = g k + v -> list_sum (map f l) + u = list_sum (map g l) + v.
Proof.
  induction l as [|a l IH]; intros N I H E; [destruct I|]. inversion N; subst. cbn [map list_sum fold_right]. fold (list_sum (map f l)). fold (list_sum (map g l)). destruct (Nat.eq_dec a k) as [->|D].
  - assert (E2 : list_sum (map f l) = list_sum (map g l)) by (f_equal; apply map_ext_in; intros b Hb; apply H; intros ->; contradiction). lia.
  - destruct I as [I|I]; [contradiction|]. specialize (IH H3 I H E). rewrite (H a D). lia.
Qed.
Lemma total_change f g t k u v : k <= t -> (forall a, a <> k -> f a = g a) -> f k + u = g k + v -> total f t + u = total g t + v.
Proof. intros Hk H E. apply (list_sum_change f g _ k); auto; [apply seq_NoDup|apply in_seq; lia]. Qed.
Lemma total_ext f g t : (forall a, f a = g a) -> total f t = total g t.
Proof. intros H. unfold total. f_equal. now apply map_ext. Qed.
Lemma total_ge f t k : k <= t -> f k <= total f t.
Proof.
  intros Hk. unfold total. assert (I : In k (seq 0 (S t))) by (apply in_seq; lia). revert I. generalize (seq 0 (S t)) as l. intros l. induction l as [|a l IH]; intros I; [destruct I|]. cbn [map list_sum fold_right]. fold (list_sum (map f l)).
  destruct I as [->|I]; [lia|]. specialize (IH I). lia.
Qed.
Lemma total_zero f t : (forall k, k <= t -> f k = 0) -> total f t = 0.
Proof.
  intros H. unfold total. assert (F : forall k, In k (seq 0 (S t)) -> f k = 0) by (intros k I; apply in_seq in I; apply H; lia). revert F. generalize (seq 0 (S t)) as l. intros l F. induction l as [|a l IH]; [reflexivity|].
  cbn [map list_sum fold_right]. fold (list_sum (map f l)). rewrite IH by (intros k I; apply F; now right). rewrite F by (now left). reflexivity.
Qed.

(** ** the specification on a heap *)
Section Spec.
  Context {G : Type} (plus : G -> G -> G).
  (** the edges out of a tensor and the gradients sent along them *)
  Definition edges (h : heap G) (i : nat) (g : G) : list (nat * G) := combine (differentiable (h i)) (local (h i) g).
  (** all paths from tensor [i], with the gradient that arrives at their ends *)
  Fixpoint flow (h : heap G) (fuel i : nat) (g : G) : list (nat * G) :=
    match fuel with
    | O => []
    | S f => if requires_grad (h i) then (i, g) :: flat_map (fun e => flow h f (fst e) (snd e)) (edges h i g) else []
    end.
  Definition arrivals (h : heap G) (t : nat) (seed : G) (x : nat) : list G := map snd (filter (fun e => Nat.eqb (fst e) x) (flow h (S t) t seed)).
  Definition sum_all (l : list G) : option G := osum plus (map Some l).
  Fixpoint add_lists (a b : list G) : list G := match a, b with x :: a, y :: b => plus x y :: add_lists a b | _, _ => [] end.
  (** what recording guarantees *)
  Definition tape (h : heap G) : Prop := forall i,
    (forall c, In c (children (h i)) -> c < i) /\
    (children (h i) <> [] -> requires_grad (h i) = true /\ grad_fn (h i) = true /\ differentiable (h i) <> [] /\ (forall g, length (differentiable (h i)) <= length (local (h i) g)) /\
      (forall a b, local (h i) (plus a b) = add_lists (local (h i) a) (local (h i) b)) /\ (forall c, In c (non_diff (h i)) -> In c (children (h i)) -> children (h c) = [])).
  (** no backward pass is under way *)
  Definition idle (h : heap G) : Prop := forall i, children (h i) <> [] -> grad (h i) = None /\ expected (h i) = 0 /\ received (h i) = 0.
End Spec.

Lemma map_flat {A B C} (f : A -> list B) (k : B -> C) l : map k (flat_map f l) = flat_map (fun a => map k (f a)) l.
Proof. induction l as [|a l IH]; [reflexivity|]. cbn [flat_map]. rewrite map_app, IH. reflexivity. Qed.
Section Flow.
  Context {G : Type} (plus : G -> G -> G).
  Hypothesis plus_comm : forall a b, plus a b = plus b a.
  Hypothesis plus_assoc : forall a b c, plus a (plus b c) = plus (plus a b) c.
  Variable h0 : heap G.
  Hypothesis T0 : tape plus h0.
  Notation ch := (fun i => children (h0 i)).
  Notation op := (oplus plus).

  Lemma diff_in i c : In c (differentiable (h0 i)) -> In c (children (h0 i)).
  Proof. unfold differentiable. intros H. now apply filter_In in H. Qed.
  Lemma edge_lt i g e : In e (edges h0 i g) -> fst e < i.
  Proof using T0. intros H. destruct e as [c v]. apply in_combine_l in H. apply diff_in in H. now apply T0. Qed.
  Lemma flow_fuel : forall f i g, i < f -> flow h0 f i g = flow h0 (S i) i g.
  Proof using T0.
    intros f. induction f as [f IH] using lt_wf_ind. intros i g Hi. destruct f as [|f]; [lia|]. destruct (Nat.eq_dec f i) as [->|N]; [reflexivity|]. cbn [flow]. destruct (requires_grad (h0 i)); [|reflexivity]. f_equal.
    rewrite !flat_map_concat_map. f_equal. apply map_ext_in. intros e He. apply edge_lt in He. rewrite (IH f) by lia. symmetry. apply (IH i); lia.
  Qed.
  Definition reach (x i : nat) (g : G) : option G := sum_all plus (arrivals h0 i g x).
  Lemma arrivals_unfold i g x : requires_grad (h0 i) = true -> arrivals h0 i g x = (if Nat.eqb i x then [g] else []) ++ flat_map (fun e => arrivals h0 (fst e) (snd e) x) (edges h0 i g).
  Proof using T0.
    intros R. unfold arrivals at 1. cbn [flow]. rewrite R. cbn [filter fst]. assert (E : map snd (filter (fun e => Nat.eqb (fst e) x) (flat_map (fun e => flow h0 i (fst e) (snd e)) (edges h0 i g))) = flat_map (fun e => arrivals h0 (fst e) (snd e) x) (edges h0 i g)).
    { assert (L : forall e, In e (edges h0 i g) -> fst e < i) by (apply edge_lt). revert L. induction (edges h0 i g) as [|e l IH]; intros L; [reflexivity|]. cbn [flat_map]. rewrite filter_app, map_app. rewrite IH by (intros; apply L; now right). f_equal.
      unfold arrivals. rewrite flow_fuel by (apply L; now left). reflexivity. }
    destruct (Nat.eqb i x); cbn [map app snd]; now rewrite E.
  Qed.
  Lemma reach_unfold i g x : requires_grad (h0 i) = true -> reach x i g = op (if Nat.eqb i x then Some g else None) (osum plus (map (fun e => reach x (fst e) (snd e)) (edges h0 i g))).
  Proof using T0 plus_assoc.
    intros R. unfold reach, sum_all. rewrite arrivals_unfold by assumption. rewrite map_app, osum_app by assumption. f_equal.
    - destruct (Nat.eqb i x); [cbn; reflexivity|reflexivity].
    - rewrite map_flat, osum_flat by assumption. reflexivity.
  Qed.
  Lemma reach_off i g x : requires_grad (h0 i) = false -> reach x i g = None.
  Proof. intros R. unfold reach, arrivals. cbn [flow]. rewrite R. reflexivity. Qed.
  Lemma reach_leaf i g x : children (h0 i) = [] -> requires_grad (h0 i) = true -> reach x i g = if Nat.eqb i x then Some g else None.
  Proof using T0 plus_assoc. intros L R. rewrite reach_unfold by assumption. unfold edges, differentiable. rewrite L. cbn [filter combine map osum fold_right]. apply oplus_none. Qed.
  Lemma add_combine (l : list nat) (a b : list G) x : (forall c u v, In c l -> reach x c (plus u v) = op (reach x c u) (reach x c v)) -> length l <= length a -> length l <= length b ->
    osum plus (map (fun e => reach x (fst e) (snd e)) (combine l (add_lists plus a b))) = op (osum plus (map (fun e => reach x (fst e) (snd e)) (combine l a))) (osum plus (map (fun e => reach x (fst e) (snd e)) (combine l b))).
  Proof using plus_comm plus_assoc.
    revert a b. induction l as [|c l IH]; intros a b H La Lb; [reflexivity|]. destruct a as [|u a]; [cbn in La; lia|]. destruct b as [|v b]; [cbn in Lb; lia|]. cbn [add_lists combine map osum fold_right fst snd].
    cbn [length] in La, Lb. unfold osum in IH. rewrite IH by (try lia; intros; apply H; now right). rewrite H by (now left). rewrite <- !oplus_assoc by assumption. f_equal. rewrite !oplus_assoc by assumption. f_equal. now apply oplus_comm.
  Qed.
  Lemma reach_plus x : forall i a b, reach x i (plus a b) = op (reach x i a) (reach x i b).
  Proof using T0 plus_comm plus_assoc.
    intros i. induction i as [i IH] using lt_wf_ind. intros a b. destruct (requires_grad (h0 i)) eqn:R; [|now rewrite !reach_off]. destruct (children (h0 i)) as [|c0 cs] eqn:Ec.
    - rewrite !reach_leaf by assumption. now destruct (Nat.eqb i x).
    - assert (N : children (h0 i) <> []) by (rewrite Ec; discriminate). destruct (proj2 (T0 i) N) as (_ & _ & _ & L & A & _). rewrite !reach_unfold by assumption. unfold edges. rewrite A. rewrite add_combine; try apply L.
      + rewrite <- !oplus_assoc by assumption. destruct (Nat.eqb i x); [|reflexivity]. change (Some (plus a b)) with (op (Some a) (Some b)). rewrite <- !oplus_assoc by assumption. f_equal. rewrite !oplus_assoc by assumption. f_equal. now apply oplus_comm.
      + intros c u v Hc. apply IH. apply (proj1 (T0 i)). now apply diff_in.
  Qed.

  (** ** identification *)
  Hypothesis I0 : idle h0.
  Variable t : nat.
  Definition with_expected (n : node G) (e : nat) : node G := mkNode (requires_grad n) (grad n) (grad_fn n) e (received n) (children n) (non_diff n) (local n) (one n).
  Definition marked (h : heap G) (p : nat) : bool := negb (Nat.eqb (length (children (h0 p))) 0) && Nat.ltb 0 (expected (h p)).
  Definition indeg (mk : nat -> bool) (y : nat) : nat := total (fun p => if mk p then cnt y (children (h0 p)) else 0) t.
  Record identifying (h : heap G) (L : list nat) : Prop := {
    id_static : forall y, h y = with_expected (h0 y) (expected (h y));
    id_count : forall y, children (h0 y) <> [] -> expected (h y) + cnt y L = indeg (marked h) y + (if Nat.eqb y t then 1 else 0);
    id_bound : forall y, In y L -> y <= t;
    id_marked : forall y, marked h y = true -> y <= t }.
  Lemma nonleaf_b y : children (h0 y) <> [] -> negb (Nat.eqb (length (children (h0 y))) 0) = true.
  Proof. destruct (children (h0 y)); [contradiction|reflexivity]. Qed.
  Lemma marked_nonleaf h y : marked h y = true -> children (h0 y) <> [].
  Proof. unfold marked. intros H E. rewrite E in H. discriminate H. Qed.

  Lemma identify_ok : forall f c h L, c < f -> identifying h (c :: L) -> identifying (identify f c h) L.
  Proof using T0.
    induction f as [|f IH]; intros c h L Hc [S C B M]; [lia|]. cbn [identify]. assert (Bc : c <= t) by (apply B; now left). assert (BL : forall y, In y L -> y <= t) by (intros; apply B; now right).
    assert (Ech : children (expect_more (h c)) = children (h0 c)) by (rewrite S; reflexivity). assert (Eex : expected (expect_more (h c)) = Datatypes.S (expected (h c))) by reflexivity.
    set (h1 := upd h c (expect_more (h c))). assert (U1 : forall y, expected (h1 y) = if Nat.eqb y c then Datatypes.S (expected (h c)) else expected (h y)) by (intros y; unfold h1, upd; destruct (Nat.eqb y c); reflexivity).
    assert (S1 : forall y, h1 y = with_expected (h0 y) (expected (h1 y))).
    { intros y. rewrite U1. unfold h1, upd. destruct (Nat.eqb_spec y c) as [->|N]; [|apply S]. unfold expect_more, with_expected. rewrite (S c). cbn. reflexivity. }
    assert (M1 : forall y, marked h1 y = true -> y <= t).
    { intros y. unfold marked. rewrite U1. destruct (Nat.eqb_spec y c) as [->|N]; [intros _; exact Bc|]. apply M. }
    rewrite Ech, Eex. cbn [Nat.eqb]. destruct (Nat.eqb_spec (expected (h c)) 0) as [E0|E0].
    - (* first visit *)
      assert (P1 : identifying h1 (children (h0 c) ++ L)).
      { constructor; [exact S1| |intros y Hy; apply in_app_iff in Hy as [Hy|Hy]; [pose proof (proj1 (T0 c) y Hy); lia|now apply BL]|exact M1].
        intros y Hy. specialize (C y Hy). rewrite cnt_cons in C. rewrite cnt_app, U1.
        assert (D : indeg (marked h) y + cnt y (children (h0 c)) = indeg (marked h1) y + 0).
        { unfold indeg. apply total_change with c; [exact Bc| |].
          - intros a Ha. unfold marked. rewrite U1. destruct (Nat.eqb_spec a c); [contradiction|reflexivity].
          - unfold marked. rewrite U1, Nat.eqb_refl, E0. cbn [Nat.ltb Nat.leb]. rewrite andb_false_r, andb_true_r. destruct (children (h0 c)) as [|z zs] eqn:Ez; [reflexivity|]. cbn [length Nat.eqb negb]. lia. }
        rewrite (Nat.eqb_sym c y) in C. destruct (Nat.eqb_spec y c) as [Eyc|N]; [subst y|]; lia. }
      clearbody h1. clear U1 S1 M1. assert (Lc : forall y, In y (children (h0 c)) -> y < f) by (intros y Hy; pose proof (proj1 (T0 c) y Hy); lia).
      revert h1 P1 Lc. generalize (children (h0 c)) as cs. induction cs as [|z cs IHc]; intros h1 P1 Lc; [exact P1|]. cbn [fold_left]. apply IHc; [|intros; apply Lc; now right]. apply IH; [apply Lc; now left|]. exact P1.
    - (* seen before *)
      destruct (expected (h c)) as [|e] eqn:Ee; [contradiction|]. constructor; [exact S1| |exact BL|exact M1].
      intros y Hy. specialize (C y Hy). rewrite cnt_cons in C. rewrite U1. replace (indeg (marked h1) y) with (indeg (marked h) y).
      + rewrite (Nat.eqb_sym c y) in C. destruct (Nat.eqb_spec y c) as [Eyc|N]; [subst y|]; lia.
      + unfold indeg. apply total_ext. intros a. unfold marked. rewrite U1. destruct (Nat.eqb_spec a c) as [->|N]; [|reflexivity]. rewrite Ee. reflexivity.
  Qed.
  Lemma identify_start : identifying h0 [t].
  Proof using I0.
    constructor.
    - intros y. now destruct (h0 y).
    - intros y Hy. destruct (I0 y Hy) as (_ & E & _). rewrite E, cnt_cons. replace (indeg (marked h0) y) with 0; [rewrite (Nat.eqb_sym t y); cbn; lia|].
      symmetry. apply total_zero. intros p _. unfold marked. destruct (children (h0 p)) as [|z zs] eqn:Ez; [reflexivity|]. assert (N : children (h0 p) <> []) by (rewrite Ez; discriminate). destruct (I0 p N) as (_ & -> & _). cbn. reflexivity.
    - intros y [<-|[]]. lia.
    - intros y. unfold marked. destruct (children (h0 y)) as [|z zs] eqn:Ez; [discriminate|]. assert (N : children (h0 y) <> []) by (rewrite Ez; discriminate). destruct (I0 y N) as (_ & -> & _). cbn. discriminate.
  Qed.
  Lemma identified : identifying (identify (S t) t h0) [].
  Proof using T0 I0. apply identify_ok; [lia|apply identify_start]. Qed.

  (** ** the backward pass *)
  Variable seed : G.
  Definition h1 : heap G := identify (S t) t h0.
  Definition mk (p : nat) : bool := marked h1 p.
  Definition E1 (y : nat) : nat := expected (h1 y).
  Definition left_over (runs : list nat) (p : nat) : bool := mk p && negb (existsb (Nat.eqb p) runs).
  Lemma in_runs y runs : existsb (Nat.eqb y) runs = true <-> In y runs.
  Proof. rewrite existsb_exists. split; [intros (z & Hz & E); apply Nat.eqb_eq in E; now subst|intros H; exists y; split; [exact H|apply Nat.eqb_refl]]. Qed.
  Lemma not_in_runs y runs : existsb (Nat.eqb y) runs = false <-> ~ In y runs.
  Proof. rewrite <- in_runs. destruct (existsb (Nat.eqb y) runs); split; intros; congruence || auto. Qed.
  Lemma E1_count y : children (h0 y) <> [] -> E1 y = indeg mk y + (if Nat.eqb y t then 1 else 0).
  Proof using T0 I0. intros H. pose proof (id_count _ _ identified y H) as C. change (indeg mk y) with (indeg (marked (identify (S t) t h0)) y). rewrite <- C. unfold E1, h1. change (cnt y []) with 0. lia. Qed.
  Lemma mk_le y : mk y = true -> y <= t. Proof using T0 I0. apply (id_marked _ _ identified). Qed.
  Lemma mk_iff y : children (h0 y) <> [] -> (mk y = true <-> 0 < E1 y).
  Proof. intros H. unfold mk, marked. rewrite nonleaf_b by assumption. cbn [andb]. rewrite Nat.ltb_lt. reflexivity. Qed.
  Lemma mk_child p y : mk p = true -> In y (children (h0 p)) -> children (h0 y) <> [] -> mk y = true.
  Proof using T0 I0.
    intros Hp Hy Hn. apply mk_iff; [assumption|]. rewrite E1_count by assumption. assert (cnt y (children (h0 p)) <= indeg mk y); [|apply cnt_in in Hy; lia].
    unfold indeg. etransitivity; [|apply total_ge with (k := p); now apply mk_le]. now rewrite Hp.
  Qed.
  Lemma mk_top : children (h0 t) <> [] -> mk t = true.
  Proof using T0 I0. intros H. apply mk_iff; [assumption|]. rewrite E1_count, Nat.eqb_refl by assumption. lia. Qed.

  Definition with_fields (n : node G) (g : option G) (e r : nat) : node G := mkNode (requires_grad n) g (grad_fn n) e r (children n) (non_diff n) (local n) (one n).
  Definition held (h : heap G) (runs : list nat) (x y : nat) : option G := if left_over runs y then match grad (h y) with Some g => reach x y g | None => None end else None.
  Definition value (h : heap G) (runs : list nat) (L : list (nat * G)) (x : nat) : option G :=
    op (grad (h x)) (op (osum plus (map (held h runs x) (seq 0 (S t)))) (osum plus (map (fun e => reach x (fst e) (snd e)) L))).
  Record passing (h : heap G) (runs : list nat) (L : list (nat * G)) : Prop := {
    ps_static : forall y, ~ In y runs -> h y = with_fields (h0 y) (grad (h y)) (expected (h y)) (received (h y));
    ps_expected : forall y, ~ In y runs -> children (h0 y) <> [] -> expected (h y) = E1 y;
    ps_count : forall y, mk y = true -> ~ In y runs -> received (h y) + indeg (left_over runs) y + cnt y (map fst L) = E1 y;
    ps_done : forall y, In y runs -> indeg (left_over runs) y + cnt y (map fst L) = 0;
    ps_todo : forall y, mk y = true -> ~ In y runs -> received (h y) < E1 y;
    ps_nodup : NoDup runs;
    ps_runs : forall y, In y runs -> mk y = true;
    ps_msgs : forall e, In e L -> children (h0 (fst e)) = [] \/ mk (fst e) = true;
    ps_value : forall x, children (h0 x) = [] -> value h runs L x = op (grad (h0 x)) (reach x t seed);
    ps_frame : forall y, children (h0 y) <> [] -> mk y = false -> h y = h0 y }.
  Lemma mk_nonleaf y : mk y = true -> children (h0 y) <> [].
  Proof. apply marked_nonleaf. Qed.
  Lemma held_change h runs h' runs' x k u v : k <= t -> (forall y, y <> k -> held h runs x y = held h' runs' x y) -> op (held h runs x k) u = op (held h' runs' x k) v ->
    op (osum plus (map (held h runs x) (seq 0 (S t)))) u = op (osum plus (map (held h' runs' x) (seq 0 (S t)))) v.
  Proof using plus_comm plus_assoc. intros Hk H E. apply (osum_change plus plus_comm plus_assoc Nat.eq_dec _ _ _ k); auto; [apply seq_NoDup|apply in_seq; lia]. Qed.
  Lemma indeg_run runs i y : mk i = true -> ~ In i runs -> indeg (left_over runs) y = indeg (left_over (i :: runs)) y + cnt y (children (h0 i)).
  Proof using T0 I0.
    intros Hm Hr. assert (E : indeg (left_over runs) y + 0 = indeg (left_over (i :: runs)) y + cnt y (children (h0 i))); [|lia]. unfold indeg. apply total_change with i; [now apply mk_le| |].
    - intros a Ha. unfold left_over. cbn [existsb]. destruct (Nat.eqb_spec a i); [contradiction|reflexivity].
    - unfold left_over. cbn [existsb]. rewrite Nat.eqb_refl. apply not_in_runs in Hr. rewrite Hr, Hm. cbn. lia.
  Qed.
  (** messages to tensors with children count as if the edges were all differentiable *)
  Lemma edges_count i g y : mk i = true -> children (h0 y) <> [] -> cnt y (map fst (edges h0 i g)) = cnt y (children (h0 i)).
  Proof using T0.
    intros Hm Hy. pose proof (mk_nonleaf i Hm) as Hn. destruct (proj2 (T0 i) Hn) as (_ & _ & _ & L & _ & D). unfold edges. specialize (L g).
    assert (E : map fst (combine (differentiable (h0 i)) (local (h0 i) g)) = differentiable (h0 i)).
    { revert L. generalize (local (h0 i) g) as gs. generalize (differentiable (h0 i)) as l. induction l as [|a l IH]; intros gs L; [reflexivity|]. destruct gs as [|b gs]; [cbn in L; lia|]. cbn [combine map fst]. rewrite IH by (cbn in L; lia). reflexivity. }
    rewrite E. unfold differentiable. clear E L. assert (K : forall c, In c (children (h0 i)) -> c = y -> existsb (Nat.eqb c) (non_diff (h0 i)) = false).
    { intros c Hc ->. destruct (existsb (Nat.eqb y) (non_diff (h0 i))) eqn:Ex; [|reflexivity]. exfalso. apply Hy. apply D; [now apply in_runs|exact Hc]. }
    revert K. generalize (children (h0 i)) as l. induction l as [|c l IH]; intros K; [reflexivity|]. cbn [filter]. specialize (IH (fun c' Hc' => K c' (or_intror Hc'))). rewrite (cnt_cons y c l).
    destruct (Nat.eqb_spec c y) as [->|N].
    - rewrite (K y (or_introl eq_refl) eq_refl). cbn [negb]. rewrite cnt_cons, Nat.eqb_refl. lia.
    - destruct (negb (existsb (Nat.eqb c) (non_diff (h0 i)))); [rewrite cnt_cons; destruct (Nat.eqb_spec c y); [contradiction|]|]; lia.
  Qed.
  Definition cleaned (n : node G) : Prop := grad n = None /\ expected n = 0 /\ received n = 0 /\ children n = [].
  Definition outcome (runs : list nat) (h h' : heap G) (runs' : list nat) (L : list (nat * G)) : Prop :=
    passing h' runs' L /\ incl runs runs' /\ (forall y, In y runs -> h' y = h y) /\ (forall y, In y runs' -> ~ In y runs -> cleaned (h' y)).

  Lemma upd_same (h : heap G) i n : upd h i n i = n. Proof. unfold upd. now rewrite Nat.eqb_refl. Qed.
  Lemma upd_other (h : heap G) i n j : j <> i -> upd h i n j = h j. Proof. intros N. unfold upd. destruct (Nat.eqb_spec j i); [contradiction|reflexivity]. Qed.
  Lemma leaf_not_run runs y : (forall z, In z runs -> mk z = true) -> children (h0 y) = [] -> ~ In y runs.
  Proof. intros R L I. apply R in I. now apply mk_nonleaf in I. Qed.
  Lemma msg_not_run h runs i g L : passing h runs ((i, g) :: L) -> ~ In i runs.
  Proof. intros P I. pose proof (ps_done _ _ _ P i I) as D. cbn [map fst] in D. rewrite cnt_cons, Nat.eqb_refl in D. lia. Qed.
  Lemma cnt_leaf_msg h runs i g L y : passing h runs ((i, g) :: L) -> children (h0 i) = [] -> children (h0 y) <> [] -> cnt y (map fst ((i, g) :: L)) = cnt y (map fst L).
  Proof. intros _ Li Ny. cbn [map fst]. rewrite cnt_cons. destruct (Nat.eqb_spec i y) as [->|]; [contradiction|reflexivity]. Qed.
  Lemma drop_ok h runs i g L : children (h0 i) = [] -> requires_grad (h0 i) = false -> passing h runs ((i, g) :: L) -> passing h runs L.
  Proof.
    intros Li Ri P. pose proof (fun y => cnt_leaf_msg h runs i g L y P Li) as K. destruct P as [A B C D E F H I J M]. constructor; auto.
    - intros y Hm Hr. rewrite <- K by (now apply mk_nonleaf). auto.
    - intros y Hr. rewrite <- K by (apply mk_nonleaf; auto). auto.
    - intros e He. apply I. now right.
    - intros x Lx. rewrite <- (J x Lx). unfold value. do 2 f_equal. cbn [map osum fold_right fst snd]. now rewrite reach_off.
  Qed.
  Lemma static_receive h y g : h y = with_fields (h0 y) (grad (h y)) (expected (h y)) (received (h y)) -> receive plus (h y) g = with_fields (h0 y) (op (grad (h y)) (Some g)) (expected (h y)) (S (received (h y))).
  Proof. intros E. unfold receive, with_fields. rewrite E. unfold with_fields. cbn [requires_grad grad grad_fn expected received children non_diff local one]. destruct (grad (h y)); reflexivity. Qed.
  Lemma leaf_ok h runs i g L : children (h0 i) = [] -> requires_grad (h0 i) = true -> passing h runs ((i, g) :: L) -> passing (upd h i (receive plus (h i) g)) runs L.
  Proof using T0 plus_comm plus_assoc.
    intros Li Ri P. pose proof (fun y => cnt_leaf_msg h runs i g L y P Li) as K. pose proof (msg_not_run _ _ _ _ _ P) as Nr. destruct P as [A B C D E F H I J M].
    pose proof (static_receive h i g (A i Nr)) as SR. assert (Nm : mk i = false) by (destruct (mk i) eqn:Em; [apply mk_nonleaf in Em; contradiction|reflexivity]).
    assert (O : forall y, mk y = true -> upd h i (receive plus (h i) g) y = h y) by (intros y Hy; apply upd_other; intros ->; congruence). constructor; auto.
    - intros y Hr. destruct (Nat.eq_dec y i) as [->|N]; [rewrite upd_same, SR; reflexivity|rewrite upd_other by assumption; auto].
    - intros y Hr Hn. rewrite upd_other by (intros ->; contradiction). auto.
    - intros y Hm Hr. rewrite O by assumption. rewrite <- K by (now apply mk_nonleaf). auto.
    - intros y Hr. rewrite <- K by (apply mk_nonleaf; auto). auto.
    - intros y Hm Hr. rewrite O by assumption. auto.
    - intros e He. apply I. now right.
    - intros x Lx. rewrite <- (J x Lx). unfold value. assert (Eh : map (held (upd h i (receive plus (h i) g)) runs x) (seq 0 (S t)) = map (held h runs x) (seq 0 (S t))).
      { apply map_ext. intros y. unfold held, left_over. destruct (mk y) eqn:Em; [now rewrite O|reflexivity]. }
      rewrite Eh. cbn [map osum fold_right fst snd]. fold (osum plus (map (fun e => reach x (fst e) (snd e)) L)). rewrite (reach_leaf i g x Li Ri). destruct (Nat.eqb_spec i x) as [->|N].
      + rewrite upd_same, SR. cbn [grad with_fields]. rewrite <- oplus_assoc by assumption. f_equal. rewrite !oplus_assoc by assumption. f_equal. now apply oplus_comm.
      + rewrite upd_other by congruence. reflexivity.
    - intros y Hn Hm. rewrite upd_other by (intros ->; contradiction). auto.
  Qed.
  Lemma partial_ok h runs i g L : mk i = true -> S (received (h i)) < E1 i -> passing h runs ((i, g) :: L) -> passing (upd h i (receive plus (h i) g)) runs L.
  Proof using T0 I0 plus_comm plus_assoc.
    intros Mi Lt P. pose proof (msg_not_run _ _ _ _ _ P) as Nr. destruct P as [A B C D E F H I J M]. pose proof (static_receive h i g (A i Nr)) as SR. constructor; auto.
    - intros y Hr. destruct (Nat.eq_dec y i) as [->|N]; [rewrite upd_same, SR; reflexivity|rewrite upd_other by assumption; auto].
    - intros y Hr Hn. destruct (Nat.eq_dec y i) as [->|N]; [rewrite upd_same, SR; cbn [expected with_fields]; auto|rewrite upd_other by assumption; auto].
    - intros y Hm Hr. specialize (C y Hm Hr). cbn [map fst] in C. rewrite cnt_cons in C. destruct (Nat.eqb_spec i y) as [Eiy|N]; [subst y; rewrite upd_same, SR; cbn [received with_fields]; lia|rewrite upd_other by congruence; lia].
    - intros y Hr. specialize (D y Hr). cbn [map fst] in D. rewrite cnt_cons in D. lia.
    - intros y Hm Hr. destruct (Nat.eq_dec y i) as [->|N]; [rewrite upd_same, SR; exact Lt|rewrite upd_other by assumption; auto].
    - intros e He. apply I. now right.
    - intros x Lx. rewrite <- (J x Lx). unfold value. assert (x <> i) by (intros ->; apply mk_nonleaf in Mi; contradiction). rewrite upd_other by assumption. f_equal. apply held_change with i; [now apply mk_le| |].
      + intros y N. unfold held. now rewrite upd_other by assumption.
      + unfold held. unfold left_over. rewrite Mi. apply not_in_runs in Nr. rewrite Nr. cbn [andb negb]. rewrite upd_same, SR. cbn [grad with_fields map osum fold_right fst snd]. fold (osum plus (map (fun e => reach x (fst e) (snd e)) L)). rewrite oplus_assoc by assumption. f_equal.
        destruct (grad (h i)) as [a|]; cbn [oplus]; [now rewrite reach_plus|reflexivity].
    - intros y Hn Hm. rewrite upd_other by (intros ->; congruence). auto.
  Qed.
  Lemma process_ok h runs i g L a : mk i = true -> S (received (h i)) = E1 i -> grad (receive plus (h i) g) = Some a -> passing h runs ((i, g) :: L) -> passing (upd h i (receive plus (h i) g)) (i :: runs) (edges h0 i a ++ L).
  Proof using T0 I0 plus_comm plus_assoc.
    intros Mi Lt Ga P. pose proof (msg_not_run _ _ _ _ _ P) as Nr. destruct P as [A B C D E F H I J M]. pose proof (static_receive h i g (A i Nr)) as SR.
    assert (Ci := C i Mi Nr). cbn [map fst] in Ci. rewrite cnt_cons, Nat.eqb_refl in Ci. assert (Nl : children (h0 i) <> []) by (now apply mk_nonleaf).
    assert (In_ : forall y, ~ In y (i :: runs) -> y <> i /\ ~ In y runs) by (cbn [In]; intuition).
    constructor; auto.
    - intros y Hr. apply In_ in Hr as [N Hr]. rewrite upd_other by assumption. auto.
    - intros y Hr Hn. apply In_ in Hr as [N Hr]. rewrite upd_other by assumption. auto.
    - intros y Hm Hr. apply In_ in Hr as [N Hr]. rewrite upd_other by assumption. specialize (C y Hm Hr). cbn [map fst] in C. rewrite cnt_cons in C. destruct (Nat.eqb_spec i y); [congruence|].
      rewrite map_app, cnt_app, edges_count by (auto using mk_nonleaf). rewrite (indeg_run runs i y Mi Nr) in C. lia.
    - intros y Hr. assert (My : mk y = true) by (destruct Hr as [<-|Hr]; auto). rewrite map_app, cnt_app, edges_count by (auto using mk_nonleaf). pose proof (indeg_run runs i y Mi Nr) as Q. destruct Hr as [<-|Hr]; [lia|].
      specialize (D y Hr). cbn [map fst] in D. rewrite cnt_cons in D. lia.
    - intros y Hm Hr. apply In_ in Hr as [N Hr]. rewrite upd_other by assumption. auto.
    - now constructor.
    - intros y [<-|Hr]; auto.
    - intros e He. apply in_app_iff in He as [He|He]; [|apply I; now right]. destruct e as [c v]. cbn [fst]. apply in_combine_l, diff_in in He. destruct (children (h0 c)) eqn:Ec; [now left|right]. apply (mk_child i); auto. now rewrite Ec.
    - intros x Lx. rewrite <- (J x Lx). unfold value. assert (Nx : x <> i) by (intros ->; contradiction). rewrite upd_other by assumption. f_equal. symmetry. apply held_change with i; [now apply mk_le| |].
      + intros y N. unfold held. rewrite upd_other by assumption. unfold left_over. cbn [existsb]. destruct (Nat.eqb_spec y i); [contradiction|reflexivity].
      + unfold held, left_over. cbn [existsb]. rewrite Nat.eqb_refl, Mi. apply not_in_runs in Nr. rewrite Nr. cbn [andb orb negb]. cbn [map osum fold_right fst snd]. fold (osum plus (map (fun e => reach x (fst e) (snd e)) L)).
        rewrite map_app, osum_app by assumption. rewrite oplus_assoc by assumption. change (op None ?z) with z. f_equal.
        assert (Er : reach x i a = osum plus (map (fun e => reach x (fst e) (snd e)) (edges h0 i a))).
        { rewrite reach_unfold by (apply (proj2 (T0 i) Nl)). destruct (Nat.eqb_spec i x); [congruence|reflexivity]. }
        rewrite <- Er. rewrite SR in Ga. cbn [grad with_fields] in Ga. destruct (grad (h i)) as [b|]; cbn [oplus] in Ga |- *; injection Ga as <-; [now rewrite reach_plus|reflexivity].
    - intros y Hn Hm. rewrite upd_other by (intros ->; congruence). auto.
  Qed.
  Lemma finish_ok h runs i n L : In i runs -> passing h runs L -> passing (upd h i n) runs L.
  Proof.
    intros Ii [A B C D E F H I J M]. assert (O : forall y, ~ In y runs -> upd h i n y = h y) by (intros y Hy; apply upd_other; intros ->; contradiction). constructor; auto.
    - intros y Hr. rewrite O by assumption. auto.
    - intros y Hr Hn. rewrite O by assumption. auto.
    - intros y Hm Hr. rewrite O by assumption. auto.
    - intros y Hm Hr. rewrite O by assumption. auto.
    - intros x Lx. rewrite <- (J x Lx). unfold value. rewrite O by (now apply leaf_not_run). f_equal. f_equal. f_equal. apply map_ext. intros y. unfold held, left_over. destruct (existsb (Nat.eqb y) runs) eqn:Ey; [now rewrite andb_false_r|]. rewrite O by (now apply not_in_runs). reflexivity.
    - intros y Hn Hm. rewrite upd_other; [auto|]. intros ->. apply H in Ii. congruence.
  Qed.
  Lemma backward_ok : forall f i g h runs L, i < f -> passing h runs ((i, g) :: L) -> exists h' runs', backward plus f i (Some g) false (h, runs) = Some (h', runs') /\ outcome runs h h' runs' L.
  Proof using T0 I0 plus_comm plus_assoc.
    induction f as [|f IH]; intros i g h runs L Hi P; [lia|]. pose proof (msg_not_run _ _ _ _ _ P) as Nr. pose proof (ps_static _ _ _ P i Nr) as Si. pose proof (static_receive h i g Si) as SR. cbn [backward].
    assert (Rh : requires_grad (h i) = requires_grad (h0 i)) by (rewrite Si; reflexivity). rewrite Rh. assert (Fr : forall n y, In y runs -> upd h i n y = h y) by (intros n y Hy; apply upd_other; intros ->; contradiction).
    destruct (requires_grad (h0 i)) eqn:Ri.
    2: { assert (Li : children (h0 i) = []) by (destruct (children (h0 i)) eqn:Ec; [reflexivity|]; assert (Q : children (h0 i) <> []) by (rewrite Ec; discriminate); apply (proj2 (T0 i)) in Q; destruct Q; congruence).
         exists h, runs. split; [reflexivity|]. split; [now apply (drop_ok h runs i g L Li Ri)|]. split; [apply incl_refl|]. split; [auto|]. intros y A B. contradiction. }
    assert (Ch : children (receive plus (h i) g) = children (h0 i)) by (rewrite SR; reflexivity). rewrite Ch. destruct (children (h0 i)) as [|c0 cs] eqn:Ec.
    - exists (upd h i (receive plus (h i) g)), runs. split; [reflexivity|]. split; [now apply leaf_ok|]. split; [apply incl_refl|]. split; [apply Fr|]. intros y A B. contradiction.
    - assert (Nl : children (h0 i) <> []) by (rewrite Ec; discriminate). assert (Mi : mk i = true) by (destruct (ps_msgs _ _ _ P (i, g) (or_introl eq_refl)) as [Q|Q]; [contradiction|exact Q]).
      cbn [length Nat.eqb orb]. assert (Er : received (receive plus (h i) g) = S (received (h i))) by reflexivity. assert (Ee : expected (receive plus (h i) g) = E1 i) by (cbn [receive expected]; now apply (ps_expected _ _ _ P)).
      rewrite Er, Ee. pose proof (ps_todo _ _ _ P i Mi Nr) as Td. destruct (Nat.ltb_spec (S (received (h i))) (E1 i)) as [Lt|Ge].
      + exists (upd h i (receive plus (h i) g)), runs. split; [reflexivity|]. split; [now apply partial_ok|]. split; [apply incl_refl|]. split; [apply Fr|]. intros y A B. contradiction.
      + assert (Eq : S (received (h i)) = E1 i) by lia. destruct (proj2 (T0 i) Nl) as (_ & Gf & Dn & Lg & _ & _).
        assert (Gn : grad_fn (receive plus (h i) g) = true) by (rewrite SR; exact Gf). rewrite Gn. cbn [negb]. assert (Ga : exists a, grad (receive plus (h i) g) = Some a) by (rewrite SR; cbn [grad with_fields]; destruct (grad (h i)); eexists; reflexivity).
        destruct Ga as [a Ga]. rewrite Ga. assert (Lo : local (receive plus (h i) g) = local (h0 i)) by (rewrite SR; reflexivity). assert (Df : differentiable (receive plus (h i) g) = differentiable (h0 i)) by (rewrite SR; reflexivity).
        rewrite Lo, Df. specialize (Lg a). destruct (Nat.leb_spec (length (differentiable (h0 i))) (length (local (h0 i) a))) as [_|Q]; [|lia]. fold (edges h0 i a).
        pose proof (process_ok h runs i g L a Mi Eq Ga P) as P1. set (h2 := upd h i (receive plus (h i) g)) in *. assert (El : forall e, In e (edges h0 i a) -> fst e < f) by (intros e He; apply edge_lt in He; lia).
        assert (Loop : forall es h2 runs2, (forall e, In e es -> fst e < f) -> passing h2 runs2 (es ++ L) -> exists h3 runs3,
          fold_left (fun acc e => match acc with Some st => backward plus f (fst e) (Some (snd e)) false st | None => None end) es (Some (h2, runs2)) = Some (h3, runs3) /\ outcome runs2 h2 h3 runs3 L).
        { induction es as [|e es IHe]; intros k r Q R.
          - exists k, r. split; [reflexivity|]. split; [exact R|]. split; [apply incl_refl|]. split; [auto|]. intros y U V. contradiction.
          - cbn [fold_left]. destruct e as [c v]. cbn [fst snd]. destruct (IH c v k r (es ++ L) (Q (c, v) (or_introl eq_refl)) R) as (k1 & r1 & E1' & O1 & O2 & O3 & O4). rewrite E1'.
            destruct (IHe k1 r1 (fun e He => Q e (or_intror He)) O1) as (k2 & r2 & E2 & U1 & U2 & U3 & U4). exists k2, r2. split; [exact E2|]. split; [exact U1|]. split; [eapply incl_tran; eassumption|]. split.
            + intros y Hy. rewrite U3 by (now apply O2). now apply O3.
            + intros y Hy Ny. destruct (in_dec Nat.eq_dec y r1) as [Hr|Hr]; [rewrite U3 by assumption; now apply O4|now apply U4]. }
        destruct (Loop (edges h0 i a) h2 (i :: runs) El P1) as (h3 & runs3 & E3 & U1 & U2 & U3 & U4). rewrite E3.
        assert (Ir : In i runs3) by (apply U2; now left). exists (upd h3 i (clean (Nat.eqb (length (differentiable (h0 i))) 0) (h3 i))), runs3. split; [reflexivity|].
        split; [now apply finish_ok|]. split; [intros y Hy; apply U2; now right|]. split.
        * intros y Hy. rewrite upd_other by (intros ->; contradiction). rewrite U3 by (now right). now apply Fr.
        * intros y Hy Ny. destruct (Nat.eq_dec y i) as [->|N]; [|rewrite upd_other by assumption; apply U4; [assumption|intros [Q|Q]; [congruence|contradiction]]].
          rewrite upd_same. unfold cleaned, clean. cbn [grad expected received children]. destruct (differentiable (h0 i)); [contradiction|]. cbn. auto.
  Qed.

  Lemma passing_start : passing h1 [] [(t, seed)].
  Proof using T0 I0 plus_assoc plus_comm.
    pose proof (id_static _ _ identified) as S1. fold h1 in S1. constructor.
    - intros y _. rewrite S1. unfold with_expected, with_fields. reflexivity.
    - reflexivity.
    - intros y Hm _. pose proof (mk_nonleaf y Hm) as Hn. destruct (I0 y Hn) as (_ & _ & R). rewrite S1. unfold with_expected. cbn [received]. rewrite R. cbn [map fst]. rewrite cnt_cons. change (cnt y []) with 0. rewrite E1_count by assumption.
      rewrite (Nat.eqb_sym t y). replace (indeg (left_over []) y) with (indeg mk y); [lia|]. unfold indeg. apply total_ext. intros p. unfold left_over. cbn. now rewrite andb_true_r.
    - intros y [].
    - intros y Hm _. pose proof (mk_nonleaf y Hm) as Hn. destruct (I0 y Hn) as (_ & _ & R). rewrite S1. unfold with_expected. cbn [received]. rewrite R. now apply mk_iff.
    - constructor.
    - intros y [].
    - intros e [<-|[]]. cbn [fst]. destruct (children (h0 t)) eqn:Ec; [now left|right]. apply mk_top. now rewrite Ec.
    - intros x Lx. unfold value. rewrite S1. cbn [grad with_expected]. f_equal. replace (osum plus (map (held h1 [] x) (seq 0 (S t)))) with (@None G).
      + cbn [map osum fold_right fst snd oplus]. now rewrite oplus_none.
      + symmetry. generalize (seq 0 (S t)) as l. induction l as [|y l IH]; [reflexivity|]. cbn [map osum fold_right]. unfold osum in IH. rewrite IH. unfold held, left_over. destruct (mk y) eqn:Em; [|reflexivity]. cbn [andb existsb negb].
        pose proof (mk_nonleaf y Em) as Hn. destruct (I0 y Hn) as (Gn & _ & _). rewrite S1. cbn [grad with_expected]. now rewrite Gn.
    - intros y Hn Hm. assert (E1 y = 0) by (destruct (Nat.eq_dec (E1 y) 0) as [|N]; [assumption|]; assert (mk y = true) by (apply mk_iff; [assumption|lia]); congruence).
      rewrite S1. fold (E1 y). rewrite H. destruct (I0 y Hn) as (_ & E & _). unfold with_expected. rewrite <- E. now destruct (h0 y).
  Qed.
  Lemma all_done h runs : passing h runs [] -> forall y, mk y = true -> In y runs.
  Proof using T0 I0.
    intros P. assert (D : forall d y, t - y < d -> mk y = true -> In y runs).
    { induction d as [|d IHd]; intros y Hd Hm; [lia|]. destruct (in_dec Nat.eq_dec y runs) as [|N]; [assumption|]. exfalso. pose proof (ps_count _ _ _ P y Hm N) as C. pose proof (ps_todo _ _ _ P y Hm N) as T. cbn [map] in C. change (cnt y []) with 0 in C.
      assert (Z : indeg (left_over runs) y = 0); [|lia]. unfold indeg. apply total_zero. intros p Hp. unfold left_over. destruct (mk p) eqn:Mp; [|reflexivity]. cbn [andb]. destruct (existsb (Nat.eqb p) runs) eqn:Ep; [reflexivity|]. cbn [negb].
      destruct (cnt y (children (h0 p))) as [|k] eqn:Ek; [reflexivity|]. assert (Iy : In y (children (h0 p))) by (apply cnt_in; lia). apply (proj1 (T0 p)) in Iy. pose proof (mk_le p Mp). apply not_in_runs in Ep. exfalso. apply Ep. apply IHd; [lia|assumption]. }
    intros y. apply (D (S (t - y))). lia.
  Qed.
  Lemma flow_step f i s p g c v : i < f -> In (p, g) (flow h0 f i s) -> In (c, v) (edges h0 p g) -> requires_grad (h0 c) = true -> In (c, v) (flow h0 f i s).
  Proof using T0.
    revert i s. induction f as [|f IH]; intros i s Hi H He Hc; [lia|]. cbn [flow] in *. destruct (requires_grad (h0 i)); [|destruct H]. destruct H as [E|H].
    - injection E as -> ->. right. apply in_flat_map. exists (c, v). split; [exact He|]. cbn [fst snd]. apply edge_lt in He as Lt. cbn [fst] in Lt. destruct f as [|f]; [lia|]. cbn [flow]. rewrite Hc. now left.
    - right. apply in_flat_map in H as (e & Hin & H). apply in_flat_map. exists e. split; [exact Hin|]. apply IH; auto. apply edge_lt in Hin. lia.
  Qed.
  Lemma flow_marked f i s y g : (children (h0 i) <> [] -> mk i = true) -> In (y, g) (flow h0 f i s) -> children (h0 y) <> [] -> mk y = true.
  Proof using T0 I0.
    revert i s. induction f as [|f IH]; intros i s Hi H Hy; [destruct H|]. cbn [flow] in H. destruct (requires_grad (h0 i)); [|destruct H]. destruct H as [E|H].
    - injection E as -> ->. auto.
    - apply in_flat_map in H as (e & Hin & H). apply (IH (fst e) (snd e)); auto. intros Hn. destruct e as [c v]. cbn [fst] in *. apply in_combine_l, diff_in in Hin. apply (mk_child i); auto. apply Hi. intros E. rewrite E in Hin. destruct Hin.
  Qed.
  Lemma total_pos f n : 0 < total f n -> exists k, k <= n /\ 0 < f k.
  Proof.
    intros H. destruct (existsb (fun k => Nat.ltb 0 (f k)) (seq 0 (S n))) eqn:E.
    - apply existsb_exists in E as (k & I & P). apply in_seq in I. apply Nat.ltb_lt in P. exists k. split; [lia|assumption].
    - rewrite total_zero in H; [lia|]. intros k Hk. destruct (f k) eqn:Ek; [reflexivity|]. assert (Q : existsb (fun k => Nat.ltb 0 (f k)) (seq 0 (S n)) = true) by (apply existsb_exists; exists k; split; [apply in_seq; lia|rewrite Ek; reflexivity]). congruence.
  Qed.
  Lemma marked_flow : requires_grad (h0 t) = true -> forall y, mk y = true -> exists g, In (y, g) (flow h0 (S t) t seed).
  Proof using T0 I0.
    intros Rt. assert (D : forall d y, t - y < d -> mk y = true -> exists g, In (y, g) (flow h0 (S t) t seed)).
    { induction d as [|d IHd]; intros y Hd Hm; [lia|]. pose proof (mk_nonleaf y Hm) as Hn. apply (mk_iff y Hn) in Hm as Hp. rewrite E1_count in Hp by assumption. destruct (Nat.eqb_spec y t) as [->|N].
      - exists seed. cbn [flow]. rewrite Rt. now left.
      - rewrite Nat.add_0_r in Hp. apply total_pos in Hp as (p & Lp & Hp). destruct (mk p) eqn:Mp; [|lia]. apply cnt_in in Hp as Iy. pose proof (proj1 (T0 p) y Iy) as Ly. destruct (IHd p ltac:(lia) Mp) as [g Hg].
        assert (Cn : 0 < cnt y (map fst (edges h0 p g))) by (rewrite edges_count by assumption; exact Hp). apply cnt_in in Cn. apply in_map_iff in Cn as ((c & v) & <- & He). exists v. cbn [fst] in *. apply (flow_step (S t) t seed p g c v); auto. apply (proj2 (T0 c) Hn). }
    intros y. apply (D (S (t - y))). lia.
  Qed.
  Lemma backward_top : requires_grad (h0 t) = true -> backward plus (S t) t (Some seed) true (h0, []) = backward plus (S t) t (Some seed) false (h1, []).
  Proof using T0 I0. intros R. pose proof (id_static _ _ identified t) as S1. fold h1 in S1. assert (R1 : requires_grad (h1 t) = true) by (rewrite S1; exact R). cbn [backward]. rewrite R, R1. reflexivity. Qed.
  Lemma pass_ok : requires_grad (h0 t) = true -> exists h' runs, backward plus (S t) t (Some seed) true (h0, []) = Some (h', runs) /\
    (forall x, children (h0 x) = [] -> h' x = with_fields (h0 x) (op (grad (h0 x)) (reach x t seed)) (expected (h' x)) (received (h' x))) /\
    NoDup runs /\ (forall y, In y runs <-> children (h0 y) <> [] /\ exists g, In (y, g) (flow h0 (S t) t seed)) /\
    (forall y, In y runs -> cleaned (h' y)) /\ (forall y, children (h0 y) <> [] -> ~ In y runs -> h' y = h0 y).
  Proof using T0 I0 plus_comm plus_assoc.
    intros Rt. destruct (backward_ok (S t) t seed h1 [] [] ltac:(lia) passing_start) as (h' & runs & E & P & _ & _ & Cl). exists h', runs. rewrite backward_top by assumption. split; [exact E|]. pose proof (all_done h' runs P) as AD. split.
    - intros x Lx. pose proof (ps_value _ _ _ P x Lx) as V. unfold value in V. rewrite (ps_static _ _ _ P x) at 1 by (apply leaf_not_run; [apply (ps_runs _ _ _ P)|assumption]). f_equal. rewrite <- V.
      replace (osum plus (map (held h' runs x) (seq 0 (S t)))) with (@None G); [cbn; now rewrite oplus_none|]. symmetry. generalize (seq 0 (S t)) as l. induction l as [|y l IH]; [reflexivity|]. cbn [map osum fold_right]. unfold osum in IH. rewrite IH. rewrite oplus_none.
      unfold held, left_over. destruct (mk y) eqn:Em; [|reflexivity]. apply AD in Em. apply in_runs in Em. rewrite Em. reflexivity.
    - split; [apply (ps_nodup _ _ _ P)|]. split; [|split].
      + intros y. split.
        * intros Hy. apply (ps_runs _ _ _ P) in Hy. split; [now apply mk_nonleaf|now apply marked_flow].
        * intros [Hn [g Hg]]. apply AD. apply (flow_marked (S t) t seed y g); auto. apply mk_top.
      + intros y Hy. apply Cl; [exact Hy|intros []].
      + intros y Hn Hy. apply (ps_frame _ _ _ P); [assumption|]. destruct (mk y) eqn:Em; [|reflexivity]. apply AD in Em. contradiction.
  Qed.
End Flow.

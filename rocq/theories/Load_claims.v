(** C91: loading, saving and printing with several parties. *)
Require Import String List ZArith Bool Arith Lia Permutation.
From Verif Require Import Ring64 Sharing Sharing_proofs Net Net_claims Load.
Import ListNotations.
Open Scope nat_scope.

Lemma ends_done {W V A} n (r : nat -> A) ch (w : W) (t : state W V A) : ends (net n (fun p => Done (r p)) ch w) t <-> t = net n (fun p => Done (r p)) ch w.
Proof.
  assert (St : stuck (@net W V A n (fun p => Done (r p)) ch w)).
  { intros [p|]; unfold net; cbn [move procs chans world].
    - rewrite nth_error_net. now destruct (p <? n).
    - destruct n; reflexivity. }
  split; [|intros ->; exists []; now split]. intros ([|l ls] & R & _); cbn [run] in R; [now injection R as <-|]. rewrite St in R. discriminate.
Qed.

Lemma nth_zip {A B C} (f : A -> B -> C) l m k da db dc : length l = length m -> k < length l -> nth k (zipw f l m) dc = f (nth k l da) (nth k m db).
Proof. revert m k. induction l as [|a l IH]; intros [|b m] [|k] L H; cbn in *; try lia; [reflexivity|]. apply IH; lia. Qed.
Section Claims.
  Context {E : Type} (zero : E) (encode : E -> Z) {W V : Type}.
  Notation obj := (obj E). Notation module := (module E). Notation args := (args E). Notation outcome := (outcome E).
  Context (dumps : obj -> list Z) (loads : list string -> list Z -> Net.error + obj) (przs : nat -> list Z).
  Notation load := (load_from_party (W := W) (V := V) zero encode dumps loads przs).
  (** the arguments give exactly one object *)
  Definition gives (a : args) (o : obj) : Prop := (file a = None /\ preloaded a = Some o) \/ (file a = Some (Some o) /\ preloaded a = None).
  Definition classes_in (o : obj) : list string := match o with Module m => classes m | _ => [] end.
  (** the classes that a party accepts *)
  Definition accepts (a : args) (o : obj) : bool := forallb (fun c => match model_class a with Some d => String.eqb c d | None => false end || existsb (String.eqb c) (safe a)) (classes_in o).
  (** pickling of this object: fewer than 2^31 bytes, from which it is restored where its classes are safe *)
  Definition pickles (o : obj) : Prop := is_buffer (dumps o) /\ forall t, loads t (dumps o) = if forallb (fun c => existsb (String.eqb c) t) (classes_in o) then inr o else inl Unpicklable.
  (** what the others may see of a tensor or module: sizes, names and classes *)
  Definition blank_tensor (x y : list E) : Prop := length y = length x /\ Forall (fun e => e = zero) y.
  Definition blank_module (m m' : module) : Prop := classes m' = classes m /\ buffers m' = buffers m /\ Forall2 (fun a b => fst b = fst a /\ blank_tensor (snd a) (snd b)) (parameters m) (parameters m').
  Definition message (o : obj) : obj := match o with Tensor x => Tensor (map (fun _ => zero) x) | Module m => Module (zeroed zero m) | _ => Int (-1) end.

  Lemma loads_accepts a o : pickles o -> loads (match model_class a with Some c => c :: safe a | None => safe a end) (dumps o) = if accepts a o then inr o else inl Unpicklable.
  Proof.
    intros (_ & H). rewrite H. unfold accepts. destruct (model_class a) as [d|]; reflexivity.
  Qed.
  Definition final_source (src : nat) (o : obj) : outcome := match o with Tensor x => Share (share encode przs src src x) | Module m => Plain m | _ => Raised (UnrecognizedType "int") end.
  Definition final_other (p src : nat) (a : args) (o : obj) : outcome :=
    match o with
    | Tensor x => Share (share encode przs p src (map (fun _ => zero) x))
    | Module m => if accepts a o then Plain (zeroed zero m) else Raised (CommError Unpicklable)
    | _ => Raised UnrecognizedFromSrc
    end.
  Lemma load_gives n src a o ch w t : src < n -> gives (a src) o -> pickles (message o) ->
    (ends (net n (fun p => load n p false (Z.of_nat src) (a p)) ch w) t <-> t = net n (fun p => Done (if p =? src then final_source src o else final_other p src (a p) o)) ch w).
  Proof.
    intros D G P. rewrite <- ends_done.
    assert (Rg : negb ((0 <=? Z.of_nat src) && (Z.of_nat src <? Z.of_nat n))%Z = false). { apply negb_false_iff, andb_true_iff. split; [apply Z.leb_le; lia|apply Z.ltb_lt; lia]. }
    assert (Eq : forall p, (Z.of_nat p =? Z.of_nat src)%Z = (p =? src)). { intros p. destruct (Nat.eqb_spec p src) as [->|N]; [apply Z.eqb_refl|apply Z.eqb_neq; lia]. }
    set (K := fun p (r : Net.error + option obj) => if p =? src then failed r (fun u => match o with Tensor _ | Module _ => finish (W := W) (V := V) encode przs src src o | _ => Done (Raised (UnrecognizedType (type_name u))) end)
      else failed r (fun result => match result with Int (-1) => Done (Raised UnrecognizedFromSrc) | _ => finish (W := W) (V := V) encode przs p src result end)).
    set (tab := fun p => if p =? src then [] else match model_class (a p) with Some c => c :: safe (a p) | None => safe (a p) end).
    transitivity (ends (net n (fun p => broadcast_obj dumps (loads (tab p)) n p (if p =? src then Some (message o) else None) src (K p)) ch w) t).
    { apply ends_ext. intros p Hp. unfold load_from_party. rewrite Rg, Eq. unfold K, tab. destruct (Nat.eqb_spec p src) as [->|N]; [|now rewrite Nat2Z.id].
      assert (S1 : match file (a src) with Some (Some o) => match preloaded (a src) with None => source (W := W) (V := V) zero encode dumps loads przs n src o | Some _ => Done (Raised NotExactlyOne) end | Some None => match preloaded (a src) with None => Done (Raised LoadFailed) | Some _ => Done (Raised NotExactlyOne) end | None => match preloaded (a src) with Some o => source (W := W) (V := V) zero encode dumps loads przs n src o | None => Done (Raised NotExactlyOne) end end = source zero encode dumps loads przs n src o).
      { destruct G as [(-> & ->)|(-> & ->)]; reflexivity. }
      rewrite S1. unfold source, message. destruct o; reflexivity. }
    destruct (Nat.ltb_spec n 2) as [H|H].
    - assert (n = 1) by lia. assert (src = 0) by lia. subst n src. apply ends_ext. intros p Hp. assert (p = 0) by lia. subst p. unfold broadcast_obj, K. cbn [Nat.ltb Nat.leb Nat.eqb failed]. destruct o; reflexivity.
    - rewrite (k_C92_broadcast_obj n dumps (fun p => loads (tab p)) (fun p => if p =? src then Some (message o) else None) (message o) src K ch w t H D); [|now rewrite Nat.eqb_refl|apply P].
      apply ends_ext. intros p Hp. unfold K, tab. destruct (p =? src) eqn:Ep; [destruct o; reflexivity|]. rewrite (loads_accepts _ _ P). unfold final_other. destruct o as [x|m|z|s]; cbn [message accepts classes_in forallb failed finish zeroed classes]; try reflexivity.
      unfold accepts. cbn [classes_in zeroed classes]. destruct (forallb _ (classes m)); reflexivity.
  Qed.

  (** C91: a tensor that the source gives is shared: every run ends with a share at every party, and the shares add up to the encoded tensor; the others' shares do not depend on it, and neither do their arguments matter. *)
  Lemma k_C91_tensor n src a x ch w : src < n -> gives (a src) (Tensor x) -> pickles (message (Tensor x)) -> (forall p, p < n -> length (przs p) = length x) -> (forall i, zsum (map (fun p => nth i (przs p) 0%Z) (seq 0 n)) == 0) ->
    exists s : nat -> list Z, (forall t, ends (net n (fun p => load n p false (Z.of_nat src) (a p)) ch w) t <-> t = net n (fun p => Done (Share (s p))) ch w) /\
      (forall i, i < length x -> zsum (map (fun p => nth i (s p) 0%Z) (seq 0 n)) == encode (nth i x zero)) /\ (forall p, p < n -> p <> src -> s p = przs p).
  Proof.
    intros D G P L Z. set (s := fun p => if p =? src then share encode przs src src x else przs p). exists s.
    assert (O : forall p, p < n -> p <> src -> forall y, length y = length x -> share encode przs p src y = przs p).
    { intros p Hp N y Ly. unfold share. rewrite (proj2 (Nat.eqb_neq _ _) N). unfold zipw. assert (Le : length y = length (przs p)) by (rewrite L by exact Hp; exact Ly). revert Le. generalize (przs p). clear. intros l. revert y. induction l as [|z l IH]; intros [|e y] H; cbn in *; try discriminate; [reflexivity|]. f_equal. apply IH. lia. }
    split; [|split].
    - intros t. rewrite (load_gives n src a (Tensor x) ch w t D G P). unfold net. erewrite (map_ext_in _ (fun p => Done (Share (s p)))); [reflexivity|]. intros p Hp. apply in_seq in Hp. unfold s. destruct (Nat.eqb_spec p src) as [->|N]; [reflexivity|]. cbn [final_other]. rewrite O; [reflexivity|lia|exact N|apply map_length].
    - intros i Hi. assert (Q : forall m, m <= n -> zsum (map (fun p => nth i (s p) 0%Z) (seq 0 m)) == ((if (src <? m)%nat then encode (nth i x zero) else 0) + zsum (map (fun p => nth i (przs p) 0%Z) (seq 0 m)))%Z).
      { induction m as [|m IH]; intros Hm; [reflexivity|]. rewrite seq_S, !map_app. cbn [map]. rewrite !zsum_app, IH by lia. rewrite !zsum_cons. cbn [plus].
        assert (S1 : nth i (s m) 0%Z == ((if (m =? src)%nat then encode (nth i x zero) else 0) + nth i (przs m) 0%Z)%Z).
        { unfold s. destruct (Nat.eqb_spec m src) as [->|N]; [|apply eqm_refl_eq; ring]. unfold share. rewrite Nat.eqb_refl. rewrite (nth_zip _ _ _ _ 0%Z zero) by (rewrite L; lia). rewrite wadd_eqm. apply eqm_refl_eq. ring. }
        rewrite S1. apply eqm_refl_eq. destruct (Nat.ltb_spec src m), (Nat.ltb_spec src (S m)), (Nat.eqb_spec m src); try lia; cbn [zsum fold_right]; ring. }
      rewrite (Q n ltac:(lia)), Z. rewrite (proj2 (Nat.ltb_lt _ _) D). apply eqm_refl_eq. ring.
    - intros p Hp N. unfold s. now rewrite (proj2 (Nat.eqb_neq _ _) N).
  Qed.
  Lemma zeroed_blank m : blank_module m (zeroed zero m).
  Proof.
    split; [reflexivity|]. split; [reflexivity|]. cbn [zeroed parameters]. induction (parameters m) as [|[nm x] ps IH]; constructor; [|exact IH]. cbn [fst snd]. split; [reflexivity|]. split; [apply map_length|]. apply Forall_forall. intros e He. apply in_map_iff in He as (? & <- & _). reflexivity.
  Qed.
  (** C91: a module that the source gives: the source gets it, and every other party that accepts its classes gets it with zero parameters, but with the source's buffers; the others raise, alone. *)
  Lemma k_C91_module n src a m ch w : src < n -> gives (a src) (Module m) -> pickles (message (Module m)) ->
    exists m', blank_module m m' /\ forall t, ends (net n (fun p => load n p false (Z.of_nat src) (a p)) ch w) t <->
      t = net n (fun p => Done (if p =? src then Plain m else if accepts (a p) (Module m) then Plain m' else Raised (CommError Unpicklable))) ch w.
  Proof. intros D G P. exists (zeroed zero m). split; [apply zeroed_blank|]. intros t. exact (load_gives n src a (Module m) ch w t D G P). Qed.
  (** C91 refuted: what the source loaded is hidden.  Every other party that accepts the module's classes gets the source's buffers in plaintext. *)
  Lemma k_C91_buffers_refuted n src a m ch w t p : src < n -> gives (a src) (Module m) -> pickles (message (Module m)) -> p < n -> accepts (a p) (Module m) = true ->
    ends (net n (fun p => load n p false (Z.of_nat src) (a p)) ch w) t -> exists m', nth_error (procs t) p = Some (Done (Plain m')) /\ buffers m' = buffers m.
  Proof.
    intros D G P Hp A H. apply (load_gives n src a (Module m) ch w t D G P) in H as ->. unfold net. cbn [procs]. rewrite nth_error_net, (proj2 (Nat.ltb_lt _ _) Hp). destruct (p =? src); [exists m; now split|]. cbn [final_other]. rewrite A. exists (zeroed zero m). now split.
  Qed.
  (** C91: an object that is neither tensor nor module makes every party raise; but the source's message always names the type int. *)
  Lemma k_C91_type n src a o ch w t : src < n -> gives (a src) o -> match o with Int _ | Other _ => True | _ => False end -> pickles (Int (-1)) ->
    (ends (net n (fun p => load n p false (Z.of_nat src) (a p)) ch w) t <-> t = net n (fun p => Done (Raised (if p =? src then UnrecognizedType "int" else UnrecognizedFromSrc))) ch w).
  Proof.
    intros D G T P. rewrite (load_gives n src a o ch w t D G); [|destruct o; try contradiction; exact P]. unfold net. erewrite map_ext; [reflexivity|]. intros p. cbn beta. destruct (p =? src), o; try contradiction; reflexivity.
  Qed.
  (** C91: with [encrypted], or a source that is not a party, every party raises at once. *)
  Lemma k_C91_arguments n e src a ch w t : e = true \/ ~ (0 <= src < Z.of_nat n)%Z ->
    (ends (net n (fun p => load n p e src (a p)) ch w) t <-> t = net n (fun p => Done (Raised (if e then NotImplementedError else BadSrc))) ch w).
  Proof.
    intros H. rewrite <- ends_done. apply ends_ext. intros p _. unfold load_from_party. destruct e; [reflexivity|]. destruct H as [H|H]; [discriminate|]. destruct (negb _) eqn:B; [reflexivity|]. exfalso. apply H. apply negb_false_iff, andb_true_iff in B as (B1 & B2). apply Z.leb_le in B1. apply Z.ltb_lt in B2. lia.
  Qed.
  (** C91 refuted: if the source fails before it broadcasts (both or none of f and preloaded, or a file that does not load), it raises alone and all other parties wait for ever. *)
  Lemma k_C91_source_fails_refuted n src a ch w t : 2 <= n -> src < n -> ~ (exists o, gives (a src) o) ->
    ends (net n (fun p => load n p false (Z.of_nat src) (a p)) ch w) t -> (exists e, nth_error (procs t) src = Some (Done (Raised e))) /\ forall p, p < n -> p <> src -> waits t p.
  Proof.
    intros H D G (ls & R & _). set (s := net n _ ch w) in R. assert (N : n <? 2 = false) by (apply Nat.ltb_ge; exact H).
    assert (Rg : negb ((0 <=? Z.of_nat src) && (Z.of_nat src <? Z.of_nat n))%Z = false). { apply negb_false_iff, andb_true_iff. split; [apply Z.leb_le; lia|apply Z.ltb_lt; lia]. }
    assert (Es : exists e, nth_error (procs s) src = Some (Done (Raised e))).
    { unfold s, net. cbn [procs]. rewrite nth_error_net, (proj2 (Nat.ltb_lt _ _) D). unfold load_from_party. rewrite Rg, Z.eqb_refl. destruct (file (a src)) as [[o|]|] eqn:F, (preloaded (a src)) as [o'|] eqn:Pl; eauto; exfalso; apply G; [exists o; right; now split|exists o'; left; now split]. }
    assert (Eo : forall p, p < n -> p <> src -> exists c k, nth_error (procs s) p = Some (Call c k)).
    { intros p Hp Np. unfold s, net. cbn [procs]. rewrite nth_error_net, (proj2 (Nat.ltb_lt _ _) Hp). unfold load_from_party. rewrite Rg. replace (Z.of_nat p =? Z.of_nat src)%Z with false by (symmetry; apply Z.eqb_neq; lia). rewrite Nat2Z.id. unfold broadcast_obj. rewrite N, (proj2 (Nat.eqb_neq _ _) Np). eauto. }
    assert (Ln : length (procs s) = n) by (unfold s, net; cbn [procs]; now rewrite map_length, seq_length). destruct Es as (e & Es).
    assert (t = s) as ->.
    { destruct ls as [|[p|] ls]; cbn [run] in R; [now injection R as <-| |].
      - exfalso. replace (move (Some p) s) with (@None (state W V outcome)) in R; [discriminate|]. symmetry. destruct (Nat.lt_ge_cases p n) as [Hp|Hp]; [|apply move_out; now rewrite Ln]. destruct (Nat.eq_dec p src) as [->|Np]; [eapply move_done; exact Es|]. destruct (Eo p Hp Np) as (c & k & Ec). eapply move_call. exact Ec.
      - exfalso. cbn [move] in R. rewrite (calls_none _ _ _ Es) in R by discriminate. discriminate. }
    split; [exists e; exact Es|]. intros p Hp Np. split; [now rewrite Ln|]. intros r'. destruct (Eo p Hp Np) as (c & k & ->). discriminate.
  Qed.

  (** everything that a party puts on the network, for given replies *)
  Inductive word := Said (c : call) | Sent (dst : nat) (m : msg).
  Fixpoint words (p : prog W V outcome) (rs : list reply) : list word :=
    match p with
    | Call c k => Said c :: match rs with r :: rs => words (k r) rs | [] => [] end
    | Recv _ _ k => match rs with Data m :: rs => words (k m) rs | _ => [] end
    | Send d m k => Sent d m :: words k rs
    | _ => []
    end.
  Definition alike (o o' : obj) : Prop :=
    match o, o' with
    | Tensor x, Tensor x' => length x = length x'
    | Module m, Module m' => classes m = classes m' /\ buffers m = buffers m' /\ map (fun nt => (fst nt, length (snd nt))) (parameters m) = map (fun nt => (fst nt, length (snd nt))) (parameters m')
    | (Int _ | Other _), (Int _ | Other _) => True
    | _, _ => False
    end.
  (** C91: what the source puts on the network depends on a tensor's size only, and on a module's classes, names, sizes and buffers only. *)
  Lemma k_C91_transcript n src a a' o o' rs : src < n -> gives a o -> gives a' o' -> alike o o' -> words (load n src false (Z.of_nat src) a) rs = words (load n src false (Z.of_nat src) a') rs.
  Proof.
    intros D G G' A.
    assert (Rg : negb ((0 <=? Z.of_nat src) && (Z.of_nat src <? Z.of_nat n))%Z = false). { apply negb_false_iff, andb_true_iff. split; [apply Z.leb_le; lia|apply Z.ltb_lt; lia]. }
    assert (S1 : forall b u, gives b u -> load n src false (Z.of_nat src) b = source zero encode dumps loads przs n src u). { intros b u Gb. unfold load_from_party. rewrite Rg, Z.eqb_refl. destruct Gb as [(-> & ->)|(-> & ->)]; reflexivity. }
    rewrite (S1 _ _ G), (S1 _ _ G').
    assert (M : message o = message o').
    { clear - A. destruct o as [x|m|z|q], o' as [x'|m'|z'|q']; cbn in A; try contradiction; try reflexivity; cbn [message].
      - f_equal. revert x' A. induction x as [|e x IH]; intros [|e' x'] A; cbn in *; try discriminate; [reflexivity|]. f_equal. apply IH. lia.
      - destruct A as (A1 & A2 & A3). unfold zeroed. rewrite A1, A2. do 2 f_equal. revert A3. generalize (parameters m'). induction (parameters m) as [|[k x] l IH]; intros [|[k' x'] l'] H; cbn in *; try discriminate; [reflexivity|]. injection H as -> Hx Hl. rewrite (IH l' Hl). f_equal. f_equal. revert x' Hx. clear. induction x as [|e x IH]; intros [|e' x'] A; cbn in *; try discriminate; [reflexivity|]. f_equal. apply IH. lia. }
    assert (Wd : forall u, words (source zero encode dumps loads przs n src u) rs = if n <? 2 then [] else match framed dumps (message u) with inl _ => [] | inr (size, arr) => Said (Broadcast src size) :: match rs with [] => [] | _ => [Said (Broadcast src arr)] end end).
    { intros u. unfold source, message. destruct u; unfold broadcast_obj; rewrite Nat.eqb_refl; destruct (n <? 2); try reflexivity; destruct (framed _ _) as [e|[size arr]]; try reflexivity; cbn [words]; destruct rs as [|? [|? ?]]; reflexivity. }
    rewrite !Wd, M. reflexivity.
  Qed.
End Claims.

(** *** Saving and printing *)
(** one party acts, all others are in a collective *)
Lemma ends_act {W V A} (s : state W V A) q f k t : nth_error (procs s) q = Some (Act f k) -> (forall p, p < length (procs s) -> p <> q -> exists c k', nth_error (procs s) p = Some (Call c k')) ->
  (ends s t <-> ends (mkState (set_nth q (k (snd (f (world s)))) (procs s)) (chans s) (fst (f (world s)))) t).
Proof.
  intros Eq O. set (s' := mkState _ _ _). assert (M : move (Some q) s = Some s'). { cbn [move]. rewrite Eq. unfold s'. now destruct (f (world s)). }
  split; intros (ls & R & St).
  - destruct ls as [|[p|] ls]; cbn [run] in R.
    + injection R as <-. now rewrite St in M.
    + destruct (Nat.eq_dec p q) as [->|N]; [rewrite M in R; now exists ls|]. exfalso. replace (move (Some p) s) with (@None (state W V A)) in R; [discriminate|]. symmetry. destruct (Nat.lt_ge_cases p (length (procs s))) as [Hp|Hp]; [|now apply move_out]. destruct (O p Hp N) as (c & k' & Ec). eapply move_call. exact Ec.
    + exfalso. cbn [move] in R. rewrite (calls_none _ _ _ Eq) in R by discriminate. discriminate.
  - exists (Some q :: ls). cbn [run]. rewrite M. now split.
Qed.
Lemma set_nth_net {B} n (F : nat -> B) q b : set_nth q b (map F (seq 0 n)) = map (fun p => if p =? q then b else F p) (seq 0 n).
Proof.
  apply nth_ext with (d := b) (d' := b); [rewrite set_nth_length, !map_length; reflexivity|]. intros i Hi. rewrite set_nth_length, map_length, seq_length in Hi. rewrite (nth_net n (fun p => if p =? q then b else F p)) by exact Hi. destruct (Nat.eqb_spec i q) as [->|N]; [apply nth_set_same; now rewrite map_length, seq_length|]. rewrite nth_set_other by lia. now apply nth_net.
Qed.
(** one round: party [q] acts and then all pass a barrier *)
Lemma ends_round {W V A} n q (f : W -> W * V) (K : nat -> prog W V A) ch w t : q < n ->
  (ends (net n (fun p => if p =? q then Act f (fun _ => barrier (K p)) else barrier (K p)) ch w) t <-> ends (net n K ch (fst (f w))) t).
Proof.
  intros Hq. rewrite <- (k_C92_barrier n K) by lia. rewrite (ends_act _ q f (fun _ => barrier (K q))).
  - unfold net. cbn [procs chans world]. rewrite set_nth_net. refine (ends_ext n _ _ _ _ _ _). intros p _. now destruct (Nat.eqb_spec p q) as [->|].
  - unfold net. cbn [procs]. rewrite nth_error_net, (proj2 (Nat.ltb_lt _ _) Hq), Nat.eqb_refl. reflexivity.
  - unfold net. cbn [procs]. rewrite map_length, seq_length. intros p Hp N. rewrite nth_error_net, (proj2 (Nat.ltb_lt _ _) Hp), (proj2 (Nat.eqb_neq _ _) N). unfold barrier. eauto.
Qed.
(** C91: after save_from_party every party that goes on finds the source's object in the file, whatever the others passed. *)
Lemma k_C91_save_from_party {C} n src (c : nat -> C) f (name : nat -> string) (K : nat -> prog (files C) (option C) (option (option C))) ch fs t : src < n -> name src = f ->
  exists fs', fs' f = Some (c src) /\ (forall g, g <> f -> fs' g = fs g) /\
    (ends (net n (fun p => save_from_party n p false (c p) (name p) (Z.of_nat src) (K p)) ch fs) t <-> ends (net n K ch fs') t).
Proof.
  intros D Nm. exists (fst (write f (c src) fs)). split; [cbn; now rewrite String.eqb_refl|]. split; [intros g N; cbn; now apply String.eqb_neq in N as ->|]. rewrite <- (ends_round n src (write f (c src)) K ch fs t D).
  assert (Rg : negb ((0 <=? Z.of_nat src) && (Z.of_nat src <? Z.of_nat n))%Z = false). { apply negb_false_iff, andb_true_iff. split; [apply Z.leb_le; lia|apply Z.ltb_lt; lia]. }
  apply ends_ext. intros p _. unfold save_from_party. rewrite Rg. destruct (Nat.eqb_spec p src) as [->|N]; [now rewrite Z.eqb_refl, Nm|]. now replace (Z.of_nat p =? Z.of_nat src)%Z with false by (symmetry; apply Z.eqb_neq; lia).
Qed.
(** C91: printing in order prints the lines of all parties in the order of their ranks, under every schedule. *)
Lemma k_C91_print_in_order {L} n (l : nat -> L) (K : nat -> prog (list (nat * L)) unit unit) ch out t :
  ends (net n (fun p => print_in_order n p (l p) (K p)) ch out) t <-> ends (net n K ch (out ++ map (fun p => (p, l p)) (seq 0 n))) t.
Proof.
  unfold print_in_order. assert (Q : forall is out, (forall i, In i is -> i < n) -> (ends (net n (fun p => fold_right (fun i next => if p =? i then Act (put p (l p)) (fun _ => barrier next) else barrier next) (K p) is) ch out) t <-> ends (net n K ch (out ++ map (fun p => (p, l p)) is)) t)).
  { induction is as [|i is IH]; intros o H; [cbn [fold_right map]; rewrite app_nil_r; reflexivity|]. cbn [fold_right].
    set (N := fun p => fold_right (fun i next => if p =? i then Act (put p (l p)) (fun _ => barrier next) else barrier next) (K p) is).
    transitivity (ends (net n (fun p => if p =? i then Act (put i (l i)) (fun _ => barrier (N p)) else barrier (N p)) ch o) t). { apply ends_ext. intros p _. now destruct (Nat.eqb_spec p i) as [->|]. }
    rewrite (ends_round n i (put i (l i)) N) by (apply H; now left). unfold put at 1. cbn [fst]. unfold N. rewrite IH by (intros j Hj; apply H; now right). cbn [map]. rewrite <- app_assoc. reflexivity. }
  apply Q. intros i Hi. apply in_seq in Hi. lia.
Qed.
Lemma run_invariant {W V A} (I : state W V A -> Prop) ls s t : (forall l s s', I s -> move l s = Some s' -> I s') -> I s -> run ls s = Some t -> I t.
Proof. intros P. revert s. induction ls as [|l ls IH]; intros s H R; cbn [run] in R; [now injection R as <-|]. destruct (move l s) as [s'|] eqn:M; [|discriminate]. apply (IH s'); [|exact R]. exact (P _ _ _ H M). Qed.
Lemma calls_all {W V A} n (F : nat -> prog W V A) cks p : calls (map F (seq 0 n)) = Some cks -> p < n -> exists c k, F p = Call c k.
Proof.
  intros H Hp. destruct (F p) as [r|d m k|src b k|c k|f k] eqn:E; eauto; exfalso; rewrite (calls_none _ p (F p)) in H; try discriminate; try (rewrite nth_error_net, (proj2 (Nat.ltb_lt _ _) Hp); reflexivity); rewrite E; discriminate.
Qed.
(** C91: crypten.save to a file of its own at every party, then crypten.load: every party gets its own share back. *)
Lemma k_C91_save {C} n (c : nat -> C) (f : nat -> string) ch fs t : (forall p q, p < n -> q < n -> f p = f q -> p = q) ->
  ends (net n (fun p => save (c p) (f p) (load (f p))) ch fs) t -> forall p, p < n -> nth_error (procs t) p = Some (Done (Some (Some (c p)))).
Proof.
  intros Inj (ls & R & St).
  set (IA := fun s : state (files C) (option C) (option (option C)) => exists D : nat -> bool, procs s = map (fun p => if D p then barrier (load (f p)) else save (c p) (f p) (load (f p))) (seq 0 n) /\ forall p, p < n -> D p = true -> world s (f p) = Some (c p)).
  set (IB := fun s : state (files C) (option C) (option (option C)) => exists D : nat -> bool, procs s = map (fun p => if D p then Done (Some (Some (c p))) else load (f p)) (seq 0 n) /\ forall p, p < n -> world s (f p) = Some (c p)).
  assert (I : IA t \/ IB t).
  { apply (run_invariant (fun s => IA s \/ IB s) ls _ _) in R; [exact R| |].
    - intros l s s' H M. destruct H as [(D & P & Wd)|(D & P & Wd)].
      + destruct l as [p|]; cbn [move] in M; rewrite P in M.
        * rewrite nth_error_net in M. destruct (Nat.ltb_spec p n) as [Hp|]; [|discriminate]. destruct (D p) eqn:Dp; [discriminate|]. unfold save in M. cbn [write] in M. injection M as <-. left. exists (fun q => (q =? p) || D q). cbn [procs world]. split.
          -- rewrite set_nth_net. apply map_ext. intros q. destruct (Nat.eqb_spec q p) as [->|N]; reflexivity.
          -- intros q Hq Dq. destruct (String.eqb_spec (f q) (f p)) as [Ef|Nf]; [now rewrite (Inj q p Hq Hp Ef)|]. apply Wd; [exact Hq|]. apply orb_prop in Dq as [Dq|Dq]; [apply Nat.eqb_eq in Dq; subst; congruence|exact Dq].
        * destruct (calls _) as [cks|] eqn:Ec; [|discriminate]. assert (Dt : forall q, q < n -> D q = true). { intros q Hq. destruct (calls_all _ _ _ q Ec Hq) as (? & ? & Eq). destruct (D q); [reflexivity|discriminate]. }
          assert (Em : map (fun p => if D p then barrier (load (f p)) else save (c p) (f p) (load (f p))) (seq 0 n) = map (fun p => Call Barrier (fun _ => load (f p))) (seq 0 n)). { apply map_ext_in. intros q Hq. apply in_seq in Hq. rewrite Dt by lia. reflexivity. }
          rewrite Em, calls_net in Ec. injection Ec as <-. destruct (compatible _); [|discriminate]. injection M as <-. right. exists (fun _ => false). cbn [procs world]. split; [|intros q Hq; apply Wd; auto].
          rewrite map_length, seq_length. rewrite (combine_seq (fun p => (Barrier, fun _ : reply => load (f p)))). reflexivity.
      + destruct l as [p|]; cbn [move] in M; rewrite P in M.
        * rewrite nth_error_net in M. destruct (Nat.ltb_spec p n) as [Hp|]; [|discriminate]. destruct (D p) eqn:Dp; [discriminate|]. unfold load in M. cbn [read] in M. injection M as <-. right. exists (fun q => (q =? p) || D q). cbn [procs world]. split; [|exact Wd].
          rewrite set_nth_net. apply map_ext. intros q. destruct (Nat.eqb_spec q p) as [->|N]; [cbn [orb]; now rewrite Wd|reflexivity].
        * destruct (calls _) as [cks|] eqn:Ec; [|discriminate]. destruct n as [|n]; [cbn in Ec; injection Ec as <-; discriminate|]. destruct (calls_all _ _ _ 0 Ec ltac:(lia)) as (? & ? & Eq). destruct (D 0); discriminate.
    - left. exists (fun _ => false). split; [reflexivity|discriminate]. }
  intros p Hp. destruct I as [(D & P & Wd)|(D & P & Wd)].
  - exfalso. assert (Dt : forall q, q < n -> D q = true). { intros q Hq. destruct (D q) eqn:Dq; [reflexivity|]. specialize (St (Some q)). cbn [move] in St. rewrite P, nth_error_net, (proj2 (Nat.ltb_lt _ _) Hq), Dq in St. discriminate. }
    specialize (St None). cbn [move] in St. rewrite P in St. rewrite (map_ext_in _ (fun p => Call Barrier (fun _ => load (f p)))) in St by (intros q Hq; apply in_seq in Hq; rewrite Dt by lia; reflexivity). rewrite calls_net in St. rewrite map_map in St. cbn [fst] in St. rewrite (compatible_net n (fun _ => Barrier)) in St; [discriminate|lia|reflexivity|]. destruct n; [lia|reflexivity].
  - rewrite P, nth_error_net, (proj2 (Nat.ltb_lt _ _) Hp). destruct (D p) eqn:Dp; [reflexivity|]. exfalso. specialize (St (Some p)). cbn [move] in St. rewrite P, nth_error_net, (proj2 (Nat.ltb_lt _ _) Hp), Dp in St. discriminate.
Qed.
(** C91 refuted if they use the same file: which share is in it depends on the schedule, and a party may get the other's. *)
Lemma k_C91_save_shared_refuted {C} (c : nat -> C) f fs : exists t t', ends (net 2 (fun p => save (c p) f (load f)) (repeat [] 4) fs) t /\ ends (net 2 (fun p => save (c p) f (load f)) (repeat [] 4) fs) t' /\
  nth_error (procs t) 0 = Some (Done (Some (Some (c 0)))) /\ nth_error (procs t) 1 = Some (Done (Some (Some (c 0)))) /\ nth_error (procs t') 0 = Some (Done (Some (Some (c 1)))) /\ nth_error (procs t') 1 = Some (Done (Some (Some (c 1)))).
Proof.
  assert (St : forall a b ch (w : files C), stuck (@mkState (files C) (option C) (option (option C)) [Done a; Done b] ch w)) by (intros a b ch w [[|[|[|p]]]|]; reflexivity).
  assert (Q : forall p q, (p = 0 /\ q = 1) \/ (p = 1 /\ q = 0) -> run [Some p; Some q; None] (net 2 (fun p => save (c p) f (load f)) (repeat [] 4) fs) = Some (mkState [load f; load f] (repeat [] 4) (fst (write f (c q) (fst (write f (c p) fs)))))) by (intros p q [(-> & ->)|(-> & ->)]; reflexivity).
  assert (Q2 : forall w : files C, run [Some 0; Some 1] (mkState [load f; load f] (repeat [] 4) w) = Some (mkState [Done (Some (w f)); Done (Some (w f))] (repeat [] 4) w)) by reflexivity.
  assert (Wf : forall q (w : files C), fst (write f (c q) w) f = Some (c q)) by (intros q w; cbn; now rewrite String.eqb_refl).
  assert (Q3 : forall p q, (p = 0 /\ q = 1) \/ (p = 1 /\ q = 0) -> exists t, ends (net 2 (fun p => save (c p) f (load f)) (repeat [] 4) fs) t /\ nth_error (procs t) 0 = Some (Done (Some (Some (c q)))) /\ nth_error (procs t) 1 = Some (Done (Some (Some (c q))))).
  { intros p q H. set (w := fst (write f (c q) (fst (write f (c p) fs)))). exists (mkState [Done (Some (w f)); Done (Some (w f))] (repeat [] 4) w). split; [exists ([Some p; Some q; None] ++ [Some 0; Some 1]); rewrite run_app, (Q p q H), Q2; split; [reflexivity|apply St]|]. cbn [procs nth_error]. unfold w. rewrite Wf. split; reflexivity. }
  destruct (Q3 1 0) as (t & E & A & B); [now right|]. destruct (Q3 0 1) as (t' & E' & A' & B'); [now left|]. exists t, t'. auto 10.
Qed.
(** C91: printing to given parties prints the line of each of them once, in some order, and nothing else. *)
Lemma k_C91_print_to {L} n (l : nat -> L) dst ch out t : ends (net n (fun p => print_to dst p (l p) (Done tt)) ch out) t ->
  exists r, world t = out ++ map (fun p => (p, l p)) r /\ NoDup r /\ (forall p, In p r <-> p < n /\ In p dst) /\ procs t = map (fun _ => Done tt) (seq 0 n).
Proof.
  intros (ls & R & St). assert (Ex : forall p, existsb (Nat.eqb p) dst = true <-> In p dst). { intros p. rewrite existsb_exists. split; [intros (q & Hq & E); apply Nat.eqb_eq in E; now subst|intros H; exists p; split; [exact H|apply Nat.eqb_refl]]. }
  set (In_ := fun (r : list nat) p => existsb (Nat.eqb p) r).
  assert (I : exists r, world t = out ++ map (fun p => (p, l p)) r /\ NoDup r /\ (forall p, In p r -> p < n /\ In p dst) /\ procs t = map (fun p => if In_ r p then Done tt else print_to dst p (l p) (Done tt)) (seq 0 n)).
  { apply (run_invariant (fun t => exists r, world t = out ++ map (fun p => (p, l p)) r /\ NoDup r /\ (forall p, In p r -> p < n /\ In p dst) /\ procs t = map (fun p => if In_ r p then Done tt else print_to dst p (l p) (Done tt)) (seq 0 n)) ls _ t) in R; [exact R| |].
    - intros q s s' (r & Wd & ND & H & P) M. destruct q as [p|]; cbn [move] in M; rewrite P in M.
      + rewrite nth_error_net in M. destruct (Nat.ltb_spec p n) as [Hp|]; [|discriminate]. destruct (In_ r p) eqn:Ip; [discriminate|]. unfold print_to in M. destruct (existsb (Nat.eqb p) dst) eqn:Ed; [|discriminate]. cbn [put] in M. injection M as <-.
        exists (r ++ [p]). cbn [world procs]. rewrite Wd, map_app, app_assoc. split; [reflexivity|]. split; [|split].
        * apply (Permutation_NoDup (Permutation_cons_append r p)). constructor; [|exact ND]. intros Hi. assert (X : In_ r p = true) by (unfold In_; apply existsb_exists; exists p; split; [exact Hi|apply Nat.eqb_refl]). congruence.
        * intros q Hq. apply in_app_or in Hq as [Hq|[<-|[]]]; [now apply H|]. split; [exact Hp|now apply Ex].
        * rewrite set_nth_net. apply map_ext. intros q. unfold In_. rewrite existsb_app. cbn [existsb]. rewrite orb_false_r. destruct (Nat.eqb_spec q p) as [->|N]; [now rewrite orb_true_r|]. rewrite orb_false_r. reflexivity.
      + exfalso. destruct (calls _) as [cks|] eqn:Ec; [|discriminate]. destruct n as [|n]; [cbn in Ec; injection Ec as <-; discriminate|]. destruct (calls_all _ _ _ 0 Ec ltac:(lia)) as (? & ? & Eq). unfold print_to in Eq. destruct (In_ r 0), (existsb (Nat.eqb 0) dst); discriminate.
    - exists []. cbn [map]. rewrite app_nil_r. repeat split; try constructor; contradiction. }
  destruct I as (r & Wd & ND & H & P). exists r.
  assert (A : forall p, p < n -> In p dst -> In p r). { intros p Hp Hd. destruct (In_ r p) eqn:Ip; [unfold In_ in Ip; apply existsb_exists in Ip as (q & Hq & E); apply Nat.eqb_eq in E; now subst|]. exfalso. specialize (St (Some p)). cbn [move] in St. rewrite P, nth_error_net, (proj2 (Nat.ltb_lt _ _) Hp), Ip in St. unfold print_to in St. rewrite (proj2 (Ex p) Hd) in St. discriminate. }
  split; [exact Wd|]. split; [exact ND|]. split; [intros p; split; [apply H|intros (Hp & Hd); now apply A]|]. rewrite P. apply map_ext_in. intros p Hp. apply in_seq in Hp. destruct (In_ r p) eqn:Ip; [reflexivity|]. unfold print_to. destruct (existsb (Nat.eqb p) dst) eqn:Ed; [|reflexivity]. exfalso. apply Ex in Ed. specialize (A p ltac:(lia) Ed). assert (X : In_ r p = true) by (unfold In_; apply existsb_exists; exists p; split; [exact A|apply Nat.eqb_refl]). congruence.
Qed.

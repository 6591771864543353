(** C56: restricted unpickling. *)
Require Import List String Ascii Bool Arith Lia.
From Verif Require Import Serial.
Import ListNotations.
Open Scope string_scope.

(** Spec: the object a full name stands for after a history of registrations: the last registered class of that name, else the built-in entry. *)
Definition full_name (c : pyclass) : string := modname c ++ "." ++ qualname c.
Fixpoint last_named (n : string) (h : list pyclass) : option pyclass :=
  match h with [] => None | c :: h => match last_named n h with Some d => Some d | None => if String.eqb (full_name c) n then Some c else None end end.
Definition quote_free (s : string) : Prop := ~ exists a b, s = a ++ String "'"%char b.
Definition ordinary (c : pyclass) : Prop := modname c <> "builtins" /\ quote_free (full_name c).
(** every object resolved for a value *)
Inductive mentions : value -> object -> Prop :=
| MRes o : mentions (Resolved o) o
| MCallF f a o : mentions f o -> mentions (Call f a) o
| MCallA f a o : mentions a o -> mentions (Call f a) o
| MNewF f a o : mentions f o -> mentions (New f a) o
| MNewA f a o : mentions a o -> mentions (New f a) o
| MItem v vs o : In v vs -> mentions v o -> mentions (Items vs) o
| MTarget v vs o : mentions v o -> mentions (Update v vs) o
| MUpdate v w vs o : In w vs -> mentions w o -> mentions (Update v vs) o.
(** a value built only from objects of the table, data, and calls of such values on such values *)
Definition only_safe (t : table) (v : value) : Prop := forall o, mentions v o -> exists n, lookup t n = Some o.
Definition machine_of (r : step_result) : machine := match r with Next m | Stopped _ m | Failed _ m => m end.

(** *** Names *)
Lemma split_free s : quote_free s -> forall r, split "'"%char (s ++ String "'"%char r) = s :: split "'"%char r.
Proof.
  induction s as [|c s IH]; intros Q r; [reflexivity|]. change ((String c s ++ String "'"%char r)) with (String c (s ++ String "'"%char r)). cbn [split]. destruct (Ascii.eqb_spec c "'"%char) as [->|N].
  - exfalso. apply Q. now exists "", s.
  - rewrite IH; [reflexivity|]. intros (a & b & ->). apply Q. now exists (String c a), b.
Qed.
Lemma quoted s : quote_free s -> nth 1 (split "'"%char ("<class '" ++ s ++ "'>")) "" = s.
Proof.
  intros Q. assert (E : split "'"%char (s ++ "'>") = s :: split "'"%char ">") by exact (split_free s Q ">"). change (nth 1 ("<class " :: split "'"%char (s ++ "'>")) "" = s). now rewrite E.
Qed.
Lemma classname_ordinary c : ordinary c -> classname c = full_name c.
Proof.
  intros [N Q]. unfold classname, str_class. destruct (String.eqb_spec (modname c) "builtins") as [E|_]; [contradiction|]. exact (quoted _ Q).
Qed.
Lemma classname_builtin c : modname c = "builtins" -> quote_free (qualname c) -> classname c = qualname c.
Proof. intros E Q. unfold classname, str_class. rewrite E. exact (quoted _ Q). Qed.

(** *** Lookups after registrations *)
Lemma k_lookup h : forall t m n, (forall c, In c h -> ordinary c) ->
  find_class (fold_left register h t) m n = match last_named (m ++ "." ++ n) h with Some c => Some (Registered c) | None => find_class t m n end.
Proof.
  induction h as [|c h IH]; intros t m n H; cbn [fold_left last_named]; [reflexivity|]. rewrite IH by (intros; apply H; now right). destruct (last_named (m ++ "." ++ n) h); [reflexivity|]. unfold find_class, register. cbn [lookup]. rewrite classname_ordinary by (apply H; now left). now destruct (String.eqb (full_name c) (m ++ "." ++ n)).
Qed.
Lemma last_named_in n h c : last_named n h = Some c -> In c h /\ full_name c = n.
Proof. induction h as [|d h IH]; cbn [last_named]; [discriminate|]. destruct (last_named n h) as [e|]; [intros [= ->]; destruct IH; [reflexivity|split; [now right|assumption]]|]. destruct (String.eqb_spec (full_name d) n) as [E|]; [intros [= ->]; split; [now left|exact E]|discriminate]. Qed.
Lemma last_named_some h c : In c h -> last_named (full_name c) h <> None.
Proof. induction h as [|d h IH]; [intros []|]. cbn [last_named]. intros [->|I]; destruct (last_named (full_name c) h) eqn:E; try discriminate; [now rewrite String.eqb_refl|now apply IH in I]. Qed.
Lemma initial_lookup allow found : forall n o, lookup (initial allow found) n = Some o <-> o = Builtin n /\ (n = "torch.storage._load_from_bytes" \/ (In n allow /\ found n = true)).
Proof.
  unfold initial. set (t0 := [("torch.storage._load_from_bytes", Builtin "torch.storage._load_from_bytes")]).
  assert (G : forall l t, (forall n o, lookup t n = Some o -> o = Builtin n) -> forall n o, lookup (fold_left (fun t n => if found n then (n, Builtin n) :: t else t) l t) n = Some o <-> o = Builtin n /\ (lookup t n = Some (Builtin n) \/ (In n l /\ found n = true))).
  { induction l as [|a l IH]; intros t Ht n o; cbn [fold_left].
    - split; [intros E; pose proof (Ht n o E); subst; auto|intros [-> [E|[[] _]]]; exact E].
    - rewrite IH.
      + split.
        * intros [-> [E|[I F]]]; split; auto; [|right; split; [now right|exact F]]. destruct (found a) eqn:Fa; [|now left]. cbn [lookup] in E. destruct (String.eqb_spec a n) as [->|]; [right; split; [now left|exact Fa]|now left].
        * intros [-> [E|[[->|I] F]]]; split; auto; [|rewrite F; left; cbn [lookup]; now rewrite String.eqb_refl]. left. destruct (found a); [|exact E]. cbn [lookup]. destruct (String.eqb_spec a n) as [->|]; [reflexivity|exact E].
      + intros n' o' E. destruct (found a); [|now apply Ht]. cbn [lookup] in E. destruct (String.eqb_spec a n') as [->|]; [congruence|now apply Ht]. }
  intros n o. rewrite G.
  - unfold t0. cbn [lookup]. destruct (String.eqb_spec "torch.storage._load_from_bytes" n) as [<-|N]; split; intros [-> H]; split; auto; destruct H as [H|H]; auto; [discriminate|congruence].
  - unfold t0. intros n' o' E. cbn [lookup] in E. destruct (String.eqb_spec "torch.storage._load_from_bytes" n') as [<-|]; congruence.
Qed.
Lemma k_find allow found h m n o : (forall c, In c h -> ordinary c) ->
  (find_class (fold_left register h (initial allow found)) m n = Some o <->
   (exists c, o = Registered c /\ last_named (m ++ "." ++ n) h = Some c) \/
   (last_named (m ++ "." ++ n) h = None /\ o = Builtin (m ++ "." ++ n) /\ (m ++ "." ++ n = "torch.storage._load_from_bytes" \/ (In (m ++ "." ++ n) allow /\ found (m ++ "." ++ n) = true)))).
Proof.
  intros H. rewrite k_lookup by exact H. destruct (last_named (m ++ "." ++ n) h) as [c|].
  - split; [intros [= <-]; left; exists c; auto|intros [(d & -> & [= ->])|[? _]]; [reflexivity|discriminate]].
  - unfold find_class. rewrite initial_lookup. split; [intros [-> E]; right; auto|intros [(d & _ & ?)|(_ & -> & E)]; [discriminate|auto]].
Qed.

(** *** The machine *)
Section Machine.
  Variables (t : table) (ext : nat -> option (string * string)).
  Notation safe := (only_safe t).
  Record safe_machine (m : machine) : Prop := {
    sm_stack : forall v, In v (stack m) -> safe v;
    sm_meta : forall s v, In s (metastack m) -> In v s -> safe v;
    sm_memo : forall i v, In (i, v) (memo m) -> safe v;
    sm_calls : forall f a, In (f, a) (calls m) -> safe f /\ safe a }.
  Lemma safe_items vs : (forall v, In v vs -> safe v) -> safe (Items vs).
  Proof. intros H o M. inversion M; subst. eapply H; eassumption. Qed.
  Lemma safe_update v vs : safe v -> (forall w, In w vs -> safe w) -> safe (Update v vs).
  Proof. intros Hv H o M. inversion M; subst; [now apply Hv|eapply H; eassumption]. Qed.
  Lemma safe_call f a : safe f -> safe a -> safe (Call f a).
  Proof. intros Hf Ha o M. inversion M; subst; [now apply Hf|now apply Ha]. Qed.
  Lemma safe_new f a : safe f -> safe a -> safe (New f a).
  Proof. intros Hf Ha o M. inversion M; subst; [now apply Hf|now apply Ha]. Qed.
  Lemma safe_text s : safe (Text s). Proof. intros o M. inversion M. Qed.
  Lemma safe_datum n : safe (Datum n). Proof. intros o M. inversion M. Qed.
  Lemma safe_resolved o n : lookup t n = Some o -> safe (Resolved o). Proof. intros L o' M. inversion M; subst. eauto. Qed.
  Lemma safe_push v m : safe v -> safe_machine m -> safe_machine (push v m).
  Proof. intros Hv [A B C D]. constructor; cbn [push stack metastack memo calls]; auto. intros w [<-|I]; auto. Qed.
  Lemma safe_mk s ms mm cs : (forall v, In v s -> safe v) -> (forall s v, In s ms -> In v s -> safe v) -> (forall i v, In (i, v) mm -> safe v) -> (forall f a, In (f, a) cs -> safe f /\ safe a) -> safe_machine (mkM s ms mm cs).
  Proof. constructor; auto. Qed.
  Lemma safe_resolve mn n m k : safe_machine m -> (forall v, safe v -> safe_machine (k v)) -> safe_machine (machine_of (resolve t mn n m k)).
  Proof. intros Hm Hk. unfold resolve, find_class. destruct (lookup t (mn ++ "." ++ n)) as [o|] eqn:E; cbn [machine_of]; [|exact Hm]. apply Hk. exact (safe_resolved o _ E). Qed.
  Lemma safe_step op m : safe_machine m -> safe_machine (machine_of (step t ext op m)).
  Proof.
    intros Hm. pose proof Hm as [A B C D]. destruct m as [s ms mm cs]. cbn [stack metastack memo calls] in *.
    assert (Ar : forall v, In v (rev s) -> safe v) by (intros v I; apply A; now apply in_rev).
    destruct op as [x|x| | | | | | | | | |mn n| | | | |mn n| |code| |i|i| ]; cbn [step stack metastack memo calls].
    - apply safe_push; [apply safe_text|exact Hm].
    - apply safe_push; [apply safe_datum|exact Hm].
    - apply safe_mk; auto; cbn [In]; [intros ? []|]. intros s' v [<-|I]; [apply A|now apply B].
    - destruct s as [|v s]; [destruct ms as [|s ms]; [exact Hm|]|]; apply safe_mk; auto; intros; [apply (B s); [now left|assumption]|apply (B s0); [now right|assumption]|apply A; now right].
    - destruct s as [|v s]; [exact Hm|]. apply safe_push; [apply A; now left|exact Hm].
    - destruct ms as [|s' ms]; [exact Hm|]. apply safe_mk; auto; intros; [apply (B s'); [now left|assumption]|apply (B s0); [now right|assumption]].
    - destruct ms as [|s' ms]; [exact Hm|]. apply safe_mk; auto; intros; [|apply (B s0); [now right|assumption]]. destruct H as [<-|I]; [now apply safe_items|apply (B s'); [now left|exact I]].
    - apply safe_push; [apply safe_items; intros ? []|exact Hm].
    - destruct ms as [|[|v s'] ms]; [exact Hm|exact Hm|]. apply safe_mk; auto; intros; [|apply (B s0); [now right|assumption]]. destruct H as [<-|I]; [apply safe_update; [apply (B (v :: s')); now left|exact Ar]|apply (B (v :: s')); [now left|now right]].
    - destruct s as [|x [|v s]]; [exact Hm|exact Hm|]. apply safe_mk; auto. intros w [<-|I]; [|apply A; now right; right]. apply safe_update; [apply A; right; now left|]. intros w [<-|[]]. apply A. now left.
    - destruct s as [|x [|k [|v s]]]; [exact Hm|exact Hm|exact Hm|]. apply safe_mk; auto. intros w [<-|I]; [|apply A; now right; right; right]. apply safe_update; [apply A; right; right; now left|]. intros w [<-|[<-|[]]]; apply A; [right; now left|now left].
    - apply safe_resolve; [exact Hm|]. intros v Hv. now apply safe_push.
    - destruct s as [|[n|?|?|? ?|? ?|?|? ?] [|[mn|?|?|? ?|? ?|?|? ?] s]]; try exact Hm. apply safe_resolve; [exact Hm|]. intros v Hv. apply safe_mk; auto. intros w [<-|I]; [exact Hv|apply A; now right; right].
    - destruct s as [|a [|f s]]; [exact Hm|exact Hm|]. assert (safe f) by (apply A; right; now left). assert (safe a) by (apply A; now left). apply safe_mk; auto; [intros w [<-|I]; [now apply safe_call|apply A; now right; right]|]. intros f' a' [E|I]; [injection E as <- <-; auto|auto].
    - destruct s as [|a [|f s]]; [exact Hm|exact Hm|]. assert (safe f) by (apply A; right; now left). assert (safe a) by (apply A; now left). apply safe_mk; auto; [intros w [<-|I]; [now apply safe_new|apply A; now right; right]|]. intros f' a' [E|I]; [injection E as <- <-; auto|auto].
    - destruct s as [|x [|v s]]; [exact Hm|exact Hm|]. apply safe_mk; auto. intros w [<-|I]; [|apply A; now right; right]. apply safe_update; [apply A; right; now left|]. intros w [<-|[]]. apply A. now left.
    - destruct ms as [|s' ms]; [exact Hm|]. apply safe_resolve; [exact Hm|]. intros v Hv. assert (safe (Items (rev s))) by now apply safe_items. apply safe_mk; auto; intros; [|apply (B s0); [now right|assumption]|].
      + destruct H0 as [<-|I]; [now apply safe_call|apply (B s'); [now left|exact I]].
      + destruct H0 as [E|I]; [injection E as <- <-; auto|auto].
    - destruct ms as [|s' ms]; [exact Hm|]. destruct (rev s) as [|c a] eqn:E; [exact Hm|]. assert (safe c) by (apply Ar; now left). assert (safe (Items a)) by (apply safe_items; intros; apply Ar; now right). apply safe_mk; auto; intros; [|apply (B s0); [now right|assumption]|].
      + destruct H1 as [<-|I]; [now apply safe_call|apply (B s'); [now left|exact I]].
      + destruct H1 as [E1|I]; [injection E1 as <- <-; auto|auto].
    - destruct (ext code) as [[mn n]|]; [|exact Hm]. apply safe_resolve; [exact Hm|]. intros v Hv. now apply safe_push.
    - exact Hm.
    - destruct s as [|v s]; [exact Hm|]. apply safe_mk; auto. intros j w [E|I]; [injection E as <- <-; apply A; now left|now apply (C j)].
    - destruct (find _ mm) as [[j v]|] eqn:E; [|exact Hm]. apply find_some in E as [I _]. apply safe_push; [now apply (C j)|exact Hm].
    - destruct s as [|v s]; [exact Hm|]. apply safe_mk; auto. intros w I. apply A. now right.
  Qed.
  Lemma stop_value op m v m' : safe_machine m -> step t ext op m = Stopped v m' -> safe v.
  Proof.
    intros [A B C D] E. destruct m as [s ms mm cs]. destruct op; cbn [step stack metastack memo calls] in E; unfold resolve, fail in E;
      repeat match type of E with context [match ?x with _ => _ end] => destruct x; try discriminate E end; try discriminate E. injection E as -> _. apply A. now left.
  Qed.
  Lemma safe_load ops : forall m, safe_machine m -> safe_machine (machine_of (load t ext ops m)) /\ forall v m', load t ext ops m = Stopped v m' -> safe v.
  Proof.
    induction ops as [|op ops IH]; intros m Hm; cbn [load]; [split; [exact Hm|discriminate]|]. pose proof (safe_step op m Hm) as S1. destruct (step t ext op m) as [m1|v m1|e m1] eqn:E.
    - now apply IH.
    - split; [exact S1|]. intros v' m' [= <- <-]. now apply (stop_value op m v m1).
    - split; [exact S1|discriminate].
  Qed.
  Lemma k_safe ops : (forall f a, In (f, a) (calls (machine_of (load t ext ops start))) -> only_safe t f /\ only_safe t a) /\ (forall v m, load t ext ops start = Stopped v m -> only_safe t v).
  Proof. destruct (safe_load ops start) as [[_ _ _ D] V]; [constructor; intros; contradiction|]. split; [exact D|exact V]. Qed.
  Lemma k_names pre op mn n rest : op = GLOBAL mn n \/ op = INST mn n -> ~ In STOP pre -> forall m0 v m, load t ext (pre ++ op :: rest) m0 = Stopped v m -> exists o, find_class t mn n = Some o.
  Proof.
    intros Hop. induction pre as [|a pre IH]; intros NS m0 v m E; cbn [app load] in E.
    - destruct Hop as [-> | ->]; cbn [step] in E; unfold resolve in E; destruct (find_class t mn n) as [o|]; eauto; [discriminate E|]. destruct (metastack m0); discriminate E.
    - destruct (step t ext a m0) as [m1|v1 m1|e1 m1] eqn:E1; [apply (IH (fun I => NS (or_intror I)) m1 v m E)| |discriminate E]. exfalso. apply NS. left. clear -E1. destruct a; cbn [step] in E1; unfold resolve, fail in E1; try reflexivity; repeat match type of E1 with context [match ?x with _ => _ end] => destruct x; try discriminate E1 end; discriminate E1.
  Qed.
End Machine.

Lemma k_monotone h : forall t m n, find_class t m n <> None -> find_class (fold_left register h t) m n <> None.
Proof. induction h as [|c h IH]; intros t m n H; cbn [fold_left]; [exact H|]. apply IH. unfold find_class, register in *. cbn [lookup]. destruct (String.eqb (classname c) (m ++ "." ++ n)); [discriminate|exact H]. Qed.
Lemma length_app_s a b : String.length (a ++ b) = String.length a + String.length b. Proof. induction a; cbn; congruence. Qed.
Lemma k_builtin t c : modname c = "builtins" -> quote_free (qualname c) -> find_class (register t c) (modname c) (qualname c) = find_class t (modname c) (qualname c).
Proof.
  intros E Q. unfold find_class, register. cbn [lookup]. rewrite classname_builtin by assumption. destruct (String.eqb_spec (qualname c) (modname c ++ "." ++ qualname c)) as [F|]; [|reflexivity]. apply (f_equal String.length) in F. rewrite !length_app_s in F. cbn in F. lia.
Qed.

(** *** The check for hooks *)
Lemma k_hooks : (forall h r, restricted_loads (LTensor h) = Some r <-> r = LTensor h /\ h = []) /\
  (forall ps ms fwd r, restricted_loads (LModule ps ms fwd) = Some r <-> r = LModule ps ms fwd /\ forall h, In h ps \/ In h ms -> h = []).
Proof.
  assert (E : forall h, empty_hooks h = true <-> h = []) by (intros [|a h]; split; try reflexivity; discriminate). split.
  - intros h r. cbn [restricted_loads]. destruct h as [|a h]; cbn [empty_hooks]; split; [intros [= <-]; auto|intros [-> _]; reflexivity|discriminate|intros [_ X]; discriminate].
  - intros ps ms fwd r. cbn [restricted_loads]. destruct (forallb empty_hooks ps && forallb empty_hooks ms) eqn:Q; split.
    + intros [= <-]. split; [reflexivity|]. apply andb_true_iff in Q as [A B]. rewrite forallb_forall in A, B. intros h [I|I]; apply E; auto.
    + intros [-> _]. reflexivity.
    + discriminate.
    + intros [_ H]. exfalso. apply andb_false_iff in Q as [Q|Q]; apply not_true_iff_false in Q; apply Q; apply forallb_forall; intros h I; apply E, H; auto.
Qed.

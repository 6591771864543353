(** C54: state dictionaries. *)
Require Import List String Ascii Bool Arith Lia.
From Verif Require Import Statedict.
Import ListNotations.
Open Scope string_scope.

(** Spec: a parameter (buffer) of a module or of a descendant, under its dotted path *)
Inductive has_param : module -> string -> nat -> Prop :=
| HOwn m n r : In (n, r) (m_params m) -> has_param m n r
| HChild m n c k r : In (n, c) (named_children m) -> has_param c k r -> has_param m (n ++ "." ++ k) r.
Inductive has_buffer : module -> string -> nat -> Prop :=
| BOwn m n r : In (n, r) (m_buffers m) -> has_buffer m n r
| BChild m n c k r : In (n, c) (named_children m) -> has_buffer c k r -> has_buffer m (n ++ "." ++ k) r.
Definition has_entry (m : module) (k : string) (r : nat) : Prop := has_param m k r \/ has_buffer m k r.
(** no two different tensors have the same path *)
Definition unambiguous (m : module) : Prop := forall k r r', has_entry m k r -> has_entry m k r' -> r = r'.
Inductive all_modules (P : module -> Prop) : module -> Prop :=
| AllM m : P m -> (forall n c, In (n, c) (named_children m) -> all_modules P c) -> all_modules P m.
(** the saved tensors can be copied into the module: every parameter has its own path and is saved with its size and kind, and tied parameters are saved with equal values *)
Record fits {V} (state : list (string * tensor V)) (e : bool) (m : module) (h : heap V) : Prop := {
  fits_flag : all_modules (fun c => m_encrypted c = e) m;
  fits_entry : forall k r, has_param m k r -> exists t, get k state = Some t /\ size t = size (h r) /\ encrypted_tensor t = e;
  fits_path : forall k r r', has_param m k r -> has_param m k r' -> r = r';
  fits_tied : forall k k' r t t', has_param m k r -> has_param m k' r -> get k state = Some t -> get k' state = Some t' -> value t = value t' }.

(** *** Induction over module trees *)
Section Ind.
  Variable P : module -> Prop.
  Hypothesis H : forall m, (forall n c, In (n, c) (named_children m) -> P c) -> P m.
  Lemma children_in l : forall memo n c, In (n, c) (children_from memo l) -> In (n, c) l.
  Proof. induction l as [|[n0 c0] l IH]; intros memo n c I; cbn [children_from] in I; [exact I|]. destruct (existsb _ memo); [right; eauto|]. destruct I as [E|I]; [now left|right; eauto]. Qed.
  Fixpoint module_rect' (m : module) : P m.
  Proof.
    destruct m as [i e p b cs]. apply H. intros n c I. cbn [named_children] in I. apply children_in in I. revert I. induction cs as [|x cs IHc]; intros I; [destruct I|]. destruct I as [E|I]; [|exact (IHc I)]. change c with (snd (n, c)). rewrite <- E. apply module_rect'.
  Defined.
End Ind.

(** *** The recursions over children *)
Lemma named_parameters_eq prefix m : named_parameters prefix m =
  (map (fun p => (match prefix with None => fst p | Some pre => (pre ++ "." ++ fst p)%string end, snd p)) (m_params m) ++
   flat_map (fun nc => named_parameters (Some (match prefix with None => fst nc | Some pre => (pre ++ "." ++ fst nc)%string end)) (snd nc)) (named_children m))%list.
Proof.
  destruct m as [i e p b cs]. cbn [named_parameters m_params named_children]. f_equal. generalize (@nil nat). induction cs as [|[n c] cs IH]; intros memo; [reflexivity|]. cbn [children_from]. destruct (existsb _ memo); [apply IH|]. cbn [flat_map fst snd]. now rewrite IH.
Qed.
Lemma state_dict_eq {V} (h : heap V) prefix m dest : state_dict h prefix m dest =
  fold_left (fun d nc => state_dict h (prefix ++ fst nc ++ ".") (snd nc) d) (named_children m) (puts (map (fun p => (prefix ++ fst p, h (snd p))) (m_buffers m)) (puts (map (fun p => (prefix ++ fst p, h (snd p))) (m_params m)) dest)).
Proof.
  destruct m as [i e p b cs]. cbn [state_dict m_params m_buffers named_children]. generalize (puts (map (fun p0 => (prefix ++ fst p0, h (snd p0))) b) (puts (map (fun p0 => (prefix ++ fst p0, h (snd p0))) p) dest)). generalize (@nil nat). induction cs as [|[n c] cs IH]; intros memo d; [reflexivity|]. cbn [children_from]. destruct (existsb _ memo); [apply IH|]. cbn [fold_left fst snd]. apply IH.
Qed.
Fixpoint load_children {V} (state : list (string * tensor V)) (strict : bool) (prefix : string) (l : list (string * module)) (h : heap V) : option error * heap V :=
  match l with [] => (None, h) | (n, c) :: l => match load state strict (prefix ++ n ++ ".") c h with (Some e, h) => (Some e, h) | (None, h) => load_children state strict prefix l h end end.
Lemma load_eq {V} (state : list (string * tensor V)) strict prefix m h : load state strict prefix m h =
  match load_module state strict prefix m h with (Some e, h) => (Some e, h) | (None, h) => load_children state strict prefix (named_children m) h end.
Proof.
  destruct m as [i e p b cs]. cbn [load named_children]. destruct (load_module state strict prefix (Mod i e p b cs) h) as [[er|] h']; [reflexivity|]. revert h'. generalize (@nil nat). induction cs as [|[n c] cs IH]; intros memo h'; [reflexivity|]. cbn [children_from]. destruct (existsb _ memo); [apply IH|]. cbn [load_children]. destruct (load state strict (prefix ++ n ++ ".") c h') as [[er|] h'']; [reflexivity|apply IH].
Qed.

Lemma app_assoc_s a b c : ((a ++ b) ++ c)%string = (a ++ (b ++ c))%string. Proof. induction a; cbn; congruence. Qed.
Lemma named_prefix m : forall p, named_parameters (Some p) m = map (fun q => (p ++ "." ++ fst q, snd q)) (named_parameters None m).
Proof.
  induction m as [m IH] using module_rect'. intros p. rewrite !named_parameters_eq. rewrite map_app, map_map. f_equal. cbn [fst snd]. assert (G : forall l, (forall n c, In (n, c) l -> In (n, c) (named_children m)) -> flat_map (fun nc => named_parameters (Some (p ++ "." ++ fst nc)) (snd nc)) l = map (fun q => (p ++ "." ++ fst q, snd q)) (flat_map (fun nc => named_parameters (Some (fst nc)) (snd nc)) l)); [|now apply G].
  induction l as [|[n c] l IHl]; intros Sub; [reflexivity|]. cbn [flat_map fst snd]. rewrite map_app, IHl by (intros; apply Sub; now right). f_equal. rewrite (IH n c) by (apply Sub; now left). rewrite (IH n c (Sub n c (or_introl eq_refl)) n), map_map. apply map_ext. intros [k r]. cbn [fst snd]. now rewrite !app_assoc_s.
Qed.
Lemma named_has m : forall k r, In (k, r) (named_parameters None m) <-> has_param m k r.
Proof.
  induction m as [m IH] using module_rect'. intros k r. rewrite named_parameters_eq, in_app_iff, in_map_iff, in_flat_map. split.
  - intros [([n r'] & E & I)|([n c] & I & J)]; cbn [fst snd] in *; [injection E as <- <-; now apply HOwn|]. rewrite named_prefix in J. apply in_map_iff in J as ([k' r'] & E & J). cbn [fst snd] in E. injection E as <- <-. apply (HChild m n c); [exact I|]. now apply (IH n c).
  - intros D. inversion D as [? n ? I|? n c k' ? I D']; subst; [left; exists (k, r); split; [reflexivity|exact I]|right]. exists (n, c). split; [exact I|]. cbn [fst snd]. rewrite named_prefix. apply in_map_iff. exists (k', r). split; [reflexivity|]. now apply (IH n c).
Qed.

(** *** Dictionaries *)
Lemma get_put {A} k (a : A) l j : get j (put k a l) = if String.eqb k j then Some a else get j l.
Proof.
  induction l as [|[i b] l IH]; cbn [put get]; [reflexivity|]. destruct (String.eqb_spec i k) as [E|N]; cbn [get].
  - destruct (String.eqb_spec k j) as [F|F]; [reflexivity|]. destruct (String.eqb_spec i j); [congruence|reflexivity].
  - rewrite IH. destruct (String.eqb_spec i j) as [F|F]; [|reflexivity]. destruct (String.eqb_spec k j); [congruence|reflexivity].
Qed.
Lemma get_puts {A} (new : list (string * A)) : forall l k, (exists a, In (k, a) new /\ get k (puts new l) = Some a) \/ ((forall a, ~ In (k, a) new) /\ get k (puts new l) = get k l).
Proof.
  induction new as [|[i b] new IH]; intros l k; cbn [puts fold_left]; [right; auto|]. destruct (IH (put i b l) k) as [(a & I & G)|[N G]]; [left; exists a; split; [now right|exact G]|]. cbn [fst snd] in *. change (fold_left _ new (put i b l)) with (puts new (put i b l)). rewrite G, get_put. destruct (String.eqb_spec i k) as [->|D]; [left; exists b; split; [now left|reflexivity]|right; split; [|reflexivity]]. intros a [E|I]; [congruence|now apply (N a)].
Qed.
Lemma in_put {A} k (a : A) l j b : In (j, b) (put k a l) -> (j = k /\ b = a) \/ In (j, b) l.
Proof. induction l as [|[i c] l IH]; cbn [put]; [intros [E|[]]; left; split; congruence|]. destruct (String.eqb_spec i k) as [->|N]; intros [E|I]; [left; split; congruence|right; now right|right; left; exact E|]. destruct (IH I) as [?|?]; [now left|right; now right]. Qed.
Lemma in_puts {A} (new : list (string * A)) : forall l k a, In (k, a) (puts new l) -> In (k, a) new \/ In (k, a) l.
Proof. induction new as [|[i b] new IH]; intros l k a I; cbn [puts fold_left] in I; [now right|]. destruct (IH _ _ _ I) as [J|J]; [left; now right|]. cbn [fst snd] in J. apply in_put in J as [[-> ->]|J]; [left; now left|now right]. Qed.
Lemma get_in {A} k (l : list (string * A)) a : get k l = Some a -> In (k, a) l.
Proof. induction l as [|[i b] l IH]; cbn [get]; [discriminate|]. destruct (String.eqb_spec i k) as [->|]; [intros [= ->]; now left|right; auto]. Qed.

(** *** Saving *)
Lemma saved {V} (h : heap V) m : forall prefix dest k,
  (exists k' r, k = prefix ++ k' /\ has_entry m k' r /\ get k (state_dict h prefix m dest) = Some (h r)) \/
  ((forall k' r, has_entry m k' r -> k <> prefix ++ k') /\ get k (state_dict h prefix m dest) = get k dest).
Proof.
  induction m as [m IH] using module_rect'. intros prefix dest k. rewrite state_dict_eq. set (d0 := puts _ (puts _ dest)).
  assert (Own : (exists k' r, k = prefix ++ k' /\ (In (k', r) (m_params m) \/ In (k', r) (m_buffers m)) /\ get k d0 = Some (h r)) \/ ((forall k' r, In (k', r) (m_params m) \/ In (k', r) (m_buffers m) -> k <> prefix ++ k') /\ get k d0 = get k dest)).
  { unfold d0. destruct (get_puts (map (fun p => (prefix ++ fst p, h (snd p))) (m_buffers m)) (puts (map (fun p => (prefix ++ fst p, h (snd p))) (m_params m)) dest) k) as [(a & I & G)|[N G]].
    - apply in_map_iff in I as ([k' r] & E & I). cbn [fst snd] in E. injection E as <- <-. left. exists k', r. auto.
    - rewrite G. destruct (get_puts (map (fun p => (prefix ++ fst p, h (snd p))) (m_params m)) dest k) as [(a & I & G')|[N' G']].
      + apply in_map_iff in I as ([k' r] & E & I). cbn [fst snd] in E. injection E as <- <-. left. exists k', r. auto.
      + right. split; [|exact G']. intros k' r [I|I] ->; [apply (N' (h r))|apply (N (h r))]; apply in_map_iff; exists (k', r); auto. }
  assert (Ch : forall l d, (forall n c, In (n, c) l -> In (n, c) (named_children m)) ->
    (exists n c k' r, In (n, c) l /\ k = prefix ++ n ++ "." ++ k' /\ has_entry c k' r /\ get k (fold_left (fun d nc => state_dict h (prefix ++ fst nc ++ ".") (snd nc) d) l d) = Some (h r)) \/
    ((forall n c k' r, In (n, c) l -> has_entry c k' r -> k <> prefix ++ n ++ "." ++ k') /\ get k (fold_left (fun d nc => state_dict h (prefix ++ fst nc ++ ".") (snd nc) d) l d) = get k d)).
  { induction l as [|[n c] l IHl]; intros d Sub; [right; split; [contradiction|reflexivity]|]. cbn [fold_left fst snd]. destruct (IHl (state_dict h (prefix ++ n ++ ".") c d)) as [(n' & c' & k' & r & I & E & D & G)|[N G]]; [intros; apply Sub; now right| |].
    - left. exists n', c', k', r. split; [now right|auto].
    - rewrite G. destruct (IH n c (Sub n c (or_introl eq_refl)) (prefix ++ n ++ ".") d k) as [(k' & r & E & D & G')|[N' G']].
      + left. exists n, c, k', r. split; [now left|]. rewrite !app_assoc_s in E. auto.
      + right. split; [|exact G']. intros n' c' k' r [E|I] D; [injection E as <- <-; intros E; apply (N' k' r D); now rewrite !app_assoc_s|now apply (N n' c' k' r)]. }
  destruct (Ch (named_children m) d0 (fun n c I => I)) as [(n & c & k' & r & I & E & D & G)|[N G]].
  - left. exists (n ++ "." ++ k'), r. split; [exact E|]. split; [|exact G]. destruct D as [D|D]; [left; now apply (HChild m n c)|right; now apply (BChild m n c)].
  - rewrite G. destruct Own as [(k' & r & E & D & G')|[N' G']].
    + left. exists k', r. split; [exact E|]. split; [|exact G']. destruct D; [left; now apply HOwn|right; now apply BOwn].
    + right. split; [|exact G']. intros k' r [D|D]; inversion D as [? n ? I|? n c k0 ? I D']; subst; [apply (N' k' r); auto|apply (N n c k0 r I); now left|apply (N' k' r); auto|apply (N n c k0 r I); now right].
Qed.
Lemma k_saved {V} (h : heap V) m : unambiguous m -> forall k t, get k (state_dict h "" m []) = Some t <-> exists r, has_entry m k r /\ t = h r.
Proof.
  intros U k t. destruct (saved h m "" [] k) as [(k' & r & E & D & G)|[N G]]; cbn [append] in *.
  - subst k'. rewrite G. split; [intros [= <-]; eauto|]. intros (r' & D' & ->). now rewrite (U k r r' D D').
  - rewrite G. split; [discriminate|]. intros (r & D & _). exfalso. now apply (N k r D).
Qed.

(** *** Loading *)
Lemma all_inv P m : all_modules P m -> P m /\ forall n c, In (n, c) (named_children m) -> all_modules P c.
Proof. intros D. inversion D; subst. auto. Qed.
Section Load.
  Context {V : Type}.
  Variables (state : list (string * tensor V)) (e strict : bool) (root : module) (h0 : heap V).
  Hypothesis F : fits state e root h0.
  Record progress (S : string -> nat -> Prop) (h : heap V) : Prop := {
    pr_meta : forall r, size (h r) = size (h0 r) /\ encrypted_tensor (h r) = encrypted_tensor (h0 r);
    pr_frame : forall r, (forall k, ~ has_param root k r) -> h r = h0 r;
    pr_loaded : forall k r t, S k r -> has_param root k r -> get k state = Some t -> value (h r) = value t }.
  Lemma progress_step S h k r t : progress S h -> has_param root k r -> get k state = Some t -> progress (fun k' r' => S k' r' \/ (k' = k /\ r' = r)) (write r (mkTensor (size (h r)) (encrypted_tensor (h r)) (value t)) h).
  Proof.
    intros [A B C] D G. constructor.
    - intros r'. unfold write. destruct (Nat.eqb_spec r' r) as [->|]; cbn [size encrypted_tensor]; apply A.
    - intros r' N. unfold write. destruct (Nat.eqb_spec r' r) as [->|]; [exfalso; exact (N k D)|now apply B].
    - intros k' r' t' H D' G'. unfold write. destruct (Nat.eqb_spec r' r) as [->|Nr]; cbn [value].
      + exact (fits_tied _ _ _ _ F k k' r t t' D D' G G').
      + destruct H as [H|[_ H]]; [now apply (C k' r' t')|contradiction].
  Qed.
  Lemma load_list prefix local : forall S h, progress S h -> (forall n r, In (n, r) local -> has_param root (prefix ++ n) r) ->
    exists h', load_parameters state e prefix local h = (None, h') /\ progress (fun k r => S k r \/ exists n, k = prefix ++ n /\ In (n, r) local) h'.
  Proof.
    induction local as [|[n r] local IH]; intros S h Pr Hl; [exists h; split; [reflexivity|]; destruct Pr as [A B C]; constructor; auto; intros k r t [H|(n & _ & [])]; now apply C|].
    cbn [load_parameters]. unfold load_parameter. pose proof (Hl n r (or_introl eq_refl)) as D. destruct (fits_entry _ _ _ _ F _ _ D) as (t & G & Sz & En). rewrite G. destruct (pr_meta _ _ Pr r) as [M1 M2]. destruct (list_eq_dec Nat.eq_dec (size t) (size (h r))) as [_|N]; [|exfalso; apply N; congruence]. rewrite En, Bool.eqb_reflx.
    destruct (IH _ _ (progress_step S h _ r t Pr D G)) as (h' & E & Pr'); [intros; apply Hl; now right|]. exists h'. split; [exact E|]. destruct Pr' as [A B C]. constructor; auto. intros k r' t' H D' G'. apply (C k r' t'); [|exact D'|exact G']. destruct H as [H|(n' & -> & [E'|I])]; [left; now left|injection E' as <- <-; left; right; auto|right; eauto].
  Qed.
  Lemma load_one prefix m S h : progress S h -> m_encrypted m = e -> (forall k r, has_param m k r -> has_param root (prefix ++ k) r) ->
    exists h', load_module state strict prefix m h = (None, h') /\ progress (fun k r => S k r \/ exists n, k = prefix ++ n /\ exists r', has_param m n r' /\ In (n, r) (puts (named_parameters None m) [])) h'.
  Proof.
    intros Pr En Sub. unfold load_module. assert (Lp : forall n r, In (n, r) (puts (named_parameters None m) []) -> has_param m n r) by (intros n r I; apply in_puts in I as [I|[]]; now apply named_has).
    replace (forallb _ (puts (named_parameters None m) [])) with true.
    2: { symmetry. apply forallb_forall. intros [n r] I. cbn [fst]. destruct (fits_entry _ _ _ _ F _ _ (Sub n r (Lp n r I))) as (t & G & _). now rewrite G. }
    rewrite andb_false_r, En. destruct (load_list prefix (puts (named_parameters None m) []) S h Pr) as (h' & E & Pr'); [intros n r I; apply Sub; now apply Lp|]. exists h'. split; [exact E|]. destruct Pr' as [A B C]. constructor; auto. intros k r t [H|(n & -> & r' & D & I)] D' G; [apply (C k r t)|apply (C (prefix ++ n) r t)]; eauto.
  Qed.
  Lemma load_tree m : forall prefix S h, progress S h -> all_modules (fun c => m_encrypted c = e) m -> (forall k r, has_param m k r -> has_param root (prefix ++ k) r) ->
    exists h', load state strict prefix m h = (None, h') /\ progress S h' /\ progress (fun k r => exists n, k = prefix ++ n /\ In (n, r) (puts (named_parameters None m) [])) h'.
  Proof.
    induction m as [m IH] using module_rect'. intros prefix S h Pr Al Sub. apply all_inv in Al as [En Ac]. rewrite load_eq. destruct (load_one prefix m S h Pr En Sub) as (h1 & E1 & P1). rewrite E1.
    set (T := fun k r => S k r \/ exists n, k = prefix ++ n /\ In (n, r) (puts (named_parameters None m) [])).
    assert (P1' : progress T h1). { destruct P1 as [A B C]. constructor; auto. intros k r t [H|(n & -> & I)] D G; [apply (C k r t); auto|apply (C (prefix ++ n) r t); auto]. right. exists n. split; [reflexivity|]. exists r. split; [|exact I]. apply in_puts in I as [I|[]]. now apply named_has. }
    assert (Ch : forall l h, (forall n c, In (n, c) l -> In (n, c) (named_children m)) -> progress T h -> exists h', load_children state strict prefix l h = (None, h') /\ progress T h').
    { induction l as [|[n c] l IHl]; intros h2 Sl P2; [exists h2; auto|]. cbn [load_children]. destruct (IH n c (Sl n c (or_introl eq_refl)) (prefix ++ n ++ ".") T h2 P2) as (h3 & E3 & P3 & _); [apply (Ac n); apply Sl; now left| |].
      - intros k r D. rewrite !app_assoc_s. apply Sub. apply (HChild m n c); [apply Sl; now left|exact D].
      - rewrite E3. apply IHl; [intros; apply Sl; now right|exact P3]. }
    destruct (Ch (named_children m) h1 (fun n c I => I) P1') as (h' & E & [A B C]). exists h'. split; [exact E|]. split; constructor; auto.
    - intros k r t H. apply C. now left.
    - intros k r t H. apply C. now right.
  Qed.
  Lemma k_load : exists h', load_state_dict (Some 1) state strict root h0 = (None, h') /\
    (forall k r t, has_param root k r -> get k state = Some t -> h' r = mkTensor (size (h0 r)) (encrypted_tensor (h0 r)) (value t)) /\ (forall r, (forall k, ~ has_param root k r) -> h' r = h0 r).
  Proof.
    destruct (load_tree root "" (fun _ _ => False) h0) as (h' & E & _ & [A B C]); [constructor; auto; intros; contradiction|apply (fits_flag _ _ _ _ F)|auto|]. exists h'. unfold load_state_dict. rewrite andb_false_r. split; [exact E|]. split; [|exact B]. intros k r t D G.
    destruct (A r) as [A1 A2]. assert (Vt : value (h' r) = value t).
    { destruct (get_puts (named_parameters None root) [] k) as [(r' & I & G')|[N _]]; [|exfalso; apply (N r); now apply named_has]. apply get_in in G'. apply named_has in I. rewrite (fits_path _ _ _ _ F k r r' D I) in D |- *. apply (C k r' t); [exists k; split; [reflexivity|exact G']|exact D|exact G]. }
    destruct (h' r) as [s1 e1 v1]. cbn [size encrypted_tensor value] in *. congruence.
  Qed.
End Load.

(** *** Round trip *)
Lemma k_round_trip {V} (hA hB : heap V) (A B : module) (e strict : bool) :
  unambiguous A -> unambiguous B -> all_modules (fun c => m_encrypted c = e) B ->
  (forall k r, has_param B k r -> exists r', has_param A k r' /\ size (hA r') = size (hB r) /\ encrypted_tensor (hA r') = e) ->
  (forall k k' r a a', has_param B k r -> has_param B k' r -> has_param A k a -> has_param A k' a' -> value (hA a) = value (hA a')) ->
  exists h', load_state_dict (Some 1) (state_dict hA "" A []) strict B hB = (None, h') /\
    (forall k a b, has_param A k a -> has_param B k b -> value (h' b) = value (hA a)) /\
    (forall r, size (h' r) = size (hB r) /\ encrypted_tensor (h' r) = encrypted_tensor (hB r)) /\
    (forall r, (forall k, ~ has_param B k r) -> h' r = hB r).
Proof.
  intros UA UB En Sk Ti. assert (Sv : forall k a, has_param A k a -> get k (state_dict hA "" A []) = Some (hA a)) by (intros k a D; apply (k_saved hA A UA); exists a; split; [now left|reflexivity]).
  assert (F : fits (state_dict hA "" A []) e B hB).
  { constructor; [exact En| | |].
    - intros k r D. destruct (Sk k r D) as (a & DA & S1 & S2). exists (hA a). auto.
    - intros k r r' D D'. apply (UB k); now left.
    - intros k k' r t t' D D' G G'. destruct (Sk k r D) as (a & DA & _). destruct (Sk k' r D') as (a' & DA' & _). rewrite (Sv k a DA) in G. rewrite (Sv k' a' DA') in G'. injection G as <-. injection G' as <-. exact (Ti k k' r a a' D D' DA DA'). }
  destruct (load_tree (state_dict hA "" A []) e strict B hB F B "" (fun _ _ => False) hB) as (h1 & E1 & _ & [M _ _]); [constructor; auto; intros; contradiction|exact En|auto|].
  destruct (k_load _ e strict B hB F) as (h' & E & L & Fr). exists h'. split; [exact E|]. split; [|split; [|exact Fr]].
  - intros k a b DA DB. now rewrite (L k b (hA a) DB (Sv k a DA)).
  - assert (h1 = h') as <- by (unfold load_state_dict in E; rewrite andb_false_r in E; congruence). exact M.
Qed.

(** *** Names without dots give unambiguous paths *)
Fixpoint dotless (s : string) : bool := match s with EmptyString => true | String c s => negb (Ascii.eqb c "."%char) && dotless s end.
Definition names_ok {A} (l : list (string * A)) : Prop := (forall n a, In (n, a) l -> dotless n = true) /\ (forall n a a', In (n, a) l -> In (n, a') l -> a = a').
Lemma dot_split a : forall b k k', dotless a = true -> dotless b = true -> a ++ "." ++ k = b ++ "." ++ k' -> a = b /\ k = k'.
Proof.
  induction a as [|c a IH]; intros [|d b] k k' Da Db E; cbn [append dotless] in *.
  - injection E as <-. auto.
  - injection E as Ed _. subst d. discriminate.
  - injection E as Ec _. subst c. discriminate.
  - injection E as Ec E. apply andb_true_iff in Da as [_ Da]. apply andb_true_iff in Db as [_ Db]. destruct (IH b k k' Da Db E). subst. auto.
Qed.
Lemma dot_has a k : dotless (a ++ "." ++ k) = false.
Proof. induction a as [|c a IH]; [reflexivity|]. change (negb (Ascii.eqb c "."%char) && dotless (a ++ "." ++ k) = false). now rewrite IH, andb_false_r. Qed.
Lemma k_dotless m : all_modules (fun c => names_ok (m_params c ++ m_buffers c)%list /\ names_ok (named_children c)) m -> unambiguous m.
Proof.
  induction m as [m IH] using module_rect'. intros Al. apply all_inv in Al as [[[D1 U1] [D2 U2]] Ac]. intros k r r' E E'.
  assert (Inv : forall k r, has_entry m k r -> In (k, r) (m_params m ++ m_buffers m)%list \/ exists n c k', In (n, c) (named_children m) /\ k = n ++ "." ++ k' /\ has_entry c k' r).
  { intros k0 r0 [D|D]; inversion D as [? n ? I|? n c k' ? I D']; subst.
    - left. apply in_app_iff. now left.
    - right. exists n, c, k'. split; [exact I|]. split; [reflexivity|now left].
    - left. apply in_app_iff. now right.
    - right. exists n, c, k'. split; [exact I|]. split; [reflexivity|now right]. }
  destruct (Inv k r E) as [I|(n & c & k1 & I & Ek & H1)]; destruct (Inv k r' E') as [I'|(n' & c' & k2 & I' & Ek' & H2)].
  - exact (U1 k r r' I I').
  - pose proof (D1 _ _ I) as X. rewrite Ek', dot_has in X. discriminate.
  - pose proof (D1 _ _ I') as X. rewrite Ek, dot_has in X. discriminate.
  - rewrite Ek in Ek'. apply dot_split in Ek' as [<- <-]; [|exact (D2 _ _ I)|exact (D2 _ _ I')]. rewrite <- (U2 _ _ _ I I') in H2. exact (IH n c I (Ac n c I) k1 r r' H1 H2).
Qed.

(** *** Dictionaries that do not fit *)
Lemma local_has {A} (l : list (string * A)) k a : In (k, a) l -> exists a', In (k, a') (puts l []).
Proof. intros I. destruct (get_puts l [] k) as [(a' & _ & G)|[N _]]; [exists a'; now apply get_in|exfalso; exact (N a I)]. Qed.
Lemma k_missing {V} version (state : list (string * tensor V)) m (h : heap V) k r : has_param m k r -> get k state = None -> load_state_dict version state true m h = (Some ValueError, h).
Proof.
  intros D G. unfold load_state_dict. destruct (match version with Some 1 => true | _ => false end); [|reflexivity]. cbn [andb negb]. apply named_has in D. apply local_has in D as (r' & I). rewrite load_eq. unfold load_module. replace (forallb _ (puts (named_parameters None m) [])) with false; [reflexivity|].
  symmetry. apply not_true_is_false. intros Q. rewrite forallb_forall in Q. specialize (Q _ I). cbn [fst append] in Q. rewrite G in Q. discriminate.
Qed.
Lemma load_parameters_missing {V} (state : list (string * tensor V)) e k r local : In (k, r) local -> get k state = None -> forall h, exists er h', load_parameters state e "" local h = (Some er, h').
Proof.
  intros I G. induction local as [|[n r'] local IH]; [contradiction|]. intros h. cbn [load_parameters append]. destruct (load_parameter state e n r' h) as [[er|] h'] eqn:E; [eauto|]. destruct I as [I|I]; [|now apply IH]. injection I as -> ->. unfold load_parameter in E. rewrite G in E. discriminate.
Qed.
Lemma k_missing_any {V} version (state : list (string * tensor V)) strict m (h : heap V) k r : has_param m k r -> get k state = None -> exists er h', load_state_dict version state strict m h = (Some er, h').
Proof.
  intros D G. destruct strict; [exists ValueError, h; now apply (k_missing version state m h k r)|]. unfold load_state_dict. cbn [andb]. apply named_has in D. apply local_has in D as (r' & I). rewrite load_eq. unfold load_module. cbn [andb]. destruct (load_parameters_missing state (m_encrypted m) k r' _ I G h) as (er & h' & E). rewrite E. eauto.
Qed.
Lemma k_version {V} version (state : list (string * tensor V)) m (h : heap V) : version <> Some 1 -> load_state_dict version state true m h = (Some ValueError, h).
Proof. intros N. unfold load_state_dict. destruct version as [[|[|v]]|]; try reflexivity. now contradict N. Qed.
Lemma k_version_any {V} version (state : list (string * tensor V)) m (h : heap V) : load_state_dict version state false m h = load_state_dict (Some 1) state false m h.
Proof. reflexivity. Qed.

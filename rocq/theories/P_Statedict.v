(** Theorems for C54. *)
Require Import List String Bool Arith.
From Verif Require Import Statedict Statedict_claims.
Import ListNotations.
Open Scope string_scope.

(** C54: the state dictionary holds the current tensor of every parameter and buffer of the module tree under its path, and nothing else. *)
Theorem C54_saved : forall V (h : heap V) m, unambiguous m -> forall k t, get k (state_dict h "" m []) = Some t <-> exists r, has_entry m k r /\ t = h r.
Proof. intros V h m. exact (k_saved h m). Qed.
Print Assumptions C54_saved.
(** C54: loading a dictionary that fits copies every parameter, keeps sizes and kinds, and changes no other tensor (in particular no buffer); strict or not. *)
Theorem C54_load : forall V (state : list (string * tensor V)) e strict m (h : heap V), fits state e m h ->
  exists h', load_state_dict (Some 1) state strict m h = (None, h') /\
    (forall k r t, has_param m k r -> get k state = Some t -> h' r = mkTensor (size (h r)) (encrypted_tensor (h r)) (value t)) /\
    (forall r, (forall k, ~ has_param m k r) -> h' r = h r).
Proof. intros V state e strict m h. exact (k_load state e strict m h). Qed.
Print Assumptions C54_load.
(** C54: saving one module and loading into another with the same parameters (tied ones having equal saved values) gives equal parameter values. *)
Theorem C54_round_trip : forall V (hA hB : heap V) (A B : module) (e strict : bool),
  unambiguous A -> unambiguous B -> all_modules (fun c => m_encrypted c = e) B ->
  (forall k r, has_param B k r -> exists r', has_param A k r' /\ size (hA r') = size (hB r) /\ encrypted_tensor (hA r') = e) ->
  (forall k k' r a a', has_param B k r -> has_param B k' r -> has_param A k a -> has_param A k' a' -> value (hA a) = value (hA a')) ->
  exists h', load_state_dict (Some 1) (state_dict hA "" A []) strict B hB = (None, h') /\
    (forall k a b, has_param A k a -> has_param B k b -> value (h' b) = value (hA a)) /\
    (forall r, size (h' r) = size (hB r) /\ encrypted_tensor (h' r) = encrypted_tensor (hB r)) /\
    (forall r, (forall k, ~ has_param B k r) -> h' r = hB r).
Proof. intros V hA hB A B e strict. exact (k_round_trip hA hB A B e strict). Qed.
Print Assumptions C54_round_trip.
(** C54: paths are unambiguous when no name contains a dot and each name is used once in a module. *)
Theorem C54_dotless : forall m, all_modules (fun c => names_ok (m_params c ++ m_buffers c)%list /\ names_ok (named_children c)) m -> unambiguous m.
Proof. exact k_dotless. Qed.
Print Assumptions C54_dotless.

(** C54: strict loading refuses a dictionary that lacks a parameter, and a dictionary without the right version, before it changes anything. *)
Theorem C54_missing : forall V version (state : list (string * tensor V)) m (h : heap V) k r, has_param m k r -> get k state = None -> load_state_dict version state true m h = (Some ValueError, h).
Proof. exact @k_missing. Qed.
Print Assumptions C54_missing.
Theorem C54_version : forall V version (state : list (string * tensor V)) m (h : heap V), version <> Some 1 -> load_state_dict version state true m h = (Some ValueError, h).
Proof. exact @k_version. Qed.
Print Assumptions C54_version.
(** C54 refuted for strict = False: the version is not looked at, but a missing parameter is still an error, now raised after other parameters may have been overwritten. *)
Theorem C54_not_strict_refuted : forall V version (state : list (string * tensor V)) m (h : heap V) k r, has_param m k r -> get k state = None ->
  (exists er h', load_state_dict version state false m h = (Some er, h')) /\ load_state_dict version state false m h = load_state_dict (Some 1) state false m h.
Proof. intros V version state m h k r D G. exact (conj (k_missing_any version state false m h k r D G) (k_version_any version state m h)). Qed.
Print Assumptions C54_not_strict_refuted.

(** a batch-normalised layer: weights 0, 1 and a running mean 2 in a child "bn", tied weight 0 *)
Definition bn : module := Mod 1 false [("weight", 1)] [("running_mean", 2)] [].
Definition net : module := Mod 0 false [("weight", 0); ("tied", 0)] [] [("bn", bn)].
Definition heap_of (v0 v1 v2 : nat) : heap nat := fun r => mkTensor [3] false (nth r [v0; v1; v2] 9).
Example C54_state_example : state_dict (heap_of 5 6 7) "" net [] = [("weight", mkTensor [3] false 5); ("tied", mkTensor [3] false 5); ("bn.weight", mkTensor [3] false 6); ("bn.running_mean", mkTensor [3] false 7)].
Proof. reflexivity. Qed.
Example C54_load_example : let (er, h') := load_state_dict (Some 1) (state_dict (heap_of 5 6 7) "" net []) true net (heap_of 0 0 0) in (er, map (fun r => value (h' r)) [0; 1; 2]) = (None, [5; 6; 0]).
Proof. reflexivity. Qed.
Lemma names_net : all_modules (fun c => names_ok (m_params c ++ m_buffers c)%list /\ names_ok (named_children c)) net.
Proof.
  assert (G : forall A (l : list (string * A)), NoDup (map fst l) -> forallb (fun p => dotless (fst p)) l = true -> names_ok l).
  { intros A l N D. split; [intros n a I; rewrite forallb_forall in D; exact (D _ I)|]. induction l as [|[i b] l IH]; [intros n a a' []|]. intros n a a' [E|I] [E'|I']; cbn [map fst] in N; inversion N as [|? ? N1 N2]; subst.
    - congruence.
    - injection E as -> ->. exfalso. apply N1. apply in_map_iff. now exists (n, a').
    - injection E' as -> ->. exfalso. apply N1. apply in_map_iff. now exists (n, a).
    - apply (IH N2) with n; auto. cbn [forallb] in D. now apply andb_true_iff in D as [_ D]. }
  constructor; [split; apply G; try reflexivity; repeat constructor; cbn; intuition discriminate|]. intros n c [E|[]]. injection E as <- <-. constructor; [split; apply G; try reflexivity; repeat constructor; cbn; intuition discriminate|]. intros n c [].
Qed.
Lemma net_params k r : has_param net k r -> (k = "weight" /\ r = 0) \/ (k = "tied" /\ r = 0) \/ (k = "bn.weight" /\ r = 1).
Proof. intros D. apply named_has in D. cbn in D. destruct D as [E|[E|[E|[]]]]; injection E as <- <-; auto. Qed.
(** the hypotheses of the round trip hold of this module, with tied weights *)
Example C54_round_trip_applies : exists h', load_state_dict (Some 1) (state_dict (heap_of 5 6 7) "" net []) true net (heap_of 0 0 0) = (None, h') /\ value (h' 1) = 6 /\ h' 2 = mkTensor [3] false 0.
Proof.
  destruct (C54_round_trip nat (heap_of 5 6 7) (heap_of 0 0 0) net net false true) as (h' & E & L & _ & F).
  - apply C54_dotless, names_net.
  - apply C54_dotless, names_net.
  - constructor; [reflexivity|]; intros n c [X|[]]; injection X as <- <-; constructor; [reflexivity|intros ? ? []].
  - intros k r D. exists r. auto.
  - intros k k' r a a' D1 D2 D3 D4. apply net_params in D1, D2, D3, D4. destruct D1 as [[-> ->]|[[-> ->]|[-> ->]]], D3 as [[X ->]|[[X ->]|[X ->]]]; try discriminate X; clear X; destruct D2 as [[-> X]|[[-> X]|[-> X]]]; try discriminate X; clear X; destruct D4 as [[X ->]|[[X ->]|[X ->]]]; try discriminate X; reflexivity.
  - exists h'. split; [exact E|]. split.
    + apply (L "bn.weight" 1 1); apply named_has; cbn; auto.
    + apply F. intros k D. apply net_params in D. destruct D as [[_ X]|[[_ X]|[_ X]]]; discriminate X.
Qed.

(** a dictionary with the first weight only *)
Example C54_missing_case : has_param net "bn.weight" 1 /\ get "bn.weight" [("weight", mkTensor [3] false 5)] = None /\ load_state_dict (Some 1) [("weight", mkTensor [3] false 5)] true net (heap_of 0 0 0) = (Some ValueError, heap_of 0 0 0) /\
  (let (er, h') := load_state_dict (Some 1) [("weight", mkTensor [3] false 5)] false net (heap_of 0 0 0) in (er, map (fun r => value (h' r)) [0; 1])) = (Some KeyError, [5; 0]).
Proof. split; [apply named_has; cbn; auto|]. repeat split. Qed.
(** C54 refuted for buffers: loading a module's own saved state does not restore a running mean, though the dictionary holds it. *)
Theorem C54_buffers_refuted : exists (m : module) (hA hB : heap nat), unambiguous m /\ has_buffer m "bn.running_mean" 2 /\
  get "bn.running_mean" (state_dict hA "" m []) = Some (hA 2) /\ value (hA 2) <> value (hB 2) /\
  fst (load_state_dict (Some 1) (state_dict hA "" m []) true m hB) = None /\ value (snd (load_state_dict (Some 1) (state_dict hA "" m []) true m hB) 2) = value (hB 2).
Proof.
  exists net, (heap_of 5 6 7), (heap_of 0 0 0). split; [apply C54_dotless, names_net|]. split; [apply (BChild net "bn" bn "running_mean"); [now left|apply BOwn; now left]|]. repeat split. discriminate.
Qed.
Print Assumptions C54_buffers_refuted.
(** C54 refuted: strict loading accepts a dictionary with keys the module does not have. *)
Theorem C54_strict_unexpected_refuted : exists (m : module) (state : list (string * tensor nat)) (h : heap nat) k, (forall r, ~ has_entry m k r) /\ get k state <> None /\ fst (load_state_dict (Some 1) state true m h) = None.
Proof.
  exists bn, [("weight", mkTensor [3] false 4); ("bias", mkTensor [3] false 4)], (heap_of 0 0 0), "bias". split; [|split; [discriminate|reflexivity]].
  intros r [D|D]; inversion D as [? n ? I|? n c k' ? I D']; subst; cbn in I; intuition discriminate.
Qed.
Print Assumptions C54_strict_unexpected_refuted.
(** C54 refuted: a load that raises may have overwritten parameters already. *)
Theorem C54_failed_load_refuted : exists (m : module) (state : list (string * tensor nat)) (h : heap nat) r, fst (load_state_dict (Some 1) state true m h) = Some ValueError /\ value (snd (load_state_dict (Some 1) state true m h) r) <> value (h r).
Proof. exists net, [("weight", mkTensor [3] false 4); ("tied", mkTensor [3] false 4); ("bn.weight", mkTensor [2] false 4)], (heap_of 0 0 0), 0. split; [reflexivity|discriminate]. Qed.
Print Assumptions C54_failed_load_refuted.
(** C54 refuted for names with dots: a parameter "a.b" beside a child "a" with a parameter "b" is not restored. *)
Theorem C54_dotted_refuted : exists (m : module) (hA hB : heap nat), has_param m "a.b" 0 /\ has_param m "a.b" 1 /\
  let (er, h') := load_state_dict (Some 1) (state_dict hA "" m []) true m hB in er = None /\ value (h' 0) <> value (hA 0).
Proof.
  exists (Mod 0 false [("a.b", 0)] [] [("a", Mod 1 false [("b", 1)] [] [])]), (heap_of 5 6 7), (heap_of 0 0 0). split; [apply HOwn; now left|]. split; [apply (HChild _ "a" (Mod 1 false [("b", 1)] [] []) "b"); [now left|apply HOwn; now left]|]. split; [reflexivity|discriminate].
Qed.
Print Assumptions C54_dotted_refuted.

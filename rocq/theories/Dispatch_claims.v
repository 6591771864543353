(** C100: which calls are recorded for backpropagation: specification and proofs. *)
Require Import String List Bool Arith Lia.
From Verif Require Import Dispatch.
Import ListNotations.
Open Scope string_scope.

(** *** Specification *)
(** the tensors in an argument, in order; arguments without a dict *)
Fixpoint tensors (a : arg) : list nat := match a with Ten i => [i] | Plain _ => [] | Seq l => flat_map tensors l | Dict l => flat_map tensors l end.
Fixpoint no_dict (a : arg) : bool := match a with Ten _ => true | Plain _ => true | Seq l => forallb no_dict l | Dict _ => false end.
(** names of functions that are not in-place, and have no special treatment *)
Definition ordinary (n : string) : Prop := n <> "" /\ mem n protected = false /\ n <> "copy_" /\ in_place (assoc n builtins) = false.
(** the parameters of an AutogradFunction that get a gradient, in order: encrypted ones by their identity, or plain; those that are tracked; what they should get *)
Definition tracked_of (params : list (option nat)) : list nat := flat_map (fun p => match p with Some i => [i] | None => [] end) params.
Definition intended {G} (params : list (option nat)) (gs : list G) : list (nat * G) := flat_map (fun e => match fst e with Some i => [(i, snd e)] | None => [] end) (combine params gs).
Definition encrypted_first (params : list (option nat)) : Prop := exists l m, params = (map Some l ++ repeat None m)%list.

Section arg_ind.
  Variable P : arg -> Prop.
  Hypotheses (HT : forall i, P (Ten i)) (HP : forall b, P (Plain b)) (HS : forall l, Forall P l -> P (Seq l)) (HD : forall l, Forall P l -> P (Dict l)).
  Fixpoint arg_induction (a : arg) : P a :=
    match a with
    | Ten i => HT i | Plain b => HP b
    | Seq l => HS l ((fix all l : Forall P l := match l with [] => Forall_nil P | a :: l => Forall_cons a (arg_induction a) (all l) end) l)
    | Dict l => HD l ((fix all l : Forall P l := match l with [] => Forall_nil P | a :: l => Forall_cons a (arg_induction a) (all l) end) l)
    end.
End arg_ind.

Section C.
  Variables (rows : nat -> nat) (requires : nat -> bool) (own registered : string -> bool) (differentiable : string -> list bool).
  Notation find := (find rows). Notation find_all := (find_all rows).
  Lemma find_seq l : find (Seq l) = find_all l. Proof. induction l as [|a l IH]; [reflexivity|]. cbn [Dispatch.find_all]. rewrite <- IH. reflexivity. Qed.
  Lemma find_tensors a : no_dict a = true -> find a = Some (map Known (tensors a)).
  Proof.
    induction a as [i|b|l IH|l IH] using arg_induction; intros N; try reflexivity; [|discriminate]. rewrite find_seq. cbn [no_dict tensors] in *. induction IH as [|a l H IH IHl]; [reflexivity|]. cbn [forallb] in N. apply andb_prop in N as [N1 N2]. cbn [Dispatch.find_all flat_map]. rewrite (H N1), (IHl N2). cbn [append_found]. now rewrite map_app.
  Qed.
  Lemma find_all_tensors l : forallb no_dict l = true -> find_all l = Some (map Known (flat_map tensors l)).
  Proof. intros N. rewrite <- find_seq. now apply (find_tensors (Seq l)). Qed.
  Lemma needs_known l : existsb (needs requires) (map Known l) = existsb requires l. Proof. induction l as [|a l IH]; [reflexivity|]. cbn. now rewrite IH. Qed.
  Lemma ordinary_lookup e r n : ordinary n -> lookup own registered e r n = lookup_plain own registered e (assoc n builtins).
  Proof. intros (N & P & C & I). unfold lookup. rewrite P. destruct (String.eqb_spec n "copy_"); [contradiction|]. now rewrite I. Qed.

  (** C100: a call with autograd on records self and all tensors among the positional arguments, in order, if one of them requires a gradient; otherwise nothing, and the method of the object is run if there is one. *)
  Lemma k_C100_recorded self n args kwargs : ordinary n -> registered (assoc n builtins) = true -> forallb no_dict args = true ->
    call rows requires own registered differentiable true self n args kwargs =
      (if existsb requires (self :: flat_map tensors args) then Runs (Forward (assoc n builtins)) (Some (differentiable (assoc n builtins), map Known (self :: flat_map tensors args)))
       else if own (assoc n builtins) then Runs (Method (assoc n builtins) false) None
       else if mem (assoc n builtins) required then Fails NoAttribute else Runs (Forward (assoc n builtins)) None, false).
  Proof.
    intros O R N. unfold call. rewrite (ordinary_lookup _ _ _ O). unfold lookup_plain. rewrite R. cbn [negb]. unfold autograd_forward. rewrite (find_all_tensors _ N). change (Known self :: map Known (flat_map tensors args)) with (map Known (self :: flat_map tensors args)). rewrite needs_known.
    destruct (existsb requires _); [reflexivity|]. unfold lookup_plain. rewrite R. cbn [negb]. destruct (own _); [reflexivity|]. now destruct (mem _ _).
  Qed.
  (** C100: with autograd off nothing is recorded, and the method of the object is run if there is one. *)
  Lemma k_C100_off self n args kwargs : ordinary n -> registered (assoc n builtins) = true ->
    call rows requires own registered differentiable false self n args kwargs =
      (if own (assoc n builtins) then Runs (Method (assoc n builtins) false) None
       else if mem (assoc n builtins) required then Fails NoAttribute else Runs (Forward (assoc n builtins)) None, false).
  Proof.
    intros O R. unfold call. rewrite (ordinary_lookup _ _ _ O). unfold lookup_plain. rewrite R. cbn [negb]. destruct (own _); [reflexivity|]. now destruct (mem _ _).
  Qed.
  (** C100: autograd never says that a function has no gradient: of a tracked tensor, the result of a function on shares without a registered gradient does not require a gradient. *)
  Lemma k_C100_direct_refuted self n args kwargs : ordinary n -> registered (assoc n builtins) = false -> own (assoc n builtins) = true -> mem (assoc n builtins) direct = true ->
    returned_requires requires self (call rows requires own registered differentiable true self n args kwargs) = Some false.
  Proof. intros O R W D. unfold call. rewrite (ordinary_lookup _ _ _ O). unfold lookup_plain. rewrite R, W. cbn [negb returned_requires]. now rewrite D. Qed.
  Lemma k_C100_no_error e r n : lookup own registered e r n <> Error NotImplemented.
  Proof.
    unfold lookup, lookup_plain. destruct (mem n protected); [discriminate|]. destruct (String.eqb n "copy_"); [discriminate|]. cbv zeta. destruct (in_place _); [destruct (_ && _); discriminate|]. destruct (negb _); [destruct (own _); discriminate|]. destruct e; [discriminate|]. destruct (own _); [discriminate|]. destruct (mem _ _); discriminate.
  Qed.
  (** C100: keyword arguments are never recorded. *)
  Lemma k_C100_keyword e self n args kwargs : call rows requires own registered differentiable e self n args kwargs = call rows requires own registered differentiable e self n args [].
  Proof. reflexivity. Qed.
  Lemma k_C100_keyword_refuted self n y : ordinary n -> registered (assoc n builtins) = true -> requires self = false -> requires y = true -> own (assoc n builtins) = true -> mem (assoc n builtins) direct = true -> existsb (fun b => b) (differentiable (assoc n builtins)) = true ->
    returned_requires requires self (call rows requires own registered differentiable true self n [Ten y] []) = Some true /\ returned_requires requires self (call rows requires own registered differentiable true self n [] [Ten y]) = Some false.
  Proof.
    intros O R S Y W D Df. rewrite !k_C100_recorded by (assumption || reflexivity). cbn [flat_map tensors app existsb]. rewrite S, Y, W. cbn [orb returned_requires]. now rewrite D, Df.
  Qed.
  (** C100: tensors in a dict are not recorded either: its values are iterated over. *)
  Lemma k_C100_dict_refuted self n y : ordinary n -> registered (assoc n builtins) = true -> requires self = false -> requires y = true -> own (assoc n builtins) = true -> mem (assoc n builtins) direct = true ->
    returned_requires requires self (call rows requires own registered differentiable true self n [Dict [Ten y]] []) = Some false /\ call rows requires own registered differentiable true self n [Dict [Plain false]] [] = (Fails NotIterable, false).
  Proof.
    intros O R S Y W D. unfold call. rewrite (ordinary_lookup _ _ _ O). unfold lookup_plain. rewrite R. cbn [negb]. split; [|reflexivity]. unfold autograd_forward. cbn [Dispatch.find_all Dispatch.find append_found]. rewrite !app_nil_r. cbn [existsb needs]. rewrite S. cbn [orb].
    assert (E : existsb (needs requires) (repeat Row (rows y)) = false) by (induction (rows y) as [|k IH]; [reflexivity|exact IH]). rewrite E. unfold lookup_plain. rewrite R, W. cbn [negb returned_requires]. now rewrite D.
  Qed.
End C.

(** *** In-place functions *)
Lemma length_app a b : String.length (a ++ b) = String.length a + String.length b. Proof. induction a as [|c a IH]; [reflexivity|]. cbn. now rewrite IH. Qed.
Lemma substring_all b : substring 0 (String.length b) b = b. Proof. induction b as [|c b IH]; [reflexivity|]. cbn. now rewrite IH. Qed.
Lemma substring_front a b : substring 0 (String.length a) (a ++ b) = a. Proof. induction a as [|c a IH]; [now destruct b|]. cbn. now rewrite IH. Qed.
Lemma substring_back a b k : substring (String.length a) k (a ++ b) = substring 0 k b. Proof. induction a as [|c a IH]; [reflexivity|exact IH]. Qed.
Lemma chop_add a : chop (a ++ "_") = a.
Proof. unfold chop. rewrite length_app. cbn [String.length]. rewrite Nat.add_sub. apply substring_front. Qed.
Lemma ends_add a : ends_with "_" (a ++ "_") = true.
Proof. unfold ends_with. rewrite length_app. cbn [String.length]. rewrite Nat.add_sub, substring_back. cbn. rewrite Nat.add_comm. reflexivity. Qed.
Lemma string_split a k : k <= String.length a -> exists x y, a = x ++ y /\ String.length x = k.
Proof. revert k. induction a as [|c a IH]; intros [|k] H; cbn in H; try lia; [exists "", ""; auto|exists "", (String c a); auto|]. destruct (IH k ltac:(lia)) as (x & y & -> & L). exists (String c x), y. split; [reflexivity|]. cbn. now rewrite L. Qed.
Lemma app_assoc_s a b c : ((a ++ b) ++ c = a ++ b ++ c)%string. Proof. induction a as [|x a IH]; [reflexivity|]. cbn. now rewrite IH. Qed.
Lemma ends_back s x y : String.length s = String.length y -> ends_with s (x ++ y) = String.eqb y s.
Proof.
  intros E. unfold ends_with. rewrite length_app, E, Nat.add_sub, substring_back, substring_all. destruct (Nat.leb_spec (String.length y) (String.length x + String.length y)); [reflexivity|lia].
Qed.
Lemma ends_two a : ends_with "_" a = false -> a <> "" -> ends_with "__" (a ++ "_") = false.
Proof.
  intros E N. destruct (string_split a (String.length a - 1)) as (x & y & -> & L); [lia|]. rewrite length_app in L. assert (Ly : String.length y = 1). { destruct (String.length y) as [|[|]] eqn:Q; try lia. exfalso. apply N. destruct y; [|discriminate]. destruct x; [reflexivity|]. cbn in L. lia. }
  destruct y as [|c [|]]; try discriminate Ly. clear L Ly N. rewrite app_assoc_s. rewrite ends_back in * by (cbn; lia). cbn in *. match type of E with (if ?b then _ else _) = _ => destruct b end; [discriminate E|reflexivity].
Qed.
Lemma builtin_in_place a : a <> "" -> ends_with "_" a = false -> assoc (a ++ "_") builtins = (a ++ "_")%string.
Proof.
  intros N E. unfold builtins. pose proof (ends_two a E N) as Z. assert (K : forall s, ends_with "__" s = true -> String.eqb (a ++ "_") s = false) by (intros s Hs; destruct (String.eqb_spec (a ++ "_") s) as [<-|]; [congruence|reflexivity]).
  cbn [assoc]. rewrite !K by reflexivity. reflexivity.
Qed.
Section I.
  Variables (rows : nat -> nat) (requires : nat -> bool) (own registered : string -> bool) (differentiable : string -> list bool).
  (** C100: x.f_(…) raises an error if autograd is on and x requires a gradient; otherwise it computes x.f(…) and copies the result into x. *)
  Lemma k_C100_in_place e self n args kwargs : ordinary n -> n <> "detach" -> n <> "copy" -> ends_with "_" n = false ->
    call rows requires own registered differentiable e self (n ++ "_") args kwargs =
      if e && requires self then (Fails NoInPlace, false) else (fst (call rows requires own registered differentiable e self n args kwargs), true).
  Proof.
    intros O D C E. destruct O as (N & P & C' & I). unfold call at 1, lookup.
    assert (Q : forall s, chop s <> n -> String.eqb (n ++ "_") s = false) by (intros s Hs; destruct (String.eqb_spec (n ++ "_") s) as [<-|]; [rewrite chop_add in Hs; congruence|reflexivity]).
    assert (M : mem (n ++ "_") protected = false).
    { unfold mem, protected. cbn [existsb]. assert (G : forall s, ends_with "_" s = false \/ chop s <> n -> String.eqb (n ++ "_") s = false) by (intros s [Hs|Hs]; [destruct (String.eqb_spec (n ++ "_") s) as [<-|]; [rewrite ends_add in Hs; discriminate|reflexivity]|now apply Q]).
      rewrite (G "__dict__") by (right; intros <-; discriminate E). rewrite (G "__class__") by (right; intros <-; discriminate E). rewrite (G "detach_") by (right; intros <-; now apply D). rewrite !G by (left; reflexivity). reflexivity. }
    rewrite M. rewrite (Q "copy_") by (intros <-; now apply C). rewrite (builtin_in_place n N E). unfold in_place at 1. rewrite ends_add, (ends_two n E N). cbn [andb negb]. destruct (e && requires self); [reflexivity|]. rewrite chop_add, P. f_equal.
    unfold call. rewrite (ordinary_lookup own registered e (requires self) n) by (repeat split; assumption). unfold call_plain. unfold lookup_plain. destruct (negb (registered (assoc n builtins))); [destruct (own (assoc n builtins)); reflexivity|]. destruct e; [reflexivity|]. destruct (own (assoc n builtins)); [reflexivity|]. now destruct (mem (assoc n builtins) required).
  Qed.
  (** C100: it thereby loses the gradient of the arguments: x.f(y) requires a gradient and x.f_(y) does not, without an error. *)
  Lemma k_C100_in_place_refuted self y n : ordinary n -> n <> "detach" -> n <> "copy" -> ends_with "_" n = false -> registered (assoc n builtins) = true -> requires self = false -> requires y = true -> existsb (fun b => b) (differentiable (assoc n builtins)) = true ->
    returned_requires requires self (call rows requires own registered differentiable true self n [Ten y] []) = Some true /\ returned_requires requires self (call rows requires own registered differentiable true self (n ++ "_") [Ten y] []) = Some false.
  Proof.
    intros O D C E R S Y Df. rewrite k_C100_in_place by assumption. rewrite k_C100_recorded by (assumption || reflexivity). cbn [flat_map tensors app existsb]. rewrite S, Y. cbn [orb andb fst returned_requires]. now rewrite Df, S.
  Qed.
End I.

(** *** The gradients that children get *)
Lemma tracked_some l : tracked_of (map Some l) = l. Proof. induction l as [|a l IH]; [reflexivity|]. cbn. unfold tracked_of in IH. now rewrite IH. Qed.
Lemma tracked_none m : tracked_of (repeat None m) = []. Proof. induction m as [|m IH]; [reflexivity|exact IH]. Qed.
Lemma tracked_app a b : tracked_of (a ++ b)%list = (tracked_of a ++ tracked_of b)%list. Proof. unfold tracked_of. apply flat_map_app. Qed.
Lemma tracked_length params : length (tracked_of params) <= length params. Proof. induction params as [|[i|] l IH]; cbn; [lia| |]; unfold tracked_of in IH; lia. Qed.
(** C100: every encrypted argument gets its own gradient, whatever the gradients, exactly if no plain argument that would get a gradient comes before an encrypted one. *)
Lemma k_C100_alignment params : (forall (gs : list nat), length gs = length params -> hand_out (tracked_of params) gs = Some (intended params gs)) <-> encrypted_first params.
Proof.
  split.
  - intros H. specialize (H (seq 0 (length params)) (seq_length _ _)). unfold hand_out in H. destruct (Nat.leb_spec (length (tracked_of params)) (length (seq 0 (length params)))) as [_|L]; [|discriminate]. injection H as H.
    assert (K : forall a, combine (tracked_of params) (seq a (length params)) = intended params (seq a (length params)) -> encrypted_first params); [|exact (K 0 H)]. clear H.
    induction params as [|[i|] l IH]; intros a H; [exists [], 0; reflexivity| |].
    + cbn [tracked_of flat_map app length seq combine intended fst snd] in H. injection H as H. destruct (IH (S a) H) as (m & k & ->). exists (i :: m), k. reflexivity.
    + destruct (tracked_of l) as [|j t] eqn:T.
      * clear H IH. exists [], (S (length l)). cbn. f_equal. clear a. revert T. induction l as [|[x|] l IH]; intros T; [reflexivity|discriminate|]. cbn. f_equal. now apply IH.
      * exfalso. cbn [tracked_of flat_map app] in H. change (flat_map _ l) with (tracked_of l) in H. rewrite T in H. cbn [length seq combine intended flat_map fst snd app] in H.
        assert (Z : forall (q : list (option nat)) b e, In e (intended q (seq b (length q))) -> b <= snd e). { clear. induction q as [|o q IH]; intros b e I; [destruct I|]. cbn [length seq] in I. unfold intended in I. cbn [combine flat_map fst snd] in I. apply in_app_or in I as [I|I]; [destruct o; [destruct I as [<-|[]]; cbn; lia|destruct I]|]. apply IH in I. lia. }
        specialize (Z l (S a) (j, a)). change (flat_map _ (combine l (seq (S a) (length l)))) with (intended l (seq (S a) (length l))) in H. rewrite <- H in Z. specialize (Z (or_introl eq_refl)). cbn in Z. lia.
  - intros (l & m & ->) gs L. unfold hand_out. rewrite tracked_app, tracked_some, tracked_none, app_nil_r. rewrite app_length, map_length, repeat_length in L. destruct (Nat.leb_spec (length l) (length gs)); [|lia]. f_equal. clear H. revert gs L. induction l as [|i l IH]; intros gs L.
    + cbn [combine map app]. symmetry. clear L. revert gs. induction m as [|m IH]; intros [|g gs]; try reflexivity. unfold intended in *. cbn. apply IH.
    + destruct gs as [|g gs]; [cbn in L; lia|]. unfold intended in *. cbn [combine map app flat_map fst snd]. f_equal. apply IH. cbn in L. lia.
Qed.
(** C100: x.batchnorm(weight, bias) with a plain weight and an encrypted bias: the bias gets the gradient of the weight. *)
Lemma k_C100_alignment_refuted {G} x bias (gx gw gb : G) : hand_out (tracked_of [Some x; None; Some bias]) [gx; gw; gb] = Some [(x, gx); (bias, gw)].
Proof. reflexivity. Qed.

(** *** The functions of an MPCTensor *)
Section M.
  Variables (rows : nat -> nat) (requires : nat -> bool) (differentiable : string -> list bool).
  Definition has (n : string) := mem n methods. Definition has_gradient (n : string) := mem n registry.
  Lemma mem_in n l : mem n l = true -> In n l.
  Proof. unfold mem. intros M. apply existsb_exists in M as (x & I & E). apply String.eqb_eq in E. now subst. Qed.
  Lemma registered_facts n : In n registry -> ordinary n /\ assoc n builtins = n /\ has_gradient n = true /\ n <> "detach" /\ n <> "copy" /\ (has n = true \/ mem n required = false).
  Proof.
    intros I. assert (forallb (fun n => negb (String.eqb n "") && negb (mem n protected) && negb (String.eqb n "copy_") && negb (in_place (assoc n builtins)) && String.eqb (assoc n builtins) n && has_gradient n && negb (String.eqb n "detach") && negb (String.eqb n "copy") && (has n || negb (mem n required))) registry = true) as F by (vm_compute; reflexivity).
    rewrite forallb_forall in F. specialize (F n I). rewrite !andb_true_iff, !negb_true_iff in F. destruct F as ((((((((A & B) & C) & D) & E) & G) & K) & L) & M). apply String.eqb_eq in E. apply String.eqb_neq in A, C, K, L. unfold ordinary. rewrite E in *. apply orb_prop in M. rewrite negb_true_iff in M. tauto.
  Qed.
  Notation tcall := (call rows requires has has_gradient differentiable).

  (** C100: a call of a function with a gradient: what is run and what is recorded. *)
  Lemma k_C100_call enabled self n args kwargs : In n registry -> forallb no_dict args = true ->
    tcall enabled self n args kwargs =
      (if enabled && existsb requires (self :: flat_map tensors args) then Runs (Forward n) (Some (differentiable n, map Known (self :: flat_map tensors args)))
       else if has n then Runs (Method n false) None else Runs (Forward n) None, false).
  Proof.
    intros I N. destruct (registered_facts n I) as (O & A & G & _ & _ & R). destruct enabled.
    - rewrite k_C100_recorded by (rewrite ?A; assumption). rewrite A. cbn [andb]. destruct (existsb _ _); [reflexivity|]. destruct (has n); [reflexivity|]. destruct R as [R|R]; [discriminate|]. now rewrite R.
    - rewrite k_C100_off by (rewrite ?A; assumption). rewrite A. cbn [andb]. destruct (has n); [reflexivity|]. destruct R as [R|R]; [discriminate|]. now rewrite R.
  Qed.
  (** C100: crypten.cat and crypten.stack: the tensors of the sequence are recorded. *)
  Lemma k_C100_static enabled n args kwargs : In n ["cat"; "stack"] -> forallb no_dict args = true ->
    call_plain rows requires has has_gradient differentiable enabled None n args kwargs =
      if enabled && existsb requires (flat_map tensors args) then Runs (Forward n) (Some (differentiable n, map Known (flat_map tensors args))) else Runs (Method n false) None.
  Proof.
    intros I N. assert (H : has n = true /\ has_gradient n = true) by (destruct I as [<-|[<-|[]]]; split; reflexivity). destruct H as [H G]. unfold call_plain, lookup_plain. rewrite G, H. cbn [negb]. destruct enabled; [|reflexivity]. unfold autograd_forward. rewrite (find_all_tensors rows _ N), needs_known. cbn [andb]. destruct (existsb requires _); [reflexivity|]. unfold lookup_plain. now rewrite G, H.
  Qed.
  (** C100: x.f_(…): an error, or x.f(…) copied into x. *)
  Lemma k_C100_call_in_place enabled self n args kwargs : In n registry -> ends_with "_" n = false ->
    tcall enabled self (n ++ "_") args kwargs = if enabled && requires self then (Fails NoInPlace, false) else (fst (tcall enabled self n args kwargs), true).
  Proof. intros I E. destruct (registered_facts n I) as (O & A & G & D & C & R). now apply k_C100_in_place. Qed.
  Lemma k_C100_call_in_place_refuted self y n : In n registry -> ends_with "_" n = false -> requires self = false -> requires y = true -> existsb (fun b => b) (differentiable n) = true ->
    returned_requires requires self (tcall true self n [Ten y] []) = Some true /\ returned_requires requires self (tcall true self (n ++ "_") [Ten y] []) = Some false.
  Proof. intros I E S Y Df. destruct (registered_facts n I) as (O & A & G & D & C & R). apply k_C100_in_place_refuted; try assumption; now rewrite A. Qed.
  (** C100: functions without a gradient: the result silently does not require one. *)
  Lemma k_C100_call_direct_refuted enabled self n args kwargs : In n ["expand"; "repeat"; "unfold"; "unbind"; "split"; "conv_transpose1d"; "conv_transpose2d"] ->
    tcall enabled self n args kwargs = (Runs (Method n enabled) None, false) /\ returned_requires requires self (tcall enabled self n args kwargs) = Some false.
  Proof. intros I. assert (E : tcall enabled self n args kwargs = (Runs (Method n enabled) None, false)) by (repeat (destruct I as [<-|I]; [reflexivity|]); destruct I). rewrite E. split; [reflexivity|]. repeat (destruct I as [<-|I]; [reflexivity|]); destruct I. Qed.
  (** C100: tensors passed by keyword, or in a dict, are not recorded. *)
  Lemma k_C100_call_keyword_refuted self n y : In n registry -> In n direct -> requires self = false -> requires y = true -> existsb (fun b => b) (differentiable n) = true ->
    returned_requires requires self (tcall true self n [Ten y] []) = Some true /\ returned_requires requires self (tcall true self n [] [Ten y]) = Some false /\ returned_requires requires self (tcall true self n [Dict [Ten y]] []) = Some false.
  Proof.
    intros I J S Y Df. destruct (registered_facts n I) as (O & A & G & _ & _ & R). assert (M : mem n direct = true) by (apply existsb_exists; exists n; split; [exact J|apply String.eqb_refl]). assert (W : has n = true) by (unfold has, methods, mem; rewrite existsb_app; fold (mem n direct); now rewrite M).
    destruct (k_C100_keyword_refuted rows requires has has_gradient differentiable self n y) as [P Q]; rewrite ?A; try assumption. destruct (k_C100_dict_refuted rows requires has has_gradient differentiable self n y) as [T _]; rewrite ?A; try assumption. auto.
  Qed.
  (** C100: the operators do what the function does. *)
  Lemma k_C100_operators enabled self op n args : In (op, n) operators -> operate rows requires has has_gradient differentiable enabled self op args = tcall enabled self n args [] /\ (in_place n = false -> tcall enabled self op args [] = tcall enabled self n args []).
  Proof. intros I. unfold operators in I. cbn [In] in I. repeat (destruct I as [E|I]; [injection E as <- <-; split; [reflexivity|intros Z; try reflexivity; discriminate Z]|]). destruct I. Qed.
  (** C100: two operators have a function, which an attribute access finds, but the operator is an error: x ** p and c / x. *)
  Lemma k_C100_operators_refuted enabled self op args : In op ["__pow__"; "__rtruediv__"] -> forallb no_dict args = true ->
    operate rows requires has has_gradient differentiable enabled self op args = (Fails Unsupported, false) /\ exists c r, tcall enabled self op args [] = (Runs c r, false).
  Proof.
    intros I N. split; [destruct I as [<-|[<-|[]]]; reflexivity|].
    assert (E : tcall enabled self op args [] = tcall enabled self (assoc op builtins) args []) by (destruct I as [<-|[<-|[]]]; reflexivity). rewrite E, k_C100_call by (try assumption; destruct I as [<-|[<-|[]]]; apply mem_in; reflexivity).
    destruct (enabled && _); [eauto|]. destruct (has _); eauto.
  Qed.
End M.
(** the documented functions with a gradient, as a user calls them *)
Definition differentiable_functions : list string :=
  ["t"; "transpose"; "permute"; "flip"; "clone"; "cat"; "stack"; "view"; "reshape"; "flatten"; "narrow"; "take"; "index_select"; "gather"; "scatter"; "roll"; "squeeze"; "unsqueeze"; "__getitem__"; "neg"; "relu"; "dropout"; "_feature_dropout";
   "tanh"; "hardtanh"; "erf"; "relu6"; "add"; "sub"; "__rsub__"; "mul"; "matmul"; "div"; "__rtruediv__"; "polynomial"; "pow"; "pos_pow"; "square"; "sqrt"; "exp"; "log"; "reciprocal"; "dot"; "ger"; "sin"; "cos"; "cosine_similarity"; "abs"; "sign"; "norm";
   "sum"; "cumsum"; "trace"; "mean"; "var"; "min"; "max"; "sigmoid"; "softmax"; "log_softmax"; "pad"; "avg_pool2d"; "max_pool2d"; "conv1d"; "conv2d"; "batchnorm"; "binary_cross_entropy"; "binary_cross_entropy_with_logits"; "rappor_loss"; "cross_entropy"].
Section Names.
  Variable rows : nat -> nat.
  Variable requires : nat -> bool.
  Variable differentiable : string -> list bool.
  (** C100: each of these functions, called on a tensor that requires a gradient with autograd on, is recorded. *)
  Lemma k_C100_which self n : In n differentiable_functions -> requires self = true ->
    call rows requires has has_gradient differentiable true self n [] [] = (Runs (Forward n) (Some (differentiable n, [Known self])), false).
  Proof.
    intros I R. rewrite k_C100_call; [|apply mem_in; revert n I; apply Forall_forall; repeat constructor|reflexivity]. cbn [flat_map existsb map]. rewrite R. reflexivity.
  Qed.
  (** C100: the attributes of the tape, backward and detach_ included, are the object's own, whatever functions are registered or missing and whether the tensor requires a gradient. *)
  Lemma k_C100_protected own registered enabled self_requires n :
    In n ["__dict__"; "__class__"; "requires_grad"; "grad"; "grad_fn"; "grad_expected"; "grad_received"; "children"; "ctx"; "backward"; "detach"; "detach_"; "_reset_gradients"] -> lookup own registered enabled self_requires n = Own n.
  Proof. revert n. apply Forall_forall. repeat constructor. Qed.
  (** C100: a required function that a subclass does not implement is an error with autograd off, whatever is registered, and never the AutogradFunction, which would call itself. *)
  Lemma k_C100_required own registered self_requires n : In n ["_ltz"; "add"; "avg_pool1d"; "avg_pool2d"; "clone"; "conv1d"; "conv2d"; "matmul"; "neg"] -> own n = false -> lookup own registered false self_requires n = Error NoAttribute.
  Proof.
    intros I O. assert (E : lookup own registered false self_requires n = lookup_plain own registered false n /\ mem n required = true) by (clear O; revert n I; apply Forall_forall; repeat (constructor; [split; reflexivity|]); constructor). destruct E as [-> M]. unfold lookup_plain. rewrite O, M. now destruct (registered n).
  Qed.
  (** C100: tensor - x runs -x + tensor with autograd as it is, and is not recorded as one function; the attribute x.__rsub__ of a tensor that requires a gradient is. *)
  Lemma k_C100_rsub enabled self args : operate rows requires has has_gradient differentiable enabled self "__rsub__" args = (Runs (Method "__rsub__" enabled) None, false) /\
    (requires self = true -> forallb no_dict args = true -> call rows requires has has_gradient differentiable true self "__rsub__" args [] = (Runs (Forward "__rsub__") (Some (differentiable "__rsub__", map Known (self :: flat_map tensors args))), false)).
  Proof. split; [reflexivity|]. intros R N. rewrite k_C100_call by (try exact N; apply mem_in; reflexivity). cbn [existsb]. rewrite R. reflexivity. Qed.
End Names.

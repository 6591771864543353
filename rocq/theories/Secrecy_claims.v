(** C87: what a coalition learns from the share protocols. *)
Require Import List ZArith Bool Arith Lia.
From Verif Require Import Ring64 Sharing Arith Arith_proofs Beaver Beaver_proofs Trunc Binary_proofs Secrecy.
Import ListNotations.
Local Open Scope Z_scope.

(** *** Uniform randomness: all draws of the right form *)
Definition mask_ok (k : kind) (a : Z) : Prop := match k with KBit => a = 0 \/ a = 1 | _ => in64 a end.
Definition draws_ok (n : nat) (xs : list (kind * nat)) (cs : list (bool * (list (list Z) -> Z))) (d : draws) : Prop :=
  length d = n /\ forall i, (i < n)%nat -> length (masks_of d i) = length xs /\ length (corr_of d i) = length cs /\
    (forall j k, nth_error xs j = Some k -> mask_ok (fst k) (nth j (masks_of d i) 0)) /\ forall l, (l < length cs)%nat -> in64 (nth l (corr_of d i) 0).
Fixpoint random_ok (n : nat) (prog : list instr) (rnd : list draws) : Prop :=
  match prog with
  | [] => rnd = []
  | Masked xs cs :: prog => match rnd with d :: rnd => draws_ok n xs cs d /\ random_ok n prog rnd | [] => False end
  | _ :: prog => random_ok n prog rnd
  end.

(** *** The coalition: all parties that are not in [honest] *)
Section Coalition.
  Variable honest : nat -> bool.
  (** everything the coalition has: its members' registers *)
  Definition view (st : list (list Z)) : list (list Z) := mapi (fun i regs => if honest i then [] else regs) st.
  (** the honest parties' shares of revealed registers *)
  Fixpoint revealed_shares (prog : list instr) (rnd : list draws) (st : list (list Z)) : list (list Z) :=
    match prog with
    | [] => []
    | i :: prog => (match i with Reveal _ r => [mapi (fun p regs => if honest p then reg r regs else 0) st] | _ => [] end) ++
                   (if uses_draws i then revealed_shares prog (tl rnd) (step i (hd [] rnd) st) else revealed_shares prog rnd (step i [] st))
    end.
  (** *** The simulator: it knows the coalition's inputs and the revealed shares, not the honest parties' inputs.  Honest messages are replaced by random numbers; party 0's correlated shares by those drawn for the honest party [p]. *)
  Variable p : nat.
  Definition sim_step (i : instr) (d : draws) (shares : list Z) (v : list (list Z)) : list (list Z) :=
    match i with
    | Local f => mapi (fun q regs => if honest q then [] else regs ++ [wrap (f q regs)]) v
    | Share xor src z r => mapi (fun q regs => if honest q then [] else regs ++ [wrap (let own := if Nat.eqb q src then reg r regs else 0 in if xor then Z.lxor (nth q z 0) own else nth q z 0 + own)]) v
    | Masked xs cs =>
        let sent := concat (mapi (fun q regs => if honest q then masks_of d q else messages xs regs (masks_of d q)) v) in
        mapi (fun q regs => if honest q then [] else regs ++ masks_of d q ++ sent ++ (if Nat.eqb q 0 then corr_of d p else corr_of d q)) v
    | Reveal _ r => let sent := mapi (fun q regs => if honest q then nth q shares 0 else reg r regs) v in mapi (fun q regs => if honest q then [] else regs ++ sent) v
    end.
  Fixpoint simulate (prog : list instr) (rnd : list draws) (shares : list (list Z)) (v : list (list Z)) : list (list Z) :=
    match prog with
    | [] => v
    | Masked xs cs :: prog => simulate prog (tl rnd) shares (sim_step (Masked xs cs) (hd [] rnd) [] v)
    | Reveal x r :: prog => simulate prog rnd (tl shares) (sim_step (Reveal x r) [] (hd [] shares) v)
    | i :: prog => simulate prog rnd shares (sim_step i [] [] v)
    end.
End Coalition.
(** *** The values the reveals return *)
Definition total (xor : bool) (shares : list Z) : Z := if xor then zxor shares else wrap (zsum shares).
Fixpoint opened (prog : list instr) (rnd : list draws) (st : list (list Z)) : list Z :=
  match prog with
  | [] => []
  | i :: prog => (match i with Reveal xor r => [total xor (map (reg r) st)] | _ => [] end) ++
                 (if uses_draws i then opened prog (tl rnd) (step i (hd [] rnd) st) else opened prog rnd (step i [] st))
  end.
(** *** The simulator against all parties but [p], from the values the reveals return: the missing share is the value minus the coalition's shares *)
Definition missing (xor : bool) (value : Z) (shares : list Z) : Z := if xor then Z.lxor value (zxor shares) else wrap (value - zsum shares).
Fixpoint simulate_opened (p : nat) (prog : list instr) (rnd : list draws) (values : list Z) (v : list (list Z)) : list (list Z) :=
  match prog with
  | [] => v
  | Masked xs cs :: prog => simulate_opened p prog (tl rnd) values (sim_step (Nat.eqb p) p (Masked xs cs) (hd [] rnd) [] v)
  | Reveal x r :: prog => simulate_opened p prog rnd (tl values) (sim_step (Nat.eqb p) p (Reveal x r) [] (map (fun _ => missing x (hd 0 values) (map (reg r) v)) v) v)
  | i :: prog => simulate_opened p prog rnd values (sim_step (Nat.eqb p) p i [] [] v)
  end.
(** one-to-one and onto *)
Definition bijection {A} (ok : A -> Prop) (f g : A -> A) : Prop := (forall a, ok a -> ok (f a) /\ g (f a) = a) /\ (forall a, ok a -> ok (g a) /\ f (g a) = a).

(** *** Lists *)
Lemma mapi_seq {A B} (f : nat -> A -> B) (d : A) l : mapi f l = map (fun i => f i (nth i l d)) (seq 0 (length l)).
Proof.
  unfold mapi. assert (X : forall k, zipw f (seq k (length l)) l = map (fun i => f i (nth (i - k) l d)) (seq k (length l))).
  { induction l as [|a l IH]; intros k; [reflexivity|]. cbn [length seq map]. rewrite zipw_cons. rewrite Nat.sub_diag. f_equal. rewrite IH. apply map_ext_in. intros i H. apply in_seq in H. replace (i - k)%nat with (S (i - S k)) by lia. reflexivity. }
  rewrite X. apply map_ext_in. intros i _. now rewrite Nat.sub_0_r.
Qed.
Lemma mapi_length {A B} (f : nat -> A -> B) l : length (mapi f l) = length l.
Proof. unfold mapi. now rewrite zipw_length, seq_length by apply seq_length. Qed.
Lemma map_seq_nth {B} (f : nat -> B) n i db : (i < n)%nat -> nth i (map f (seq 0 n)) db = f i.
Proof. intros H. rewrite (nth_indep _ db (f O)) by (now rewrite map_length, seq_length). rewrite map_nth, seq_nth by assumption. reflexivity. Qed.
Lemma mapi_nth {A B} (f : nat -> A -> B) l i da db : (i < length l)%nat -> nth i (mapi f l) db = f i (nth i l da).
Proof. intros H. now rewrite (mapi_seq f da), map_seq_nth. Qed.
Lemma mapi_ext {A B} (f g : nat -> A -> B) (d : A) l : (forall i, (i < length l)%nat -> f i (nth i l d) = g i (nth i l d)) -> mapi f l = mapi g l.
Proof. intros H. rewrite !(mapi_seq _ d). apply map_ext_in. intros i Hi. apply in_seq in Hi. apply H. lia. Qed.
Lemma mapi_mapi {A B C} (f : nat -> A -> B) (g : nat -> B -> C) l : mapi g (mapi f l) = mapi (fun i a => g i (f i a)) l.
Proof.
  destruct l as [|a l]; [reflexivity|]. rewrite (mapi_seq g (f O a)), (mapi_seq (fun i x => g i (f i x)) a), mapi_length. apply map_ext_in. intros i Hi. apply in_seq in Hi. rewrite (mapi_nth f _ i a) by lia. reflexivity.
Qed.
Lemma map_mapi {A B C} (f : nat -> A -> B) (g : B -> C) l : map g (mapi f l) = mapi (fun i a => g (f i a)) l.
Proof. destruct l as [|a l]; [reflexivity|]. rewrite !(mapi_seq _ a), map_map. reflexivity. Qed.
Lemma map_as_mapi {A B} (f : A -> B) l : map f l = mapi (fun _ => f) l.
Proof. destruct l as [|a l]; [reflexivity|]. rewrite (mapi_seq _ a). apply nth_ext with (d := f a) (d' := f a); [now rewrite !map_length, seq_length|]. intros i Hi. rewrite map_length in Hi. now rewrite map_nth, map_seq_nth. Qed.
Lemma zipw_nth {A B C} (f : A -> B -> C) l m i a b c : length l = length m -> (i < length l)%nat -> nth i (zipw f l m) c = f (nth i l a) (nth i m b).
Proof.
  intros L H. unfold zipw. rewrite (nth_indep _ c (f (fst (a, b)) (snd (a, b)))) by (rewrite map_length, combine_length; lia).
  rewrite (map_nth (fun q => f (fst q) (snd q)) (combine l m) (a, b)), combine_nth by assumption. reflexivity.
Qed.
Lemma mapi_id {A} (f : nat -> A -> A) (d : A) l : (forall i, (i < length l)%nat -> f i (nth i l d) = nth i l d) -> mapi f l = l.
Proof. intros H. apply nth_ext with (d := d) (d' := d); [apply mapi_length|]. intros i Hi. rewrite mapi_length in Hi. rewrite (mapi_nth f l i d) by assumption. now apply H. Qed.

(** *** Hiding is one-to-one *)
Definition unmask (k : kind) (x m : Z) : Z := match k with KSub => wsub x m | KAdd => wsub m x | KXor => Z.lxor x m | KBit => Z.lxor (Z.land x 1) m end.
Lemma lxor_self a b : Z.lxor a (Z.lxor a b) = b.
Proof. now rewrite <- Z.lxor_assoc, Z.lxor_nilpotent. Qed.
Lemma land1 x : Z.land x 1 = 0 \/ Z.land x 1 = 1.
Proof. pose proof (Z.land_ones x 1 ltac:(lia)) as E. change (Z.ones 1) with 1 in E. rewrite E. change (2 ^ 1) with 2. pose proof (Z.mod_pos_bound x 2 ltac:(lia)). lia. Qed.
Lemma mask_unmask k x m : mask_ok k m -> message k x (unmask k x m) = m.
Proof.
  destruct k; cbn [mask_ok message unmask]; intros H.
  - apply eqm_in64_eq; [apply wrap_in64|assumption|mring].
  - apply eqm_in64_eq; [apply wrap_in64|assumption|mring].
  - apply lxor_self.
  - apply lxor_self.
Qed.
Lemma unmask_mask k x a : mask_ok k a -> unmask k x (message k x a) = a.
Proof.
  destruct k; cbn [mask_ok message unmask]; intros H.
  - apply eqm_in64_eq; [apply wrap_in64|assumption|mring].
  - apply eqm_in64_eq; [apply wrap_in64|assumption|mring].
  - apply lxor_self.
  - apply lxor_self.
Qed.
Lemma message_ok k x a : in64 x -> mask_ok k a -> mask_ok k (message k x a).
Proof. destruct k; cbn [mask_ok message]; intros Hx Ha; [apply wsub_in64|apply wadd_in64|now apply in64_lxor|]. destruct (land1 x) as [->| ->], Ha as [->| ->]; cbn; auto. Qed.
Lemma unmask_ok k x a : in64 x -> mask_ok k a -> mask_ok k (unmask k x a).
Proof. destruct k; cbn [mask_ok unmask]; intros Hx Ha; [apply wsub_in64|apply wsub_in64|now apply in64_lxor|]. destruct (land1 x) as [->| ->], Ha as [->| ->]; cbn; auto. Qed.

(** *** One round *)
Lemma mask_in64 k a : mask_ok k a -> in64 a.
Proof. destruct k; cbn; auto. intros [->| ->]; unfold in64, H63; lia. Qed.
Lemma nth_in64 l i : Forall in64 l -> in64 (nth i l 0).
Proof. intros F. destruct (Nat.lt_ge_cases i (length l)) as [H|H]; [now apply Forall_nth|]. rewrite nth_overflow by assumption. apply in64_0. Qed.
Lemma reg_in64 r regs : Forall in64 regs -> in64 (reg r regs).
Proof. apply nth_in64. Qed.
Definition state_ok (n : nat) (st : list (list Z)) : Prop := length st = n /\ Forall (Forall in64) st.
Lemma state_regs n st i : state_ok n st -> Forall in64 (nth i st []).
Proof. intros [_ F]. destruct (Nat.lt_ge_cases i (length st)) as [H|H]; [exact (proj1 (Forall_nth (Forall in64) st) F i [] H)|]. rewrite nth_overflow by assumption. constructor. Qed.
Lemma Forall_mapi {A B} (P : B -> Prop) (f : nat -> A -> B) (d : A) l : (forall i, (i < length l)%nat -> P (f i (nth i l d))) -> Forall P (mapi f l).
Proof. intros H. rewrite (mapi_seq f d). apply Forall_map, Forall_forall. intros i Hi. apply in_seq in Hi. apply H. lia. Qed.
Lemma answer_in64 n xs cs d l c : draws_ok n xs cs d -> (l < length cs)%nat -> in64 (answer n d l c).
Proof.
  intros [_ D] H. unfold answer. destruct (fst c); [|apply wrap_in64]. apply in64_lxor; [apply wrap_in64|]. apply in64_zxor, Forall_map, Forall_forall. intros j Hj. apply in_seq in Hj. apply D; [lia|assumption].
Qed.
Lemma answers_length n d cs : length (answers n d cs) = length cs.
Proof. unfold answers. rewrite zipw_length; now rewrite seq_length. Qed.
Lemma answers_nth n d cs l dc : (l < length cs)%nat -> nth l (answers n d cs) 0 = answer n d l (nth l cs dc).
Proof. intros H. unfold answers. rewrite (zipw_nth _ _ _ l O dc) by (rewrite seq_length; auto). now rewrite seq_nth by assumption. Qed.
Lemma messages_length xs regs m : length m = length xs -> length (messages xs regs m) = length xs.
Proof. intros H. unfold messages. now rewrite zipw_length. Qed.
Lemma nth_error_nth_z {A} (l : list A) j d : (j < length l)%nat -> nth_error l j = Some (nth j l d).
Proof. apply nth_error_nth'. Qed.
Definition unmessages (xs : list (kind * nat)) (regs : list Z) (m : list Z) : list Z := zipw (fun kr a => unmask (fst kr) (reg (snd kr) regs) a) xs m.
Lemma unmessages_length xs regs m : length m = length xs -> length (unmessages xs regs m) = length xs.
Proof. intros H. unfold unmessages. now rewrite zipw_length. Qed.
Lemma messages_nth xs regs m j : length m = length xs -> (j < length xs)%nat -> nth j (messages xs regs m) 0 = message (fst (nth j xs (KSub, O))) (reg (snd (nth j xs (KSub, O))) regs) (nth j m 0).
Proof. intros L H. unfold messages. now rewrite (zipw_nth _ xs m j (KSub, O) 0) by auto. Qed.
Lemma unmessages_nth xs regs m j : length m = length xs -> (j < length xs)%nat -> nth j (unmessages xs regs m) 0 = unmask (fst (nth j xs (KSub, O))) (reg (snd (nth j xs (KSub, O))) regs) (nth j m 0).
Proof. intros L H. unfold unmessages. now rewrite (zipw_nth _ xs m j (KSub, O) 0) by auto. Qed.
Definition masks_ok (xs : list (kind * nat)) (m : list Z) : Prop := length m = length xs /\ forall j k, nth_error xs j = Some k -> mask_ok (fst k) (nth j m 0).
Lemma masks_ok_nth xs m j : masks_ok xs m -> (j < length xs)%nat -> mask_ok (fst (nth j xs (KSub, O))) (nth j m 0).
Proof. intros [_ H] L. apply H. now apply nth_error_nth'. Qed.
Lemma masks_ok_intro xs m : length m = length xs -> (forall j, (j < length xs)%nat -> mask_ok (fst (nth j xs (KSub, O))) (nth j m 0)) -> masks_ok xs m.
Proof. intros L H. split; [assumption|]. intros j k E. assert (J : (j < length xs)%nat) by (apply nth_error_Some; congruence). rewrite (nth_error_nth' xs (KSub, O) J) in E. injection E as <-. now apply H. Qed.
Lemma messages_masks xs regs m : Forall in64 regs -> masks_ok xs m -> masks_ok xs (messages xs regs m) /\ unmessages xs regs (messages xs regs m) = m.
Proof.
  intros F M. pose proof (proj1 M) as L. pose proof (messages_length xs regs m L) as L2. split.
  - apply masks_ok_intro; [assumption|]. intros j J. rewrite messages_nth by assumption. apply message_ok; [now apply reg_in64|now apply masks_ok_nth].
  - apply nth_ext with (d := 0) (d' := 0); [rewrite unmessages_length; auto|]. intros j J. rewrite unmessages_length in J by assumption. rewrite unmessages_nth, messages_nth by assumption. apply unmask_mask. now apply masks_ok_nth.
Qed.
Lemma unmessages_masks xs regs m : Forall in64 regs -> masks_ok xs m -> masks_ok xs (unmessages xs regs m) /\ messages xs regs (unmessages xs regs m) = m.
Proof.
  intros F M. pose proof (proj1 M) as L. pose proof (unmessages_length xs regs m L) as L2. split.
  - apply masks_ok_intro; [assumption|]. intros j J. rewrite unmessages_nth by assumption. apply unmask_ok; [now apply reg_in64|now apply masks_ok_nth].
  - apply nth_ext with (d := 0) (d' := 0); [rewrite messages_length; auto|]. intros j J. rewrite messages_length in J by assumption. rewrite messages_nth, unmessages_nth by assumption. apply mask_unmask. now apply masks_ok_nth.
Qed.
Definition corrs_ok (cs : list (bool * (list (list Z) -> Z))) (c : list Z) : Prop := length c = length cs /\ forall l, (l < length cs)%nat -> in64 (nth l c 0).
Lemma draws_ok_iff n xs cs d : draws_ok n xs cs d <-> length d = n /\ forall i, (i < n)%nat -> masks_ok xs (masks_of d i) /\ corrs_ok cs (corr_of d i).
Proof. unfold draws_ok, masks_ok, corrs_ok. split; intros [L H]; (split; [assumption|]); intros i Hi; specialize (H i Hi); tauto. Qed.

Section Hide.
  Variable honest : nat -> bool.
  Variable n p : nat.
  Hypothesis Hp : (p < n)%nat.
  Hypothesis Hh : honest p = true.
  Variable xs : list (kind * nat).
  Variable cs : list (bool * (list (list Z) -> Z)).

  Definition enc (st : list (list Z)) (d : draws) : draws := mapi (fun i m => (if honest i then messages xs (nth i st []) (fst m) else fst m, snd m)) d.
  Definition dec (st : list (list Z)) (d : draws) : draws := mapi (fun i m => (if honest i then unmessages xs (nth i st []) (fst m) else fst m, snd m)) d.
  Definition swap (d : draws) : draws := if honest 0%nat then d else mapi (fun i m => if Nat.eqb i p then (fst m, answers n d cs) else m) d.

  Lemma mapi_masks (f : nat -> list Z * list Z -> list Z * list Z) d i : (i < length d)%nat -> masks_of (mapi f d) i = fst (f i (masks_of d i, corr_of d i)).
  Proof. intros H. unfold masks_of at 1. rewrite (mapi_nth f d i ([], [])) by assumption. unfold masks_of, corr_of. now destruct (nth i d ([], [])). Qed.
  Lemma mapi_corr (f : nat -> list Z * list Z -> list Z * list Z) d i : (i < length d)%nat -> corr_of (mapi f d) i = snd (f i (masks_of d i, corr_of d i)).
  Proof. intros H. unfold corr_of at 1. rewrite (mapi_nth f d i ([], [])) by assumption. unfold masks_of, corr_of. now destruct (nth i d ([], [])). Qed.
  Lemma draws_ext d d' : length d = length d' -> (forall i, (i < length d)%nat -> masks_of d i = masks_of d' i /\ corr_of d i = corr_of d' i) -> d = d'.
  Proof.
    intros L H. apply nth_ext with (d := ([], [])) (d' := ([], [])); [assumption|]. intros i Hi. destruct (H i Hi) as [A B]. unfold masks_of, corr_of in A, B. destruct (nth i d ([], [])), (nth i d' ([], [])). cbn in A, B. now subst.
  Qed.
  Lemma enc_ok st d : state_ok n st -> draws_ok n xs cs d -> draws_ok n xs cs (enc st d) /\ dec st (enc st d) = d.
  Proof.
    intros S D. apply draws_ok_iff in D as [L D]. split.
    - apply draws_ok_iff. unfold enc. split; [now rewrite mapi_length|]. intros i Hi. rewrite mapi_masks, mapi_corr by (now rewrite L). cbn [fst snd]. destruct (D i Hi) as [M C]. split; [|assumption]. destruct (honest i); [|assumption]. apply messages_masks; [now apply (state_regs n)|assumption].
    - unfold enc, dec. rewrite mapi_mapi. apply (mapi_id _ ([], [])). intros i Hi. rewrite L in Hi. destruct (D i Hi) as [M C]. unfold masks_of, corr_of in M, C. destruct (nth i d ([], [])) as [m c]. cbn [fst snd] in *. destruct (honest i); [|reflexivity]. f_equal. apply messages_masks; [now apply (state_regs n)|assumption].
  Qed.
  Lemma dec_ok st d : state_ok n st -> draws_ok n xs cs d -> draws_ok n xs cs (dec st d) /\ enc st (dec st d) = d.
  Proof.
    intros S D. apply draws_ok_iff in D as [L D]. split.
    - apply draws_ok_iff. unfold dec. split; [now rewrite mapi_length|]. intros i Hi. rewrite mapi_masks, mapi_corr by (now rewrite L). cbn [fst snd]. destruct (D i Hi) as [M C]. split; [|assumption]. destruct (honest i); [|assumption]. apply unmessages_masks; [now apply (state_regs n)|assumption].
    - unfold enc, dec. rewrite mapi_mapi. apply (mapi_id _ ([], [])). intros i Hi. rewrite L in Hi. destruct (D i Hi) as [M C]. unfold masks_of, corr_of in M, C. destruct (nth i d ([], [])) as [m c]. cbn [fst snd] in *. destruct (honest i); [|reflexivity]. f_equal. apply unmessages_masks; [now apply (state_regs n)|assumption].
  Qed.
  Lemma swap_masks d : map fst (swap d) = map fst d.
  Proof. unfold swap. destruct (honest 0%nat); [reflexivity|]. rewrite map_mapi, map_as_mapi. apply (mapi_ext _ _ ([], [])). intros i _. now destruct (Nat.eqb i p). Qed.
  Lemma split_at l q (f : nat -> Z) : NoDup l -> In q l -> zsum (map f l) = f q + zsum (map f (filter (fun j => negb (Nat.eqb j q)) l)) /\ zxor (map f l) = Z.lxor (f q) (zxor (map f (filter (fun j => negb (Nat.eqb j q)) l))).
  Proof.
    induction l as [|a l IH]; intros N I; [destruct I|]. apply NoDup_cons_iff in N as [N1 N2]. cbn [map filter]. rewrite zsum_cons, zxor_cons. destruct (Nat.eqb_spec a q) as [->|E].
    - cbn [negb]. assert (X : filter (fun j => negb (Nat.eqb j q)) l = l). { clear -N1. induction l as [|b l IH]; [reflexivity|]. cbn [filter]. destruct (Nat.eqb_spec b q) as [->|E]; [exfalso; apply N1; now left|]. cbn [negb]. f_equal. apply IH. intros H. apply N1. now right. } now rewrite X.
    - destruct I as [I|I]; [congruence|]. cbn [negb map]. rewrite zsum_cons, zxor_cons. destruct (IH N2 I) as [-> ->]. split; [ring|]. rewrite <- !Z.lxor_assoc. now rewrite (Z.lxor_comm (f a)).
  Qed.
  Lemma answer_swap d d2 l c : (1 <= p)%nat -> draws_ok n xs cs d -> (l < length cs)%nat -> map fst d2 = map fst d -> (forall j, (j < n)%nat -> j <> p -> corr_of d2 j = corr_of d j) -> nth l (corr_of d2 p) 0 = answer n d l c -> answer n d2 l c = nth l (corr_of d p) 0.
  Proof.
    intros P D Hl E1 E2 E3.
    assert (I : in64 (nth l (corr_of d p) 0)). { apply draws_ok_iff in D as [_ D]. apply (D p Hp). assumption. }
    unfold answer in *. rewrite E1. assert (In p (seq 1 (n - 1))) as Ip by (apply in_seq; lia).
    destruct (split_at (seq 1 (n - 1)) p (fun j => nth l (corr_of d2 j) 0) (seq_NoDup _ _) Ip) as [S1 X1].
    destruct (split_at (seq 1 (n - 1)) p (fun j => nth l (corr_of d j) 0) (seq_NoDup _ _) Ip) as [S2 X2].
    assert (R : map (fun j => nth l (corr_of d2 j) 0) (filter (fun j => negb (Nat.eqb j p)) (seq 1 (n - 1))) = map (fun j => nth l (corr_of d j) 0) (filter (fun j => negb (Nat.eqb j p)) (seq 1 (n - 1)))).
    { apply map_ext_in. intros j Hj. apply filter_In in Hj as [Hj E]. apply in_seq in Hj. rewrite E2; [reflexivity|lia|]. intros ->. now rewrite Nat.eqb_refl in E. }
    rewrite R in *. destruct (fst c).
    - rewrite X1, E3, X2. rewrite !Z.lxor_assoc, Z.lxor_nilpotent, Z.lxor_0_r. apply lxor_self.
    - rewrite S1, E3, S2. apply eqm_in64_eq; [apply wrap_in64|assumption|]. rewrite !wrap_eqm. apply eqm_refl_eq. ring.
  Qed.
  Lemma swap_ok d : draws_ok n xs cs d -> draws_ok n xs cs (swap d) /\ swap (swap d) = d.
  Proof.
    intros D. pose proof D as D0. apply draws_ok_iff in D as [L D]. pose proof (swap_masks d) as EM. unfold swap in *. destruct (honest 0%nat) eqn:E0; [now split|]. assert (P : (1 <= p)%nat) by (destruct p; [congruence|lia]).
    set (d2 := mapi (fun i m => if Nat.eqb i p then (fst m, answers n d cs) else m) d) in *.
    assert (L2 : length d2 = n) by (unfold d2; now rewrite mapi_length).
    assert (C2 : forall j, (j < n)%nat -> corr_of d2 j = if Nat.eqb j p then answers n d cs else corr_of d j). { intros j J. unfold d2. rewrite mapi_corr by (now rewrite L). now destruct (Nat.eqb j p). }
    assert (M2 : forall j, (j < n)%nat -> masks_of d2 j = masks_of d j). { intros j J. unfold d2. rewrite mapi_masks by (now rewrite L). now destruct (Nat.eqb j p). }
    split.
    - apply draws_ok_iff. split; [assumption|]. intros i Hi. rewrite M2, C2 by assumption. split; [now apply D|]. destruct (Nat.eqb i p); [|now apply D]. split; [apply answers_length|]. intros l Hl. rewrite (answers_nth n d cs l (false, fun _ => 0)) by assumption. now apply (answer_in64 n xs cs).
    - apply draws_ext; [rewrite mapi_length; congruence|]. intros i Hi. rewrite mapi_length, L2 in Hi. rewrite mapi_masks, mapi_corr by (now rewrite L2). rewrite M2, C2 by assumption. destruct (Nat.eqb_spec i p) as [->|E]; cbn [fst snd]; (split; [reflexivity|]); [|reflexivity].
      apply nth_ext with (d := 0) (d' := 0); [rewrite answers_length; symmetry; apply D; assumption|]. intros l Hl. rewrite answers_length in Hl. rewrite (answers_nth n d2 cs l (false, fun _ => 0)) by assumption. apply answer_swap; try assumption.
      + intros j J N. rewrite C2 by assumption. apply Nat.eqb_neq in N. now rewrite N.
      + rewrite C2, Nat.eqb_refl by assumption. now apply answers_nth.
  Qed.
  Definition phi1 (st : list (list Z)) (d : draws) : draws := enc st (swap d).
  Definition psi1 (st : list (list Z)) (d : draws) : draws := swap (dec st d).
  Lemma phi1_ok st : state_ok n st -> bijection (draws_ok n xs cs) (phi1 st) (psi1 st).
  Proof.
    intros S. unfold phi1, psi1. split; intros d D.
    - destruct (swap_ok d D) as [D1 E1]. destruct (enc_ok st _ S D1) as [D2 E2]. split; [assumption|]. now rewrite E2.
    - destruct (dec_ok st d S D) as [D1 E1]. destruct (swap_ok _ D1) as [D2 E2]. split; [assumption|]. now rewrite E2.
  Qed.
  (** what the coalition sees of one round is what the simulator makes of the changed draws *)
  Lemma masked_view st d : state_ok n st -> draws_ok n xs cs d -> view honest (step (Masked xs cs) d st) = sim_step honest p (Masked xs cs) (phi1 st d) [] (view honest st).
  Proof.
    intros S D. destruct S as [SL SF]. pose proof (proj1 (swap_ok d D)) as D1. apply draws_ok_iff in D as [L D]. apply draws_ok_iff in D1 as [L1 D1].
    assert (SM : forall i, (i < n)%nat -> masks_of (swap d) i = masks_of d i). { intros i Hi. unfold swap. destruct (honest 0%nat); [reflexivity|]. rewrite mapi_masks by (now rewrite L). now destruct (Nat.eqb i p). }
    assert (SC : forall i, (i < n)%nat -> corr_of (swap d) i = if negb (honest 0%nat) && Nat.eqb i p then answers n d cs else corr_of d i). { intros i Hi. unfold swap. destruct (honest 0%nat); [reflexivity|]. rewrite mapi_corr by (now rewrite L). cbn [negb andb]. now destruct (Nat.eqb i p). }
    assert (PM : forall i, (i < n)%nat -> masks_of (phi1 st d) i = if honest i then messages xs (nth i st []) (masks_of d i) else masks_of d i). { intros i Hi. unfold phi1, enc. rewrite mapi_masks by (now rewrite L1). cbn [fst]. now rewrite SM. }
    assert (PC : forall i, (i < n)%nat -> corr_of (phi1 st d) i = corr_of (swap d) i). { intros i Hi. unfold phi1, enc. now rewrite mapi_corr by (now rewrite L1). }
    unfold view. cbn [step sim_step]. rewrite !mapi_mapi.
    replace (concat (mapi (fun q a => if honest q then masks_of (phi1 st d) q else messages xs (if honest q then [] else a) (masks_of (phi1 st d) q)) st)) with (concat (mapi (fun q regs => messages xs regs (masks_of d q)) st)).
    2: { f_equal. apply (mapi_ext _ _ []). intros i Hi. rewrite SL in Hi. rewrite PM by assumption. now destruct (honest i). }
    apply (mapi_ext _ _ []). intros i Hi. rewrite SL in *. destruct (honest i) eqn:E; [reflexivity|]. rewrite PM, E by assumption. f_equal. f_equal. f_equal. rewrite !PC, !SC by assumption.
    destruct (Nat.eqb_spec i 0) as [->|N]; [now rewrite E, Nat.eqb_refl|]. destruct (Nat.eqb_spec i p) as [->|N2]; [congruence|]. now rewrite andb_false_r.
  Qed.
End Hide.

(** *** Whole programs *)
Lemma step_ok n i d st : state_ok n st -> (forall xs cs, i = Masked xs cs -> draws_ok n xs cs d) -> state_ok n (step i d st).
Proof.
  intros S D. pose proof S as [L F]. destruct i as [f|x src z r|xs cs|x r]; cbn [step].
  - split; [now rewrite mapi_length|]. apply (Forall_mapi _ _ []). intros i Hi. apply Forall_app. split; [now apply (state_regs n)|]. repeat constructor; apply wrap_in64.
  - split; [now rewrite mapi_length|]. apply (Forall_mapi _ _ []). intros i Hi. apply Forall_app. split; [now apply (state_regs n)|]. repeat constructor; apply wrap_in64.
  - specialize (D xs cs eq_refl). pose proof D as D0. apply draws_ok_iff in D as [LD D]. split; [now rewrite mapi_length|]. apply (Forall_mapi _ _ []). intros i Hi. rewrite L in *.
    assert (FM : forall j, (j < n)%nat -> Forall in64 (masks_of d j)). { intros j J. apply Forall_nth. intros q dq Hq. destruct (D j J) as [M _]. rewrite (nth_indep _ dq 0 Hq). rewrite (proj1 M) in Hq. exact (mask_in64 _ _ (masks_ok_nth _ _ _ M Hq)). }
    rewrite !Forall_app. repeat split; [now apply (state_regs n)|now apply FM| |].
    + apply Forall_concat. apply (Forall_mapi _ _ []). intros j J. rewrite L in J. destruct (D j J) as [M _]. destruct (messages_masks xs (nth j st []) _ (state_regs n st j S) M) as [M2 _]. apply Forall_nth. intros q dq Hq. rewrite (nth_indep _ dq 0 Hq). rewrite (proj1 M2) in Hq. exact (mask_in64 _ _ (masks_ok_nth _ _ _ M2 Hq)).
    + destruct (Nat.eqb i 0).
      * apply Forall_nth. intros q dq Hq. rewrite (nth_indep _ dq 0 Hq). rewrite answers_length in Hq. rewrite (answers_nth n d cs q (false, fun _ => 0)) by assumption. now apply (answer_in64 n xs cs).
      * destruct (D i Hi) as [_ [C1 C2]]. apply Forall_nth. intros q dq Hq. rewrite (nth_indep _ dq 0 Hq). apply C2. now rewrite <- C1.
  - split; [now rewrite map_length|]. apply Forall_map. revert F. apply Forall_impl. intros regs Fr. apply Forall_app. split; [assumption|]. apply Forall_map. destruct S as [_ F]. revert F. apply Forall_impl. intros q Fq. now apply reg_in64.
Qed.
Section Programs.
  Variable honest : nat -> bool.
  Variable n p : nat.
  Hypothesis Hp : (p < n)%nat.
  Hypothesis Hh : honest p = true.
  Fixpoint phi (prog : list instr) (st : list (list Z)) (rnd : list draws) : list draws :=
    match prog with
    | [] => rnd
    | Masked xs cs :: prog => phi1 honest n p xs cs st (hd [] rnd) :: phi prog (step (Masked xs cs) (hd [] rnd) st) (tl rnd)
    | i :: prog => phi prog (step i [] st) rnd
    end.
  Fixpoint psi (prog : list instr) (st : list (list Z)) (rnd : list draws) : list draws :=
    match prog with
    | [] => rnd
    | Masked xs cs :: prog => let d := psi1 honest n p xs cs st (hd [] rnd) in d :: psi prog (step (Masked xs cs) d st) (tl rnd)
    | i :: prog => psi prog (step i [] st) rnd
    end.
  Lemma phi_bijection prog : forall st, state_ok n st -> bijection (random_ok n prog) (phi prog st) (psi prog st).
  Proof.
    induction prog as [|i prog IH]; intros st S; [now split; intros a A|]. destruct i as [f|x src z r|xs cs|x r].
    1, 2, 4: cbn [random_ok phi psi]; apply IH, step_ok; [assumption|congruence].
    split; intros rnd R; cbn [random_ok phi psi] in *; (destruct rnd as [|d rnd]; [destruct R|]); destruct R as [D R]; cbn [hd tl].
    - destruct (proj1 (phi1_ok honest n p Hp Hh xs cs st S) d D) as [D1 E1]. rewrite E1. assert (S2 : state_ok n (step (Masked xs cs) d st)) by (apply step_ok; [assumption|intros xs' cs' E; injection E as <- <-; assumption]).
      destruct (proj1 (IH _ S2) rnd R) as [R1 E2]. now rewrite E2.
    - destruct (proj2 (phi1_ok honest n p Hp Hh xs cs st S) d D) as [D1 E1]. rewrite E1. assert (S2 : state_ok n (step (Masked xs cs) (psi1 honest n p xs cs st d) st)) by (apply step_ok; [assumption|intros xs' cs' E; injection E as <- <-; assumption]).
      destruct (proj2 (IH _ S2) rnd R) as [R1 E2]. now rewrite E2.
  Qed.
  Lemma local_view f st : view honest (step (Local f) [] st) = sim_step honest p (Local f) [] [] (view honest st).
  Proof. unfold view. cbn [step sim_step]. rewrite !mapi_mapi. apply (mapi_ext _ _ []). intros i _. now destruct (honest i). Qed.
  Lemma share_view x src z r st : view honest (step (Share x src z r) [] st) = sim_step honest p (Share x src z r) [] [] (view honest st).
  Proof. unfold view. cbn [step sim_step]. rewrite !mapi_mapi. apply (mapi_ext _ _ []). intros i _. now destruct (honest i). Qed.
  Lemma reveal_view x r st shares : (forall i, (i < length st)%nat -> honest i = true -> nth i shares 0 = reg r (nth i st [])) -> view honest (step (Reveal x r) [] st) = sim_step honest p (Reveal x r) [] shares (view honest st).
  Proof.
    intros H. unfold view. cbn [step sim_step]. rewrite !map_as_mapi, !mapi_mapi.
    replace (mapi (fun q a => if honest q then nth q shares 0 else reg r (if honest q then [] else a)) st) with (mapi (fun _ => reg r) st).
    2: { apply (mapi_ext _ _ []). intros i Hi. destruct (honest i) eqn:E; [symmetry; now apply H|reflexivity]. }
    apply (mapi_ext _ _ []). intros i _. now destruct (honest i).
  Qed.
  Lemma simulation prog : forall st rnd, state_ok n st -> random_ok n prog rnd -> view honest (exec prog rnd st) = simulate honest p prog (phi prog st rnd) (revealed_shares honest prog rnd st) (view honest st).
  Proof.
    induction prog as [|i prog IH]; intros st rnd S R; [reflexivity|]. destruct i as [f|x src z r|xs cs|x r]; cbn [random_ok phi] in *.
    - cbn [exec simulate uses_draws revealed_shares app]. rewrite IH; [|apply step_ok; [assumption|congruence]|assumption]. now rewrite local_view.
    - cbn [exec simulate uses_draws revealed_shares app]. rewrite IH; [|apply step_ok; [assumption|congruence]|assumption]. now rewrite share_view.
    - destruct rnd as [|d rnd]; [destruct R|]. destruct R as [D R]. cbn [exec simulate uses_draws revealed_shares app hd tl]. rewrite IH; [|apply step_ok; [assumption|intros xs' cs' E; injection E as <- <-; assumption]|assumption]. now rewrite (masked_view honest n p Hp Hh).
    - cbn [exec simulate uses_draws revealed_shares app hd tl]. rewrite IH; [|apply step_ok; [assumption|congruence]|assumption]. rewrite <- (reveal_view x r st (mapi (fun q regs => if honest q then reg r regs else 0) st)); [reflexivity|]. intros i Hi E. rewrite (mapi_nth _ _ i []) by assumption. now rewrite E.
  Qed.
  Lemma no_reveal prog rnd st : Forall (fun i => match i with Reveal _ _ => False | _ => True end) prog -> revealed_shares honest prog rnd st = [].
  Proof. intros F. revert rnd st. induction F as [|i prog H F IH]; intros rnd st; [reflexivity|]. destruct i; [| | |destruct H]; cbn [revealed_shares uses_draws app]; apply IH. Qed.
End Programs.
Lemma bijection_trans {A} (ok : A -> Prop) f g f' g' : bijection ok f g -> bijection ok f' g' -> bijection ok (fun a => g' (f a)) (fun a => g (f' a)).
Proof.
  intros [B1 B2] [B1' B2']. split; intros a Ha.
  - destruct (B1 a Ha) as [O1 E1]. destruct (B2' _ O1) as [O2 E2]. split; [assumption|]. now rewrite E2.
  - destruct (B1' a Ha) as [O1 E1]. destruct (B2 _ O1) as [O2 E2]. split; [assumption|]. now rewrite E2.
Qed.
Lemma missing_share x p st r : (p < length st)%nat -> in64 (reg r (nth p st [])) -> missing x (total x (map (reg r) st)) (map (reg r) (view (Nat.eqb p) st)) = reg r (nth p st []).
Proof.
  intros Hp I. assert (E1 : map (reg r) st = map (fun i => reg r (nth i st [])) (seq 0 (length st))). { rewrite map_as_mapi. exact (mapi_seq (fun _ => reg r) [] st). }
  assert (E2 : map (reg r) (view (Nat.eqb p) st) = map (fun i => if Nat.eqb p i then 0 else reg r (nth i st [])) (seq 0 (length st))). { unfold view. rewrite map_mapi, (mapi_seq _ []). apply map_ext. intros i. destruct (Nat.eqb p i); [destruct r; reflexivity|reflexivity]. }
  rewrite E1, E2. assert (Ip : In p (seq 0 (length st))) by (apply in_seq; lia).
  destruct (split_at (seq 0 (length st)) p (fun i => reg r (nth i st [])) (seq_NoDup _ _) Ip) as [S1 X1].
  destruct (split_at (seq 0 (length st)) p (fun i => if Nat.eqb p i then 0 else reg r (nth i st [])) (seq_NoDup _ _) Ip) as [S2 X2].
  assert (R : map (fun i => if Nat.eqb p i then 0 else reg r (nth i st [])) (filter (fun j => negb (Nat.eqb j p)) (seq 0 (length st))) = map (fun i => reg r (nth i st [])) (filter (fun j => negb (Nat.eqb j p)) (seq 0 (length st)))).
  { apply map_ext_in. intros i Hi. apply filter_In in Hi as [_ Hi]. rewrite Nat.eqb_sym. now destruct (Nat.eqb i p). }
  unfold missing, total. destruct x.
  - rewrite X1, X2, R, Nat.eqb_refl, Z.lxor_0_l, Z.lxor_assoc, Z.lxor_nilpotent. apply Z.lxor_0_r.
  - rewrite S1, S2, R, Nat.eqb_refl. apply eqm_in64_eq; [apply wrap_in64|assumption|]. rewrite !wrap_eqm. apply eqm_refl_eq. ring.
Qed.
Lemma simulation_opened n p prog : (p < n)%nat -> forall st rnd, state_ok n st -> random_ok n prog rnd -> view (Nat.eqb p) (exec prog rnd st) = simulate_opened p prog (phi (Nat.eqb p) n p prog st rnd) (opened prog rnd st) (view (Nat.eqb p) st).
Proof.
  intros Hp. assert (Hh : Nat.eqb p p = true) by apply Nat.eqb_refl. induction prog as [|i prog IH]; intros st rnd S R; [reflexivity|]. destruct i as [f|x src z r|xs cs|x r]; cbn [random_ok phi] in *.
  - cbn [exec simulate_opened uses_draws opened app]. rewrite IH; [|apply step_ok; [assumption|congruence]|assumption]. now rewrite (local_view _ p).
  - cbn [exec simulate_opened uses_draws opened app]. rewrite IH; [|apply step_ok; [assumption|congruence]|assumption]. now rewrite (share_view _ p).
  - destruct rnd as [|d rnd]; [destruct R|]. destruct R as [D R]. cbn [exec simulate_opened uses_draws opened app hd tl]. rewrite IH; [|apply step_ok; [assumption|intros xs' cs' E; injection E as <- <-; assumption]|assumption]. now rewrite (masked_view _ n p Hp Hh).
  - cbn [exec simulate_opened uses_draws opened app hd tl]. rewrite IH; [|apply step_ok; [assumption|congruence]|assumption]. rewrite <- (reveal_view _ p x r st (map (fun _ => missing x (total x (map (reg r) st)) (map (reg r) (view (Nat.eqb p) st))) (view (Nat.eqb p) st))); [reflexivity|].
    intros i Hi E. apply Nat.eqb_eq in E as <-. destruct S as [L F]. rewrite missing_share by (try assumption; apply reg_in64, (state_regs n); split; assumption).
    set (c := reg r (nth p st [])). assert (X : nth p (map (fun _ : list Z => c) (view (Nat.eqb p) st)) c = c) by (rewrite (map_nth (fun _ : list Z => c) (view (Nat.eqb p) st) []); reflexivity). rewrite (nth_indep _ 0 c); [exact X|]. unfold view. now rewrite map_length, mapi_length.
Qed.

(** *** Claims *)
(** C87: whatever a coalition that leaves one party out sees of any sequence of operations can be computed from its own inputs, the revealed shares and fresh randomness of the same form; the correspondence between the two randomnesses is one-to-one *)
Lemma k_C87_simulation : forall honest n p prog st, (p < n)%nat -> honest p = true -> state_ok n st -> exists f g, bijection (random_ok n prog) f g /\
  forall rnd, random_ok n prog rnd -> view honest (exec prog rnd st) = simulate honest p prog (f rnd) (revealed_shares honest prog rnd st) (view honest st).
Proof. intros honest n p prog st Hp Hh S. exists (phi honest n p prog st), (psi honest n p prog st). split; [now apply phi_bijection|]. intros rnd R. now apply simulation. Qed.
(** C87: without a reveal, states that only differ in honest parties' registers cannot be told apart: the views have the same distribution *)
Lemma k_C87_no_reveal : forall honest n p prog st st', (p < n)%nat -> honest p = true -> state_ok n st -> state_ok n st' -> view honest st = view honest st' ->
  Forall (fun i => match i with Reveal _ _ => False | _ => True end) prog -> exists f g, bijection (random_ok n prog) f g /\
  forall rnd, random_ok n prog rnd -> view honest (exec prog rnd st) = view honest (exec prog (f rnd) st').
Proof.
  intros honest n p prog st st' Hp Hh S S' V NR. exists (fun a => psi honest n p prog st' (phi honest n p prog st a)), (fun a => psi honest n p prog st (phi honest n p prog st' a)). split.
  - apply bijection_trans; now apply phi_bijection.
  - intros rnd R. destruct (proj1 (phi_bijection honest n p Hp Hh prog st S) rnd R) as [R1 _]. destruct (proj2 (phi_bijection honest n p Hp Hh prog st' S') _ R1) as [R2 E2].
    rewrite (simulation honest n p Hp Hh prog st rnd S R), (simulation honest n p Hp Hh prog st' _ S' R2), E2, V, !no_reveal by assumption. reflexivity.
Qed.
(** C87: all parties but one together see nothing beyond what their inputs and the values returned by the reveals give them *)
Lemma k_C87_all_but_one : forall n p prog st, (p < n)%nat -> state_ok n st -> exists f g, bijection (random_ok n prog) f g /\
  forall rnd, random_ok n prog rnd -> view (Nat.eqb p) (exec prog rnd st) = simulate_opened p prog (f rnd) (opened prog rnd st) (view (Nat.eqb p) st).
Proof. intros n p prog st Hp S. exists (phi (Nat.eqb p) n p prog st), (psi (Nat.eqb p) n p prog st). split; [apply phi_bijection; [assumption|apply Nat.eqb_refl|assumption]|]. intros rnd R. now apply simulation_opened. Qed.
(** C87: so two secrets of party [p] for which every run reveals the same values give all the others the same distribution of views *)
Lemma k_C87_same_outputs : forall n p prog st st' values, (p < n)%nat -> state_ok n st -> state_ok n st' -> view (Nat.eqb p) st = view (Nat.eqb p) st' ->
  (forall rnd, random_ok n prog rnd -> opened prog rnd st = values /\ opened prog rnd st' = values) -> exists f g, bijection (random_ok n prog) f g /\
  forall rnd, random_ok n prog rnd -> view (Nat.eqb p) (exec prog rnd st) = view (Nat.eqb p) (exec prog (f rnd) st').
Proof.
  intros n p prog st st' values Hp S S' V O. assert (Hh : Nat.eqb p p = true) by apply Nat.eqb_refl.
  exists (fun a => psi (Nat.eqb p) n p prog st' (phi (Nat.eqb p) n p prog st a)), (fun a => psi (Nat.eqb p) n p prog st (phi (Nat.eqb p) n p prog st' a)). split.
  - apply bijection_trans; now apply phi_bijection.
  - intros rnd R. destruct (proj1 (phi_bijection _ n p Hp Hh prog st S) rnd R) as [R1 _]. destruct (proj2 (phi_bijection _ n p Hp Hh prog st' S') _ R1) as [R2 E2].
    rewrite (simulation_opened n p prog Hp st rnd S R), (simulation_opened n p prog Hp st' _ S' R2), E2, V. rewrite (proj1 (O rnd R)), (proj2 (O _ R2)). reflexivity.
Qed.

(** Property theorems C36: tracing and the tuple cache. *)
Require Import List Arith Lia.
From Verif Require Import Cache Cache_proofs.
Import ListNotations.

(** The requests a program makes, in order, and the serial numbers of the tuples it is given. *)
Definition requested {R} (h : list (pcall R)) : list R := flat_map (fun c => match c with PAsk _ r => [r] | _ => [] end) h.
Definition received {R} (os : list (outcome R)) : list nat := flat_map (fun o => match o with Served t => [t_serial t] | IndexError => [] end) os.
(** How often [r] occurs in [rs]. *)
Definition times {R} (eqb : R -> R -> bool) (r : R) (rs : list R) : nat := length (filter (eqb r) rs).
(** Trace the requests [rs], stop tracing, call fill_cache [m] times. *)
Definition trace_and_fill {R} (rs : list R) (m : nat) : list (pcall R) := PTrace R true :: map (PAsk R) rs ++ PTrace R false :: repeat (PFill R) m.

Section Claim.
  Context {R : Type} (eqb : R -> R -> bool).
  Hypothesis eqb_ok : forall a b, eqb a b = true <-> a = b.

  (** In any program of requests, tracing, filling, saving and loading, no tuple is ever handed out twice. *)
  Theorem C36_once : forall h : list (pcall R), NoDup (received (fst (perform R eqb h (fresh_provider R)))).
  Proof.
    intros h. pose proof (inv_perform eqb eqb_ok h [] _ inv_fresh) as I. destruct (perform R eqb h (fresh_provider R)) as [os s]. destruct I as [I _].
    cbn [fst]. destruct I as [N _]. exact (NoDup_app_l _ _ N).
  Qed.
  (** ... and every tuple handed out was made for exactly the request it answers. *)
  Theorem C36_matching : forall h : list (pcall R),
    Forall2 (fun r o => match o with Served t => t_for t = r | IndexError => True end) (requested h) (fst (perform R eqb h (fresh_provider R))).
  Proof.
    intros h. pose proof (inv_perform eqb eqb_ok h [] _ inv_fresh) as I. destruct (perform R eqb h (fresh_provider R)) as [os s]. exact (proj2 I).
  Qed.
  (** After tracing [rs] and filling [m] times, then any requests [rs'], the answer to [r] is: a tuple made by the filling, without making a new one,
      as long as fewer than [m] times the traced number have been used; an IndexError from then on; a new tuple if [r] was never traced. *)
  Theorem C36_answers : forall rs m rs' r, (0 < m)%nat -> rs <> [] ->
    let s := snd (perform R eqb (trace_and_fill rs m) (fresh_provider R)) in
    let s' := snd (ask_all R eqb rs' s) in
    let (o, s'') := ask R eqb r s' in
    generated s = (length rs + m * length rs)%nat /\
    (In r rs -> generated s'' = generated s') /\
    ((times eqb r rs' < m * times eqb r rs)%nat -> exists t, o = Served t /\ (length rs <= t_serial t < generated s)%nat) /\
    (In r rs -> (m * times eqb r rs <= times eqb r rs')%nat -> o = IndexError) /\
    (~ In r rs -> o = Served (mkTup r (generated s'))).
  Proof.
    intros rs m rs' r Hm Ne s s'. pose proof (answers eqb eqb_ok rs m rs' r Hm Ne) as A. cbv zeta in A.
    change (prepared rs m) with (trace_and_fill rs m) in A. fold s in A. fold s' in A. destruct (ask R eqb r s') as [o s'']. split; [|exact A].
    destruct (prepared_state eqb eqb_ok rs m) as (_ & _ & _ & G). exact G.
  Qed.
  (** Saving and loading under one path restores requests and tuples, unless there was nothing to save and an older file is read instead. *)
  Theorem C36_save_load : forall p s, let s' := load_cache R p (save_cache R p s) in
    tracing s' = tracing s /\ generated s' = generated s /\
    (requests s <> [] \/ req_file R s p = None -> requests s' = requests s) /\
    (cache s <> [] \/ tup_file R s p = None -> cache s' = cache s) /\
    (forall old, cache s = [] -> tup_file R s p = Some old -> cache s' = old) /\
    req_file R s' p = None /\ tup_file R s' p = None.
  Proof.
    intros p s. destruct (save_load p s) as (A & B & C & D & E & F & _). cbv zeta. rewrite A, B, C, D, E, F. repeat (split; [reflexivity|]).
    split; [|split; [|split; [|split; reflexivity]]].
    - intros [H|H]; [destruct (requests s); [congruence|reflexivity]|]. rewrite H. destruct (requests s); reflexivity.
    - intros [H|H]; [destruct (cache s); [congruence|reflexivity]|]. rewrite H. destruct (cache s); reflexivity.
    - intros old H1 H2. now rewrite H1, H2.
  Qed.
End Claim.
Print Assumptions C36_once.
Print Assumptions C36_matching.
Print Assumptions C36_answers.
Print Assumptions C36_save_load.

(** Requests as numbers: 7 is traced twice and 8 once; after one filling the cached tuples are 5, 3 (last in, first out) and 4; a third request for 7 fails;
    9 was never traced. *)
Example C36_case :
  fst (perform nat Nat.eqb (trace_and_fill [7; 8; 7] 1 ++ map (PAsk nat) [7; 8; 9; 7; 7; 9]) (fresh_provider nat)) =
  [Served (mkTup 7 0); Served (mkTup 8 1); Served (mkTup 7 2);
   Served (mkTup 7 5); Served (mkTup 8 4); Served (mkTup 9 6); Served (mkTup 7 3); IndexError; Served (mkTup 9 7)].
Proof. reflexivity. Qed.
Example C36_case_files :
  fst (perform nat Nat.eqb (trace_and_fill [7; 8] 1 ++ [PSave nat 0; PAsk nat 7; PLoad nat 0; PAsk nat 7; PLoad nat 0; PAsk nat 8]) (fresh_provider nat)) =
  [Served (mkTup 7 0); Served (mkTup 8 1); Served (mkTup 7 4); Served (mkTup 7 2); Served (mkTup 8 3)].
Proof. reflexivity. Qed.
Example C36_case_eqb : forall a b, Nat.eqb a b = true <-> a = b.
Proof. exact Nat.eqb_eq. Qed.

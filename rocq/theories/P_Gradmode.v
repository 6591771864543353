(** C51: gradient-mode contexts nest and restore. *)
Require Import List Bool Arith Lia.
From Verif Require Import Gradmode.
Import ListNotations.

(** set_grad_enabled is only called inside with blocks *)
Fixpoint scoped (c : code) : Prop :=
  match c with
  | Set_enabled _ => False
  | Seq a b | Try a b | If _ a b => scoped a /\ scoped b
  | _ => True
  end.
(** code in which no context and no call of set_grad_enabled sets the mode to [m] *)
Fixpoint never_sets (m : bool) (c : code) : Prop :=
  match c with
  | Set_enabled m' => m' = negb m
  | Seq a b | Try a b | If _ a b => never_sets m a /\ never_sets m b
  | No_grad a => m = true /\ never_sets m a
  | Enable_grad a => m = false /\ never_sets m a
  | _ => True
  end.
(** the operations done by [c], started with mode [m] *)
Definition done (m : bool) (c : code) : list (nat * bool) := snd (snd (exec c (m, []))).

Lemma scoped_restores c : forall s, scoped c -> fst (snd (exec c s)) = fst s.
Proof.
  induction c; intros s S; cbn [exec scoped] in *; try reflexivity; try contradiction.
  - destruct S as [Sa Sb]. specialize (IHc1 s Sa). destruct (exec c1 s) as [[|] s']; cbn in *; [rewrite IHc2 by assumption|]; assumption.
  - destruct S as [Sa Sb]. specialize (IHc1 s Sa). destruct (exec c1 s) as [[|] s']; cbn in *; [|rewrite IHc2 by assumption]; assumption.
  - destruct S as [Sa Sb]. destruct (cond (fst s)); auto.
  - destruct (exec c (set_mode false s)); reflexivity.
  - destruct (exec c (set_mode true s)); reflexivity.
Qed.
Lemma exec_log c : forall m l, exec c (m, l) = let (ok, s) := exec c (m, []) in (ok, (fst s, l ++ snd s)).
Proof.
  induction c; intros m l; cbn [exec set_mode fst snd].
  - now rewrite app_nil_r.
  - reflexivity.
  - now rewrite app_nil_r.
  - now rewrite app_nil_r.
  - rewrite IHc1. destruct (exec c1 (m, [])) as [[|] [m' l']]; cbn [fst snd]; [|reflexivity]. rewrite (IHc2 m' (l ++ l')), (IHc2 m' l'). destruct (exec c2 (m', [])) as [ok [m2 l2]]. cbn. now rewrite app_assoc.
  - rewrite IHc1. destruct (exec c1 (m, [])) as [[|] [m' l']]; cbn [fst snd]; [reflexivity|]. rewrite (IHc2 m' (l ++ l')), (IHc2 m' l'). destruct (exec c2 (m', [])) as [ok [m2 l2]]. cbn. now rewrite app_assoc.
  - destruct (cond m); auto.
  - unfold set_mode. cbn [fst snd]. rewrite IHc. destruct (exec c (false, [])) as [ok [m' l']]. reflexivity.
  - unfold set_mode. cbn [fst snd]. rewrite IHc. destruct (exec c (true, [])) as [ok [m' l']]. reflexivity.
Qed.
Lemma steady m c : forall s, never_sets (negb m) c -> fst s = m -> (forall e, In e (snd s) -> snd e = m) -> fst (snd (exec c s)) = m /\ forall e, In e (snd (snd (exec c s))) -> snd e = m.
Proof.
  induction c; intros [m0 l] N E H; cbn [exec never_sets fst snd] in *; subst m0; try (split; [reflexivity|exact H]).
  - split; [reflexivity|]. intros e I. apply in_app_or in I as [I|[<-|[]]]; [now apply H|reflexivity].
  - rewrite negb_involutive in N. subst mode. split; [reflexivity|exact H].
  - destruct N as [Na Nb]. destruct (IHc1 (m, l) Na eq_refl H) as [A B]. destruct (exec c1 (m, l)) as [[|] s']; cbn in *; [now apply IHc2|auto].
  - destruct N as [Na Nb]. destruct (IHc1 (m, l) Na eq_refl H) as [A B]. destruct (exec c1 (m, l)) as [[|] s']; cbn in *; [auto|now apply IHc2].
  - destruct N as [Na Nb]. destruct (cond m); auto.
  - destruct N as [Em Na]. destruct m; [discriminate Em|]. unfold set_mode. cbn [fst snd]. destruct (IHc (false, l) Na eq_refl H) as [A B]. destruct (exec c (false, l)) as [ok [m' l']]. cbn in *. auto.
  - destruct N as [Em Na]. destruct m; [|discriminate Em]. unfold set_mode. cbn [fst snd]. destruct (IHc (true, l) Na eq_refl H) as [A B]. destruct (exec c (true, l)) as [ok [m' l']]. cbn in *. auto.
Qed.

(** After the block, however it ends and whatever it does (set_grad_enabled included), the mode is what it was before; so it is after any code that calls set_grad_enabled only inside blocks. *)
Theorem C51_restored : (forall a s, fst (snd (exec (No_grad a) s)) = fst s /\ fst (snd (exec (Enable_grad a) s)) = fst s) /\ (forall c s, scoped c -> fst (snd (exec c s)) = fst s).
Proof. split; [intros a s; split; apply scoped_restores; exact I|exact scoped_restores]. Qed.
Print Assumptions C51_restored.

(** Inside no_grad nothing is recorded, unless the block turns the mode on; inside enable_grad everything is, unless the block turns it off; the outer mode does not matter. *)
Theorem C51_inside : forall a m, (never_sets true a -> forall e, In e (done m (No_grad a)) -> snd e = false) /\ (never_sets false a -> forall e, In e (done m (Enable_grad a)) -> snd e = true).
Proof.
  intros a m. unfold done. cbn [exec]. unfold set_mode. cbn [fst snd]. split; intros N.
  - destruct (steady false a (false, []) N eq_refl (fun e F => match F with end)) as [_ B]. destruct (exec a (false, [])) as [ok [m' l']]. exact B.
  - destruct (steady true a (true, []) N eq_refl (fun e F => match F with end)) as [_ B]. destruct (exec a (true, [])) as [ok [m' l']]. exact B.
Qed.
Print Assumptions C51_inside.

(** *** Threads *)
(** a trace in which only thread [t] acts *)
Definition only (t : nat) (l : list event) : Prop := Forall (fun e => match e with Enter u _ => u = t | Exit u => u = t end) l.
Lemma only_bottom t l : forall s s', only t l -> trace s l = Some s' -> last (fst s :: snd s t) true = last (fst s' :: snd s' t) true.
Proof.
  induction l as [|e l IH]; intros s s' O E; [cbn in E; now injection E as ->|]. inversion O; subst. cbn [trace] in E. destruct e as [u m|u]; cbn [tstep] in E; subst u.
  - rewrite <- (IH _ _ H2 E). cbn [fst snd]. unfold tupd. rewrite Nat.eqb_refl. reflexivity.
  - destruct (snd s t) as [|prior rest] eqn:F; [discriminate|]. rewrite <- (IH _ _ H2 E). cbn [fst snd]. unfold tupd. rewrite Nat.eqb_refl. reflexivity.
Qed.
(** If only one thread uses the contexts, then whenever it is outside all its blocks the mode is the initial one. *)
Theorem C51_one_thread : forall t l m s', only t l -> trace (m, fun _ => []) l = Some s' -> snd s' t = [] -> fst s' = m.
Proof. intros t l m s' O E F. pose proof (only_bottom t l _ _ O E) as H. rewrite F in H. cbn in H. congruence. Qed.
Print Assumptions C51_one_thread.
(** With two threads this fails: gradients stay disabled after both have left their blocks. *)
Theorem C51_threads_refuted : exists l m s', trace (true, fun _ => []) l = Some (m, s') /\ (forall t, s' t = []) /\ m = false.
Proof.
  exists [Enter 0 false; Enter 1 false; Exit 0; Exit 1], false. eexists. split; [reflexivity|]. split; [|reflexivity]. intros [|[|t]]; reflexivity.
Qed.
Print Assumptions C51_threads_refuted.

(** Concrete cases. *)
Definition nested : code := Try (Seq (Op 1) (No_grad (Seq (Op 2) (Seq (Enable_grad (Seq (Op 3) (Set_enabled false))) (Seq (Op 4) Raise))))) (Op 5).
Example C51_case : scoped nested /\ exec nested (true, []) = (true, (true, [(1, true); (2, false); (3, true); (4, false); (5, true)])).
Proof. repeat split. Qed.
Example C51_case_inside : never_sets true (Try (Seq (Op 1) (No_grad (Seq (Op 2) Raise))) (Op 3)) /\ done true (No_grad (Try (Seq (Op 1) (No_grad (Seq (Op 2) Raise))) (Op 3))) = [(1, false); (2, false); (3, false)].
Proof. repeat split. Qed.
Example C51_case_thread : only 0 [Enter 0 false; Enter 0 true; Exit 0; Exit 0] /\ option_map fst (trace (true, fun _ => []) [Enter 0 false; Enter 0 true; Exit 0; Exit 0]) = Some true.
Proof. split; [repeat constructor|reflexivity]. Qed.

(** Proofs about C103 and C107: which settings log and reciprocal read. *)
Require Import ZArith QArith List Bool Lia.
From Verif Require Import Ring64 Encoder Arith Provider Binary Compare Regular Shareapprox Sharelog Sharerecip.
Import ListNotations.
Open Scope Z_scope.

(** the same settings for log; log_exp_iterations matters only if there are Householder steps *)
Definition same_log (iters d' d'' : nat) : Prop := iters = O \/ d' = d''.
(** the same settings for reciprocal: those of the other method are irrelevant *)
Definition same_reciprocal (c c' : rconfig) : Prop :=
  r_method c = r_method c' /\ r_all_pos c = r_all_pos c' /\ (r_method c <> ByOther -> r_exp_iterations c = r_exp_iterations c') /\ (r_method c = ByNewton -> r_nr_iters c = r_nr_iters c') /\
  (r_method c = ByLog -> r_log_iterations c = r_log_iterations c' /\ (r_log_iterations c <> O -> r_log_order c = r_log_order c') /\ same_log (r_log_iterations c) (r_log_exp_iterations c) (r_log_exp_iterations c')).

(** C103: without Householder steps log uses exp_iterations only, whatever log_exp_iterations and log_order are. *)
Lemma k_C103_settings {pr : provider} chk d d' d'' o o' k x st : same_log k d' d'' -> (k <> O -> o = o') -> logv (pr := pr) chk d d' o k x st = logv (pr := pr) chk d d'' o' k x st.
Proof. intros [-> | ->] O'; [unfold logv; cbn [repeatv]; reflexivity|]. destruct k; [unfold logv; cbn [repeatv]; reflexivity|]. now rewrite O' by discriminate. Qed.
Lemma bindo_ext {pr A B} (m m' : runo pr A) (f f' : A -> runo pr B) st : (forall s, m s = m' s) -> (forall a s, f a s = f' a s) -> bindo m f st = bindo m' f' st.
Proof. intros H K. unfold bindo, bind. rewrite H. destruct (m' st) as [[a|] s]; [apply K|reflexivity]. Qed.
(** C107: reciprocal reads the settings of its own method only, and of log's those that log reads. *)
Lemma k_C107_settings {pr : provider} D chk c c' b x st : same_reciprocal c c' -> recipv (pr := pr) D chk c b x st = recipv (pr := pr) D chk c' b x st.
Proof.
  intros (M & A & Ex & Nr & Lg).
  assert (P : forall c c', r_method c = r_method c' -> (r_method c <> ByOther -> r_exp_iterations c = r_exp_iterations c') -> (r_method c = ByNewton -> r_nr_iters c = r_nr_iters c') -> (r_method c = ByLog -> r_log_iterations c = r_log_iterations c' /\ (r_log_iterations c <> O -> r_log_order c = r_log_order c') /\ same_log (r_log_iterations c) (r_log_exp_iterations c) (r_log_exp_iterations c')) -> forall x st, recip_positivev (pr := pr) chk c x st = recip_positivev (pr := pr) chk c' x st).
  { clear. intros c c' M Ex Nr Lg x st. unfold recip_positivev. rewrite <- M. destruct (r_method c) eqn:Hm.
    - rewrite <- Ex, <- Nr by congruence. reflexivity.
    - destruct (Lg eq_refl) as (L1 & L2 & L3). unfold recip_logv. rewrite <- Ex, <- L1 by congruence. apply bindo_ext; [|reflexivity]. intros s. apply k_C103_settings; assumption.
    - reflexivity. }
  assert (S : forall x st, recip_signedv (pr := pr) D chk c x st = recip_signedv (pr := pr) D chk c' x st).
  { intros y s. unfold recip_signedv. rewrite <- A. destruct (r_all_pos c); [now apply P|]. apply bindo_ext; [reflexivity|]. intros sg s1. apply bindo_ext; [reflexivity|]. intros p s2. apply bindo_ext; [|reflexivity]. intros s3. now apply P. }
  unfold recipv. destruct b; [|apply S]. unfold recip_signedv, with_positive. cbn [r_all_pos]. apply bindo_ext; [|reflexivity]. intros s. apply P; cbn [r_method r_exp_iterations r_nr_iters r_log_iterations r_log_exp_iterations r_log_order]; assumption.
Qed.

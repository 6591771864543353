(** The multiplicative order of the generator of the base oblivious transfer. *)
Require Import ZArith List Lia Zpow_facts.
From Verif Require Import Ot Ot_proofs.
Require Import Znumtheory.
Import ListNotations.
Open Scope Z_scope.

(** *** Primality by trial division by 2 and the odd numbers from 3 *)
Definition step (q : Z) (s : Z * bool) : Z * bool := (fst s + 2, andb (snd s) (negb (q mod fst s =? 0))).
Definition trial (q : Z) (n : positive) : Z * bool := Pos.iter (step q) (3, negb (q mod 2 =? 0)) n.
Lemma trial_ok q n : 3 <= q -> snd (trial q n) = true -> q < fst (trial q n) * fst (trial q n) -> prime q.
Proof.
  intros Hq Ht Hn. set (Inv := fun s : Z * bool => Z.odd (fst s) = true /\ 3 <= fst s /\ (snd s = true -> forall e, 2 <= e < fst s -> ~ (e | q))).
  assert (I : Inv (trial q n)).
  { unfold trial. apply Pos.iter_invariant.
    - intros [d ok] (O & L & F). unfold Inv, step. cbn [fst snd] in *. split; [|split].
      + rewrite Z.odd_add, O. reflexivity.
      + lia.
      + intros E e He. apply Bool.andb_true_iff in E as [E1 E2]. specialize (F E1). destruct (Z.lt_trichotomy e d) as [X|[X|X]]; [apply F; lia| |].
        * subst e. intros D. apply Zdivide_mod in D. rewrite D in E2. discriminate.
        * assert (e = d + 1) by lia. subst e. intros D. apply (F 2); [lia|]. apply Z.divide_trans with (d + 1); [|exact D].
          apply Zmod_divide; [lia|]. rewrite Zmod_odd, Z.odd_add, O. reflexivity.
    - unfold Inv. cbn [fst snd]. split; [reflexivity|]. split; [lia|]. intros E e He D. assert (e = 2) by lia. subst. apply Zdivide_mod in D. rewrite D in E. discriminate. }
  destruct I as (O & L & F). specialize (F Ht). destruct (trial q n) as [m ok]. cbn [fst snd] in *. apply prime_alt. split; [lia|].
  intros e He [k Ek]. assert (1 < k) by nia. destruct (Z.lt_ge_cases e m) as [A|A].
  - apply (F e); [lia|]. exists k. exact Ek.
  - apply (F k); [nia|]. exists e. lia.
Qed.

Section Order.
  Variables g p : Z.
  Hypothesis p_big : 1 < p.
  Definition one (e : Z) : Prop := g ^ e mod p = 1.
  Lemma one_add a b : 0 <= a -> 0 <= b -> one b -> (one (a + b) <-> one a).
  Proof.
    intros Ha Hb B. unfold one in *. rewrite Z.pow_add_r by assumption. rewrite <- Z.mul_mod_idemp_r by lia. rewrite B, Z.mul_1_r. reflexivity.
  Qed.
  Lemma one_mul a k : 0 <= a -> 0 <= k -> one a -> one (k * a).
  Proof.
    intros Ha Hk A. unfold one in *. rewrite Z.mul_comm, Z.pow_mul_r by assumption. rewrite Zpower_mod, A by lia. rewrite Z.pow_1_l by assumption. apply Z.mod_small. lia.
  Qed.
  (** if [u * e = c + v * s] with [s * r] a period, then [c * r] is a period *)
  Lemma one_combine e r s c u v : 0 <= e -> 0 <= r -> 0 <= s -> 0 <= c -> 0 <= u -> 0 <= v -> one e -> one (s * r) -> u * e = c + v * s -> one (c * r).
  Proof.
    intros He Hr Hs Hc Hu Hv E N B. apply (one_add (c * r) (v * (s * r))); [nia|nia|apply one_mul; [nia|assumption|exact N]|].
    replace (c * r + v * (s * r)) with ((u * r) * e) by nia. apply one_mul; [assumption|nia|exact E].
  Qed.
  Lemma order_prime e q r : 0 <= e -> 0 <= r -> prime q -> one (q * r) -> ~ one r -> one e -> (q | e).
  Proof.
    intros He Hr Hq N R E. destruct (Zdivide_dec q e) as [D|D]; [exact D|]. exfalso. apply R.
    pose proof (prime_ge_2 q Hq). pose proof (prime_rel_prime q Hq e D) as RP. apply rel_prime_sym in RP. apply rel_prime_bezout in RP as [u v B].
    replace r with (1 * r) by lia. apply (one_combine e r q 1 (u mod q) ((u mod q * e) / q)); try lia; try assumption.
    - apply Z.mod_pos_bound. lia.
    - apply Z.div_pos; [|lia]. apply Z.mul_nonneg_nonneg; [|assumption]. apply Z.mod_pos_bound. lia.
    - rewrite (Z.div_mod (u mod q * e) q) at 1 by lia. rewrite Zmult_mod_idemp_l. replace (u * e) with (1 + (- v) * q) by lia. rewrite Z_mod_plus_full. rewrite (Z.mod_small 1) by lia. lia.
  Qed.
  Definition small32 : list Z := map Z.of_nat (seq 0 32).
  Lemma in_small32 z : 0 <= z < 32 -> In z small32.
  Proof. intros H. unfold small32. apply in_map_iff. exists (Z.to_nat z). split; [lia|]. apply in_seq. lia. Qed.
  Lemma bezout32 : forallb (fun e => (e =? 0) || existsb (fun u => (u * e) mod 32 =? 16) small32)%bool small32 = true.
  Proof. vm_compute. reflexivity. Qed.
  Lemma order_32 e r : 0 <= e -> 0 <= r -> one (32 * r) -> ~ one (16 * r) -> one e -> (32 | e).
  Proof.
    intros He Hr N R E. apply Zmod_divide; [lia|]. pose proof (Z.mod_pos_bound e 32 eq_refl) as B. pose proof bezout32 as A. rewrite forallb_forall in A.
    specialize (A _ (in_small32 _ B)). apply Bool.orb_true_iff in A as [A|A]; [lia|]. exfalso. apply R. apply existsb_exists in A as (u & Iu & A). apply Z.eqb_eq in A.
    assert (0 <= u) by (unfold small32 in Iu; apply in_map_iff in Iu as (k & <- & _); lia). rewrite Zmult_mod_idemp_r in A.
    apply (one_combine e r 32 16 u ((u * e) / 32)); try lia; try assumption.
    - apply Z.div_pos; nia.
    - rewrite (Z.div_mod (u * e) 32) at 1 by lia. lia.
  Qed.
End Order.

Lemma square32 : forallb (fun a => negb ((a * a) mod 32 =? 0) || (a mod 8 =? 0))%bool small32 = true.
Proof. vm_compute. reflexivity. Qed.
Lemma eight a : (32 | a * a) -> (8 | a).
Proof.
  intros D. apply Zdivide_mod in D. pose proof (Z.mod_pos_bound a 32 eq_refl) as B. pose proof square32 as A. rewrite forallb_forall in A. specialize (A _ (in_small32 _ B)).
  rewrite <- Zmult_mod, D in A. cbn [Z.eqb negb orb] in A. apply Z.eqb_eq in A. apply Zmod_divide; [lia|]. rewrite <- A. change 32 with (8 * 4). rewrite Z.rem_mul_r by lia.
  rewrite (Z.mul_comm 8). rewrite Z_mod_plus_full. now rewrite Z.mod_mod by lia.
Qed.
Lemma prime_square q a : prime q -> (q | a * a) -> (q | a).
Proof. intros P D. apply prime_mult in D; tauto. Qed.

(** [prime - 1 = 2^5 * product of small_factors * cofactor] *)
Definition small_factors : list Z := [7; 53; 167; 14159; 489113].
Definition safe_modulus : Z := 8 * fold_right Z.mul 1 small_factors.
Definition steps (q : Z) : positive := Z.to_pos (Z.sqrt q / 2 + 1).
Definition is_prime (q : Z) : bool := let t := trial q (steps q) in (snd t && (q <? fst t * fst t))%bool.
Lemma is_prime_ok q : 3 <= q -> is_prime q = true -> prime q.
Proof. intros Hq H. apply Bool.andb_true_iff in H as [A B]. apply (trial_ok q (steps q) Hq A). now apply Z.ltb_lt in B. Qed.
(** [q] is a prime factor of [prime - 1] and [g^((prime - 1) / q) <> 1] *)
Definition good_factor (q : Z) : bool :=
  ((3 <=? q) && is_prime q && (q * ((Ot.prime - 1) / q) =? Ot.prime - 1) && negb (pow3 generator ((Ot.prime - 1) / q) Ot.prime =? 1))%bool.
Lemma factors_checked : forallb good_factor small_factors = true.
Proof. vm_compute. reflexivity. Qed.
Lemma one_iff e : 0 <= e -> (one generator Ot.prime e <-> pow3 generator e Ot.prime = 1).
Proof. intros He. unfold one. now rewrite pow3_eq. Qed.
Lemma n_pos : 0 < Ot.prime - 1. Proof. reflexivity. Qed.
Lemma factor_divides q a : good_factor q = true -> 0 <= a -> one generator Ot.prime (a * a) -> (q | a).
Proof.
  intros G Ha E. unfold good_factor in G. apply Bool.andb_true_iff in G as [G G4]. apply Bool.andb_true_iff in G as [G G3]. apply Bool.andb_true_iff in G as [G1 G2].
  apply Z.leb_le in G1. apply is_prime_ok in G2; [|assumption]. apply Z.eqb_eq in G3. apply Bool.negb_true_iff, Z.eqb_neq in G4.
  assert (R : 0 <= (Ot.prime - 1) / q) by (apply Z.div_pos; [apply Z.lt_le_incl, n_pos|lia]).
  apply prime_square; [assumption|]. apply (order_prime generator Ot.prime eq_refl (a * a) q ((Ot.prime - 1) / q)); [now apply Z.mul_nonneg_nonneg|assumption|assumption| | |exact E].
  - rewrite G3. exact fermat.
  - intros X. apply G4. now apply one_iff.
Qed.
Lemma half_not_one : pow3 generator (16 * ((Ot.prime - 1) / 32)) Ot.prime <> 1.
Proof. vm_compute. discriminate. Qed.
Lemma eight_divides a : 0 <= a -> one generator Ot.prime (a * a) -> (8 | a).
Proof.
  intros Ha E. apply eight. assert (R : 0 <= (Ot.prime - 1) / 32) by (apply Z.div_pos; [apply Z.lt_le_incl, n_pos|lia]).
  apply (order_32 generator Ot.prime eq_refl (a * a) ((Ot.prime - 1) / 32)); [now apply Z.mul_nonneg_nonneg|assumption| | |exact E].
  - replace (32 * ((Ot.prime - 1) / 32)) with (Ot.prime - 1) by (vm_compute; reflexivity). exact fermat.
  - intros X. apply half_not_one. rewrite <- one_iff by (apply Z.mul_nonneg_nonneg; [discriminate|assumption]). exact X.
Qed.
(** pairwise coprime divisors *)
Fixpoint coprime_chain (m : Z) (l : list Z) : bool := match l with [] => true | q :: l => (Z.gcd m q =? 1) && coprime_chain (m * q) l end.
Lemma chain_divides a : forall l m, coprime_chain m l = true -> (m | a) -> Forall (fun q => (q | a)) l -> (m * fold_right Z.mul 1 l | a).
Proof.
  induction l as [|q l IH]; intros m C D F; cbn [fold_right coprime_chain] in *; [now rewrite Z.mul_1_r|].
  apply Bool.andb_true_iff in C as [C1 C2]. apply Z.eqb_eq in C1. inversion F as [|? ? F1 F2]; subst. rewrite Z.mul_assoc. apply IH; [exact C2| |exact F2].
  destruct D as [k Ek]. destruct (Gauss q m k) as [j Ej].
  - rewrite Z.mul_comm, <- Ek. exact F1.
  - apply Zgcd_1_rel_prime. now rewrite Z.gcd_comm.
  - exists j. rewrite Ek, Ej. ring.
Qed.
Lemma degenerate_multiple a : 0 <= a -> generator ^ (a * a) mod Ot.prime = 1 -> (safe_modulus | a).
Proof.
  intros Ha E. apply chain_divides; [vm_compute; reflexivity|now apply eight_divides|]. apply Forall_forall. intros q Hq. apply factor_divides; [|assumption|exact E].
  pose proof factors_checked as F. rewrite forallb_forall in F. now apply F.
Qed.

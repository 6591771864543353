(** C52: gradient steps. *)
Require Import ZArith QArith Qabs List Lia Lqa Bool.
From Verif Require Import Ring64 Sharing Encoder Arith Beaver Trunc Provider Binary Compare Compare_claims Maximum P_Maximum Regular Regular_proofs Regular_claims Optim Optim_claims.
Import ListNotations.
Open Scope Q_scope.

(** Whatever gradients the parameters have at each step (some may have none), a parameter listed once follows the momentum recursion of its own group, in exact arithmetic: every step subtracts the learning rate times the
    direction, a weighted sum of all its gradients so far (with weight decay). *)
Theorem C52_sgd : forall threshold groups history values i o, In (o, i) (entries groups) -> NoDup (map snd (entries groups)) ->
  exists P d : nat -> Q, P 0%nat = values i /\ let gs := present i history in P (length gs) = fst (steps Qplus Qminus Qmult threshold groups history (fresh values)) i /\
    forall k, (k < length gs)%nat -> P (S k) == P k - lr o * direction o d k /\ d k == threshold (nth k gs 0) + weight_decay o * P k.
Proof. exact k_C52_sgd. Qed.
Print Assumptions C52_sgd.
(** Which options the constructor accepts: nothing negative, and Nesterov's method only with momentum and without dampening. *)
Theorem C52_accepted : forall o, accepted o = true <-> 0 <= lr o /\ 0 <= momentum o /\ 0 <= weight_decay o /\ (nesterov o = true -> 0 < momentum o /\ dampening o == 0).
Proof. exact k_C52_accepted. Qed.
Print Assumptions C52_accepted.
(** Tensors that are not in the optimizer do not change. *)
Theorem C52_others : forall threshold groups history values i, ~ In i (map snd (entries groups)) -> fst (steps Qplus Qminus Qmult threshold groups history (fresh values)) i = values i.
Proof. intros threshold groups history values i N. exact (f_equal fst (steps_absent Qplus Qminus Qmult threshold groups i history N (fresh values))). Qed.
Print Assumptions C52_others.

(** On tensors with exact addition and multiplications within [eps] (a different one at every step), [n] steps without weight decay stay within eps * n * (1 + lr * n) of the exact trajectory. *)
Theorem C52_error : forall (T : Type) (add sub : T -> T -> T) (threshold : T -> T) (thresholdQ : Q -> Q) (val : T -> Q) (eps : Q), 0 <= eps ->
  (forall a b, val (add a b) == val a + val b) -> (forall a b, val (sub a b) == val a - val b) -> (forall a, val (threshold a) == thresholdQ (val a)) ->
  forall o h p0, weight_decay o == 0 -> 0 <= lr o -> 0 <= momentum o <= 1 -> 0 <= dampening o <= 1 -> Forall (fun e => accurate val eps (fst e)) h ->
    Qabs (val (fst (follow_inexact add sub threshold o (p0, None) h)) - fst (follow Qplus Qminus Qmult thresholdQ o (val p0, None) (map (fun e => val (snd e)) h)))
      <= eps * inject_Z (Z.of_nat (length h)) * (1 + lr o * inject_Z (Z.of_nat (length h))).
Proof. intros T add sub thr thrQ val eps H1 H2 H3 H4 o h p0 H5 H6 H7 H8 H9. exact (proj1 (inexact_ok add sub thr thrQ val eps H1 H2 H3 H4 o h p0 H5 H6 H7 H8 H9)). Qed.
Print Assumptions C52_error.

(** Thresholding of an encrypted gradient (any number of parties): a gradient whose square fits 63 bits is kept if below the threshold and zeroed if above, up to the truncation error of the square. *)
Theorem C52_threshold : forall n pr D, (0 < n)%nat -> valid n pr -> (1 < D)%Z -> forall E t, (1 <= E < 2 ^ 60)%Z -> (0 <= t * t * D < 2 ^ 61)%Z ->
  forall g st z, sharing n g -> n_sc g = D -> fst (thresholded (pr := pr) D (within E) t g st) = Some z -> (open_a (n_sh g) * open_a (n_sh g) < H63)%Z ->
    fst (thresholded (pr := pr) D no_check t g st) = Some z /\ n_sc z = D /\
    (qval g * qval g + ulps E D <= inject_Z (t * t) -> open_a (n_sh z) = open_a (n_sh g)) /\ (inject_Z (t * t) + ulps E D <= qval g * qval g -> open_a (n_sh z) = 0%Z).
Proof. intros n pr D Hn HV HD E t HE Ht g st z Sg Sc R F. destruct (k_C52_threshold n pr D Hn HV HD E t HE Ht g st z Sg Sc R) as (A & B & C & _). specialize (C F). tauto. Qed.
Print Assumptions C52_threshold.
(** Larger gradients, which thresholding is for, can pass it: every multiple of 2^32 units does, however large. *)
Theorem C52_threshold_overflow_refuted : forall n pr D, (0 < n)%nat -> valid n pr -> (1 < D)%Z -> forall E t, (1 <= E < 2 ^ 60)%Z -> (0 <= t * t * D < 2 ^ 61)%Z -> ulps E D <= inject_Z (t * t) ->
  forall g st z, sharing n g -> n_sc g = D -> fst (thresholded (pr := pr) D (within E) t g st) = Some z -> (2 ^ 32 | open_a (n_sh g))%Z ->
    fst (thresholded (pr := pr) D no_check t g st) = Some z /\ open_a (n_sh z) = open_a (n_sh g).
Proof. intros n pr D Hn HV HD E t HE Ht U g st z Sg Sc R Hd. destruct (k_C52_threshold n pr D Hn HV HD E t HE Ht g st z Sg Sc R) as (A & B & _ & C). split; [exact A|exact (C Hd U)]. Qed.
Print Assumptions C52_threshold_overflow_refuted.

(** update_parameters on an encrypted module with a threshold (the default): [m] calls subtract [m] times the same step, and the gradient is not changed. *)
Theorem C52_update_encrypted : forall threshold rate m p g, exists p', times_ m (update_parameter Qminus Qmult threshold true true rate) (p, Some g) = (p', Some g) /\ p' == p - inject_Z (Z.of_nat m) * rate * threshold g.
Proof. exact k_C52_update_encrypted. Qed.
Print Assumptions C52_update_encrypted.
(** Without threshold, or on a plaintext module, every call also multiplies the stored gradient by the learning rate: the steps are rate, rate^2, ... times the gradient. *)
Theorem C52_update_plain_refuted : forall threshold encrypted has_threshold rate m p g, encrypted && has_threshold = false ->
  exists p' g', times_ m (update_parameter Qminus Qmult threshold encrypted has_threshold rate) (p, Some g) = (p', Some g') /\ g' == qpow rate m * g /\ p' == p - sum_upto m (fun j => qpow rate (S j)) * g.
Proof. exact k_C52_update_plain. Qed.
Print Assumptions C52_update_plain_refuted.

(** Concrete cases. *)
Definition ex_options : options := mkOptions (1 # 2) (1 # 2) 0 (1 # 4) true.
Definition ex_groups : list (options * list nat) := [(mkOptions (1 # 10) 0 0 0 false, [3; 4]%nat); (ex_options, [1; 2]%nat)].
Definition ex_history : list (nat -> option Q) := [fun i => Some (inject_Z (Z.of_nat i)); fun i => if Nat.eqb i 1 then None else Some 1; fun i => Some (inject_Z (Z.of_nat i))].
(* first step: d = 1 + 4/4 = 2, v = 2, p = 4 - (2 + 1)/2 = 5/2; second: d = 1 + 5/8 = 13/8, v = 1 + 13/8 = 21/8, p = 5/2 - (13/8 + 21/16)/2 = 33/32 *)
Example C52_case : In (ex_options, 1%nat) (entries ex_groups) /\ NoDup (map snd (entries ex_groups)) /\ present 1 ex_history = [1; 1] /\ accepted ex_options = true /\
  fst (steps Qplus Qminus Qmult (fun x => x) ex_groups ex_history (fresh (fun _ => 4))) 1%nat == 33 # 32.
Proof.
  split; [right; right; left; reflexivity|]. split; [|split; [reflexivity|split; reflexivity]]. cbn. repeat constructor; cbn; intuition discriminate.
Qed.
(** multiplication that rounds to a multiple of 1/8 *)
Definition eighth (c x : Q) : Q := inject_Z (Qround.Qfloor (c * x * 8)) / 8.
Example C52_case_error : accurate (fun x => x) (1 # 8) eighth /\
  fst (follow_inexact Qplus Qminus (fun x => x) (mkOptions (1 # 3) (1 # 3) 0 0 false) (1, None) [(eighth, 1); (eighth, 1)]) == 3 # 8 /\ fst (follow Qplus Qminus Qmult (fun x => x) (mkOptions (1 # 3) (1 # 3) 0 0 false) (1, None) [1; 1]) == 2 # 9.
Proof.
  split; [|split; reflexivity]. intros c x. unfold near, eighth. pose proof (Qround.Qfloor_le (c * x * 8)). pose proof (Qround.Qlt_floor (c * x * 8)) as U. rewrite inject_Z_plus in U. change (inject_Z 1) with 1 in U.
  generalize dependent (inject_Z (Qround.Qfloor (c * x * 8))). intros q L U. generalize dependent (c * x). intros y L U. apply Qabs_Qle_condition. unfold Qdiv. change (/ 8) with (1 # 8). split; lra.
Qed.
Definition ex_grad (v : Z) : num := mkNum [v - 1; 3; -2]%Z 65536.
Definition ex_kept (v : Z) : option Z := option_map (fun z => open_a (n_sh z)) (fst (thresholded (pr := light) 65536 (within 3) 100 (ex_grad v) tt)).
Example C52_case_threshold : ex_kept (50 * 65536) = Some (50 * 65536)%Z /\ ex_kept (200 * 65536) = Some 0%Z /\ ex_kept (2 ^ 40) = Some (2 ^ 40)%Z /\ sharing 3 (ex_grad (2 ^ 40)) /\ open_a (n_sh (ex_grad (2 ^ 40))) = (2 ^ 40)%Z /\
  (open_a (n_sh (ex_grad (200 * 65536))) * open_a (n_sh (ex_grad (200 * 65536))) < H63)%Z.
Proof. split; [vm_compute; reflexivity|]. split; [vm_compute; reflexivity|]. split; [vm_compute; reflexivity|]. split; [split; [reflexivity|split; [repeat constructor; unfold in64, H63; cbn; lia|reflexivity]]|]. split; vm_compute; reflexivity. Qed.
Example C52_case_update : times_ 2 (update_parameter Qminus Qmult (fun x => x) false true (1 # 2)) (1, Some 1) = (1 - (1 # 2) * 1 - (1 # 2) * ((1 # 2) * 1), Some ((1 # 2) * ((1 # 2) * 1))).
Proof. reflexivity. Qed.

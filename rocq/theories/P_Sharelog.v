(** Property theorems C103: log and log_softmax on shares. *)
Require Import ZArith QArith List Bool Lia Reals Lra.
From Verif Require Import Approx Approx_claims Approxfn_claims Approxlog_claims Approxsoft_claims Ring64 Encoder Arith Provider Compare Compare_claims Maximum Maximum_claims Regular Regular_proofs Regular_claims Shareapprox Shareapprox_proofs Shareapprox_claims Sharesoft Sharesoft_claims Sharelog Sharelog_claims Sharesettings_claims P_Shareapprox P_Sharesoft.
Import ListNotations.
Open Scope R_scope.

Section S.
  Variables (n : nat) (pr : provider).
  Hypothesis Hn : (0 < n)%nat.
  Hypothesis HV : valid n pr.
  (** C103.  log on an encrypted number in the default configuration. *)
  Theorem C103_log E x st z : sharing n x -> n_sc x = 65536%Z -> let X := rval x in log_range E X -> fst (logv (pr := pr) (within E) 8 8 8 2 x st) = Some z ->
    fst (logv (pr := pr) no_check 8 8 8 2 x st) = Some z /\ n_sc z = 65536%Z /\ Rabs (rval z - mpc_log default false X) <= log_noise E X /\ Rabs (rval z - ln X) <= 2 / 100 * Rabs (ln X) + 1 / 1000 + log_noise E X.
  Proof. exact (k_C103_log n pr Hn HV E x st z). Qed.
  (** C103.  With one party no assumption on the truncations is needed. *)
  Theorem C103_one_party x st : n = 1%nat -> sharing n x -> n_sc x = 65536%Z -> let X := rval x in 1 / 1000 <= X <= 127 ->
    exists z, fst (logv (pr := pr) no_check 8 8 8 2 x st) = Some z /\ Rabs (rval z - ln X) <= 2 / 100 * Rabs (ln X) + 1 / 1000 + (15 / 1000 + X / 5000).
  Proof. exact (k_C103_one_party n pr Hn HV x st). Qed.
  (** C103.  With input_in_01 the logarithm of 100 x is computed; the error is that of 100 x. *)
  Theorem C103_in_01 E x st z : sharing n x -> n_sc x = 65536%Z -> let X := 100 * rval x in log_range E X -> fst (log01v (pr := pr) (within E) 8 8 8 2 x st) = Some z ->
    fst (log01v (pr := pr) no_check 8 8 8 2 x st) = Some z /\ n_sc z = 65536%Z /\ Rabs (rval z - ln (rval x)) <= 2 / 100 * Rabs (ln X) + 12 / 10000 + log_noise E X.
  Proof. exact (k_C103_in_01 n pr Hn HV E x st z). Qed.
  Variables (local_bits : run pr (list Z)) (log_steps cascade_steps isqrt : nat -> nat).
  Hypothesis Hlocal : forall st, let u := fst (local_bits st) in length u = n /\ Forall (fun z => 0 <= z < 65536)%Z u.
  Hypothesis Hsqrt : forall m, (2 <= m)%nat -> (1 <= isqrt m < m)%nat.
  Local Notation log_softmax := (log_softmaxv (pr := pr) 65536 16 local_bits log_steps cascade_steps isqrt).
  (** C103.  log_softmax of 2 to 100 numbers at most 256 apart in the default configuration. *)
  Theorem C103_log_softmax E me xs st zs : (E = 1 \/ E = 2)%Z -> vector n 65536 xs -> (2 <= length xs <= 100)%nat -> (forall x y, In x xs -> In y xs -> rval x - rval y <= 256) -> fst (log_softmax me (within E) 8 8 8 2 xs st) = Some zs ->
    fst (log_softmax me no_check 8 8 8 2 xs st) = Some zs /\ Forall2 (fun x z => n_sc z = 65536%Z /\ Rabs (rval z - ln (exact_softmax (map rval xs) (rval x))) <= 2 / 100 * ln (INR (length xs)) + 1 / 1000 + IZR E * (1 / 40 + INR (length xs) / 260)) xs zs.
  Proof. exact (k_C103_log_softmax n pr Hn HV local_bits log_steps cascade_steps isqrt Hlocal Hsqrt E me xs st zs). Qed.
  (** C103.  With one party log_softmax needs no assumption on the truncations. *)
  Theorem C103_log_softmax_one me xs st : n = 1%nat -> vector n 65536 xs -> (2 <= length xs <= 100)%nat -> (forall x y, In x xs -> In y xs -> rval x - rval y <= 256) -> exists zs, fst (log_softmax me no_check 8 8 8 2 xs st) = Some zs /\
    Forall2 (fun x z => n_sc z = 65536%Z /\ Rabs (rval z - ln (exact_softmax (map rval xs) (rval x))) <= 2 / 100 * ln (INR (length xs)) + 26 / 1000 + INR (length xs) / 260) xs zs.
  Proof. exact (k_C103_log_softmax_one n pr Hn HV local_bits log_steps cascade_steps isqrt Hlocal Hsqrt me xs st). Qed.
  (** C103.  The log_softmax of a single number is exactly 0, whatever the number and the configuration. *)
  Theorem C103_single D p chk me d d' o k x st : (1 <= D < 2 ^ 63)%Z -> exists z, fst (log_softmaxv (pr := pr) D p local_bits log_steps cascade_steps isqrt me chk d d' o k [x] st) = Some [z] /\ sharing n z /\ n_sc z = D /\ rval z = 0.
  Proof. exact (k_C103_single n pr Hn HV local_bits log_steps cascade_steps isqrt D p chk me d d' o k x st). Qed.
End S.
(** C103 refuted outside: with one party log(256) is given as -189 million, log(1/65536) as -9.6 instead of -11.1, log(0) as a number like any other, and log(-1) as -355 million. *)
Theorem C103_far_refuted : exists pr st, valid 1 pr /\
  (exists x z, sharing 1 x /\ n_sc x = 65536%Z /\ rval x = 256 /\ fst (logv (pr := pr) no_check 8 8 8 2 x st) = Some z /\ rval z < - 189000000) /\
  (exists x z, sharing 1 x /\ n_sc x = 65536%Z /\ rval x = 1 / 65536 /\ fst (logv (pr := pr) no_check 8 8 8 2 x st) = Some z /\ ln (rval x) + 14 / 10 < rval z) /\
  (exists x z, sharing 1 x /\ n_sc x = 65536%Z /\ rval x = 0 /\ fst (logv (pr := pr) no_check 8 8 8 2 x st) = Some z /\ -10 < rval z) /\
  (exists x z, sharing 1 x /\ n_sc x = 65536%Z /\ rval x = -1 /\ fst (logv (pr := pr) no_check 8 8 8 2 x st) = Some z /\ rval z < - 355000000).
Proof. exact k_C103_far_refuted. Qed.
(** C103: without Householder steps log uses exp_iterations only, whatever log_exp_iterations and log_order are. *)
Theorem C103_settings {pr : provider} chk d d' d'' o o' k x st : same_log k d' d'' -> (k <> O -> o = o') -> logv (pr := pr) chk d d' o k x st = logv (pr := pr) chk d d'' o' k x st.
Proof. exact (k_C103_settings (pr := pr) chk d d' d'' o o' k x st). Qed.
Print Assumptions C103_log.
Print Assumptions C103_one_party.
Print Assumptions C103_in_01.
Print Assumptions C103_log_softmax.
Print Assumptions C103_log_softmax_one.
Print Assumptions C103_single.
Print Assumptions C103_far_refuted.
Print Assumptions C103_settings.

(** log(2) = 0.6931 comes out as 45154 / 65536 = 0.6890 with two parties; the log_softmax of 1, 2 and -1, which is -1.3490, -0.3490 and -3.3490, as -1.3412, -0.3412 and -3.3412. *)
Example C103_case : option_map (fun z => open_a (n_sh z)) (fst (logv (pr := pair) (within 2) 8 8 8 2 (ex_two 2) tt)) = Some 45154%Z /\ sharing 2 (ex_two 2) /\ log_range 2 (rval (ex_two 2)).
Proof.
  split; [vm_compute; reflexivity|]. split; [split; [reflexivity|split; [|reflexivity]]; repeat apply Forall_cons; try apply Forall_nil; split; vm_compute; (reflexivity || discriminate)|].
  unfold rval. change (open_a (n_sh (ex_two 2))) with 131072%Z. cbn [ex_two n_sc]. right. split; [reflexivity|lra].
Qed.
Example C103_softmax_case : option_map reveals (fst (log_softmaxv (pr := pair) 65536 16 ex_bits2 (fun _ => 1%nat) (fun _ => 1%nat) Nat.sqrt LogReduction (within 2) 8 8 8 2 ex_logits tt)) = Some [-87900; -22364; -218972]%Z.
Proof. vm_compute. reflexivity. Qed.
(** With no Householder steps log(2) is the same for log_exp_iterations 8 and 3 and log_order 8 and 1, but not for exp_iterations 2. *)
Example C103_settings_case : let v d d' o := option_map (fun z => open_a (n_sh z)) (fst (logv (pr := pair) (within 2) d d' o 0 (ex_two 2) tt)) in same_log 0 8 3 /\ v 8%nat 8%nat 8%nat = Some 189360%Z /\ v 8%nat 3%nat 1%nat = Some 189360%Z /\ v 2%nat 8%nat 8%nat = Some 192600%Z.
Proof. split; [now left|]. split; [vm_compute; reflexivity|]. split; vm_compute; reflexivity. Qed.

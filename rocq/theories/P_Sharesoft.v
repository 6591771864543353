(** Property theorems C98 (softmax on shares) and C79_negative. *)
Require Import ZArith QArith List Bool Reals Lra.
From Verif Require Import Approx Approx_claims Approxfn_claims Approxsoft_claims Ring64 Encoder Arith Provider Compare Compare_claims Maximum Maximum_claims Regular Regular_proofs Regular_claims Shareapprox Shareapprox_proofs Shareapprox_claims Sharesoft Sharesoft_claims P_Shareapprox.
Import ListNotations.
Open Scope R_scope.

Section S.
  Variables (n : nat) (pr : provider).
  Hypothesis Hn : (0 < n)%nat.
  Hypothesis HV : valid n pr.
  (** C79: the exponential of a negative number: the rounding errors, too, are in proportion to the result, except for d + 1 units. *)
  Theorem C79_negative s E d x st z : (1 <= E)%Z -> (1 < s)%Z -> ((Z.of_nat d + 1) * E <= s)%Z -> sharing n x -> n_sc x = s -> - 2 ^ d <= rval x <= 0 -> IZR s * IZR s * (1 + exp_growth s E d) < 2 ^ 63 ->
    fst (expv (pr := pr) (within E) d x st) = Some z ->
    fst (expv (pr := pr) no_check d x st) = Some z /\ n_sc z = s /\
    let a := limit_exp d (rval x) in Rabs (rval z - a) <= a * exp_growth s E d + (1 - a) * (INR (S d) * (IZR E / IZR s) * (1 + exp_growth s E d)).
  Proof. exact (k_C79_negative n pr Hn HV s E d x st z). Qed.
  Variables (local_bits : run pr (list Z)) (log_steps cascade_steps isqrt : nat -> nat).
  Hypothesis Hlocal : forall st, let u := fst (local_bits st) in length u = n /\ Forall (fun z => 0 <= z < 65536)%Z u.
  Hypothesis Hsqrt : forall m, (2 <= m)%nat -> (1 <= isqrt m < m)%nat.
  Local Notation softmax := (softmaxv (pr := pr) 65536 16 local_bits log_steps cascade_steps isqrt).
  (** C98: softmax of 2 to 29 numbers at most 256 apart in the default configuration. *)
  Theorem C98_softmax E me xs st zs : (E = 1 \/ E = 2)%Z -> vector n 65536 xs -> (2 <= length xs <= 29)%nat -> (forall x y, In x xs -> In y xs -> rval x - rval y <= 256) -> fst (softmax me (within E) 8 10 xs st) = Some zs ->
    fst (softmax me no_check 8 10 xs st) = Some zs /\
    Forall2 (fun x z => n_sc z = 65536%Z /\ Rabs (rval z - exact_softmax (map rval xs) (rval x)) <= (1 / 40 + INR (length xs) / 300) * IZR E) xs zs /\
    Rabs (total (map rval zs) - 1) <= 1 / 500 + INR (length xs) * IZR E / 2000.
  Proof. exact (k_C98_softmax n pr Hn HV local_bits log_steps cascade_steps isqrt Hlocal Hsqrt E me xs st zs). Qed.
  (** C98: with one party nothing can go wrong. *)
  Theorem C98_one_party me xs st : n = 1%nat -> vector n 65536 xs -> (2 <= length xs <= 29)%nat -> (forall x y, In x xs -> In y xs -> rval x - rval y <= 256) -> exists zs, fst (softmax me no_check 8 10 xs st) = Some zs /\
    Forall2 (fun x z => n_sc z = 65536%Z /\ Rabs (rval z - exact_softmax (map rval xs) (rval x)) <= 1 / 40 + INR (length xs) / 300) xs zs /\ Rabs (total (map rval zs) - 1) <= 1 / 500 + INR (length xs) / 2000.
  Proof. exact (k_C98_one_party n pr Hn HV local_bits log_steps cascade_steps isqrt Hlocal Hsqrt me xs st). Qed.
  (** C98: the softmax of a single number is exactly 1, whatever the number and the configuration. *)
  Theorem C98_single D p chk me d k x st : (1 <= D < 2 ^ 63)%Z -> exists z, fst (softmaxv (pr := pr) D p local_bits log_steps cascade_steps isqrt me chk d k [x] st) = Some [z] /\ sharing n z /\ n_sc z = D /\ rval z = 1.
  Proof. exact (k_C98_single n pr Hn HV local_bits log_steps cascade_steps isqrt D p chk me d k x st). Qed.
End S.
Print Assumptions C79_negative.
Print Assumptions C98_softmax.
Print Assumptions C98_one_party.
Print Assumptions C98_single.
(** C98 refuted for many entries: even with one party, 200 equal numbers give results of more than 3/2 in total, whatever the number and the method. *)
Theorem C98_many_refuted : exists pr st, valid 1 pr /\ forall local_bits log_steps cascade_steps isqrt me x, (forall st, let u := fst (local_bits st) in length u = 1%nat /\ Forall (fun z => 0 <= z < 65536)%Z u) -> (forall m, (2 <= m)%nat -> (1 <= isqrt m < m)%nat) ->
  sharing 1 x -> n_sc x = 65536%Z -> exists zs, fst (softmaxv (pr := pr) 65536 16 local_bits log_steps cascade_steps isqrt me no_check 8 10 (repeat x 200) st) = Some zs /\ total (map rval zs) > 3 / 2.
Proof. exact k_C98_many_refuted. Qed.
Print Assumptions C98_many_refuted.

(** The softmax of 1, 2 and -1 is 0.2595, 0.7054 and 0.0351; with two parties it comes out as 0.2593, 0.7062 and 0.0345. *)
Definition ex_bits2 : run pair (list Z) := fun st => ([12345; 54321]%Z, st).
Definition ex_logits : list num := [ex_two 1; ex_two 2; ex_two (-1)].
Example C98_case : option_map reveals (fst (softmaxv (pr := pair) 65536 16 ex_bits2 (fun _ => 1%nat) (fun _ => 1%nat) Nat.sqrt LogReduction (within 2) 8 10 ex_logits tt)) = Some [16992; 46283; 2263]%Z.
Proof. vm_compute. reflexivity. Qed.
Example C98_hypotheses : vector 2 65536 ex_logits /\ (forall st, let u := fst (ex_bits2 st) in length u = 2%nat /\ Forall (fun z => 0 <= z < 65536)%Z u) /\ forall x y, In x ex_logits -> In y ex_logits -> rval x - rval y <= 256.
Proof.
  split; [split; [discriminate|]; repeat apply Forall_cons; try apply Forall_nil; (split; [split; [reflexivity|split; [|reflexivity]]|reflexivity]); repeat apply Forall_cons; try apply Forall_nil; split; vm_compute; (reflexivity || discriminate)|].
  split; [intros st; split; [reflexivity|]; repeat apply Forall_cons; try apply Forall_nil; split; vm_compute; (reflexivity || discriminate)|].
  assert (R : map rval ex_logits = [1; 2; -1]) by (unfold ex_logits, rval; cbn [map]; change (open_a (n_sh (ex_two 1))) with 65536%Z; change (open_a (n_sh (ex_two 2))) with 131072%Z; change (open_a (n_sh (ex_two (-1)))) with (-65536)%Z; cbn [ex_two n_sc]; repeat f_equal; lra).
  intros x y X Y. apply (in_map rval) in X, Y. rewrite R in X, Y. cbn [In] in X, Y. destruct X as [<-|[<-|[<-|[]]]], Y as [<-|[<-|[<-|[]]]]; lra.
Qed.

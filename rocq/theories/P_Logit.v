(** Property theorems C112: logistic regression on shares. *)
Require Import ZArith QArith Qreals List Bool Lia Reals Lra.
From Verif Require Import Approx Approx_claims Approxfn_claims Approxsoft_claims.
From Verif Require Import Ring64 Encoder Arith Provider Binary Compare Compare_claims Maximum Maximum_claims Regular Regular_proofs Regular_claims Shareapprox Shareapprox_proofs Shareapprox_claims Sharesoft Sharesoft_claims Shareroot_claims Sharelog Sharelog_claims Sharerecip Sharerecip_claims Sharenorm_claims Shareloss Shareloss_claims Logit Logit_claims P_Shareapprox P_Shareloss.
Import ListNotations.
Open Scope R_scope.

Section S.
  Variables (n : nat) (pr : provider).
  Hypothesis Hn : (0 < n)%nat.
  Hypothesis HV : valid n pr.
  (** C112: one epoch moves every parameter to where one exact step of gradient descent puts it, within [step_error]. *)
  Theorem C112_step E k M rate X Y wb st o : (E = 1 \/ E = 2)%Z -> examples n k M X Y -> linear n k wb -> 1 <= M <= 2 ^ 10 -> 0 <= coded rate <= 2 ^ 10 ->
    Forall (fun x => Rabs (score (parameters wb) x) <= 255) (map (map rval) X) -> Forall (fun p => Rabs p <= 2 ^ 21) (parameters wb) ->
    fst (epochv (pr := pr) 65536 (within E) 8 8 8 2 rate X Y wb st) = Some o ->
    fst (epochv (pr := pr) 65536 no_check 8 8 8 2 rate X Y wb st) = Some o /\ linear n k (snd o) /\
    forall j, (j <= k)%nat -> Rabs (nth j (parameters (snd o)) 0 - nth j (descend (coded rate) (map (map rval) X) (map rval Y) (parameters wb)) 0) <= step_error E (length X) M (coded rate).
  Proof. exact (k_C112_step n pr Hn HV E k M rate X Y wb st o). Qed.
  (** C112: after t epochs the parameters are at Euclidean distance at most t * sqrt(k + 1) * [step_error] from those of t exact steps. *)
  Theorem C112_training E k M rate X Y t wb st o : (E = 1 \/ E = 2)%Z -> examples n k M X Y -> linear n k wb -> 1 <= M <= 2 ^ 10 -> 0 <= coded rate <= 2 ^ 10 ->
    let Xs := map (map rval) X in let Ys := map rval Y in let r := coded rate in let e := step_error E (length X) M r in
    r * spread Xs <= 8 -> moderate r Xs Ys t (parameters wb) -> M * INR (S k) * INR t * e <= 50 ->
    fst (trainv (pr := pr) 65536 (within E) 8 8 8 2 rate X Y t wb st) = Some o ->
    fst (trainv (pr := pr) 65536 no_check 8 8 8 2 rate X Y t wb st) = Some o /\ length (fst o) = t /\ linear n k (snd o) /\ distance (parameters (snd o)) (descent r Xs Ys t (parameters wb)) <= INR t * sqrt (INR (S k)) * e.
  Proof. exact (k_C112_training n pr Hn HV E k M rate X Y t wb st o). Qed.
  (** C112: the trained parameters are nearly as good as any others: for every v the logistic loss is at most that of v plus the squared distance from the start to v over 2 r t, plus what the rounding adds. *)
  Theorem C112_loss E k M rate X Y t wb st o v : (E = 1 \/ E = 2)%Z -> examples n k M X Y -> linear n k wb -> 1 <= M <= 2 ^ 10 -> 0 < coded rate <= 2 ^ 10 -> (0 < t)%nat ->
    let Xs := map (map rval) X in let Ys := map rval Y in let r := coded rate in let e := step_error E (length X) M r in
    r * spread Xs <= 4 -> moderate r Xs Ys t (parameters wb) -> M * INR (S k) * INR t * e <= 50 -> length v = S k ->
    fst (trainv (pr := pr) 65536 (within E) 8 8 8 2 rate X Y t wb st) = Some o ->
    logistic_loss Xs Ys (parameters (snd o)) <= logistic_loss Xs Ys v + distance (parameters wb) v ^ 2 / (2 * r * INR t) + M * INR (S k) * INR t * e.
  Proof. exact (k_C112_loss n pr Hn HV E k M rate X Y t wb st o v). Qed.
  (** C112: with one party training always comes out, with an error of one unit in each product. *)
  Theorem C112_one_party k M rate X Y t wb st : n = 1%nat -> examples n k M X Y -> linear n k wb -> 1 <= M <= 2 ^ 10 -> 0 <= coded rate <= 2 ^ 10 ->
    let Xs := map (map rval) X in let Ys := map rval Y in let r := coded rate in let e := step_error 1 (length X) M r in
    r * spread Xs <= 8 -> moderate r Xs Ys t (parameters wb) -> M * INR (S k) * INR t * e <= 50 ->
    exists o, fst (trainv (pr := pr) 65536 no_check 8 8 8 2 rate X Y t wb st) = Some o /\ length (fst o) = t /\ distance (parameters (snd o)) (descent r Xs Ys t (parameters wb)) <= INR t * sqrt (INR (S k)) * e.
  Proof. exact (k_C112_one_party n pr Hn HV k M rate X Y t wb st). Qed.
End S.
(** C112: a sufficient condition on the start for [moderate]: parameters up to B, and (k + 1) M (B + r M t) at most 200. *)
Theorem C112_moderate r X Y t th M B : 0 <= r -> 1 <= M -> X <> [] -> length X = length Y -> Forall (Forall (fun v => Rabs v <= M)) X -> Forall (fun y => 0 <= y <= 1) Y -> Forall (fun p => Rabs p <= B) th -> th <> [] ->
  INR (length th) * (M * (B + r * M * INR t)) <= 200 -> moderate r X Y t th.
Proof. exact (k_C112_moderate r X Y t th M B). Qed.
(** C112 refuted for small learning rates: 1/100000 is encoded as 0, so with one party no number of epochs moves the parameters, though each exact step would. *)
Theorem C112_small_rate_refuted : exists pr st X Y wb, valid 1 pr /\ examples 1 1 1 X Y /\ linear 1 1 wb /\ let rate := (1 # 100000)%Q in
  (forall t, exists ls, fst (trainv (pr := pr) 65536 no_check 8 8 8 2 rate X Y t wb st) = Some (ls, wb) /\ length ls = t) /\
  forall j, (j <= 1)%nat -> nth j (descend (Q2R rate) (map (map rval) X) (map rval Y) (parameters wb)) 0 = nth j (parameters wb) 0 + / 200000.
Proof. exact k_C112_small_rate_refuted. Qed.
Print Assumptions C112_step.
Print Assumptions C112_training.
Print Assumptions C112_loss.
Print Assumptions C112_one_party.
Print Assumptions C112_moderate.
Print Assumptions C112_small_rate_refuted.

(** With two parties: one feature, the examples 1 and -1/2 of the classes 1 and 0, the learning rate 1/2 and two epochs from 0: the weight becomes 23612 / 65536 and the bias -380 / 65536, exactly 0.3604 and -0.0058. *)
Definition ex_X := [map ex_raw [65536]; map ex_raw [-32768]]%Z.
Definition ex_Y := map ex_raw [65536; 0]%Z.
Definition ex_start := (map ex_raw [0], ex_raw 0)%Z.
Definition ex_trained := fst (trainv (pr := pair) 65536 (within 2) 8 8 8 2 (1 # 2) ex_X ex_Y 2 ex_start tt).
Example C112_case : option_map (fun o => (map ex_open (fst o), map ex_open (fst (snd o)), ex_open (snd (snd o)))) ex_trained = Some ([47772; 43362], [23612], -380)%Z.
Proof. vm_compute. reflexivity. Qed.
(** The conditions hold: the parameters are then within 0.1 of those of two exact steps. *)
Example C112_conditions : examples 2 1 1 ex_X ex_Y /\ linear 2 1 ex_start /\ coded (1 # 2) = 1 / 2 /\ coded (1 # 2) * spread (map (map rval) ex_X) <= 4 /\ moderate (1 / 2) (map (map rval) ex_X) (map rval ex_Y) 2 (parameters ex_start) /\
  step_error 2 (length ex_X) 1 (1 / 2) <= 1 / 50 /\ 1 * INR 2 * INR 2 * step_error 2 (length ex_X) 1 (1 / 2) <= 50.
Proof.
  assert (W : forall v, (Z.abs v <= 10000000)%Z -> num1 2 (ex_raw v) /\ rval (ex_raw v) = IZR v / 65536) by (intros v Hv; destruct (C111_raw v Hv) as (A & B & C); split; [split; assumption|exact C]).
  destruct (W 65536 ltac:(lia))%Z as [A1 R1]. destruct (W 0 ltac:(lia))%Z as [A0 R0]. destruct (W (-32768) ltac:(lia))%Z as [A2 R2]. replace (65536 / 65536) with 1 in R1 by lra. replace (0 / 65536) with 0 in R0 by lra. replace (-32768 / 65536) with (- (1 / 2)) in R2 by lra.
  assert (EX : map (map rval) ex_X = [[1]; [- (1 / 2)]]) by (unfold ex_X; cbn [map]; now rewrite R1, R2). assert (EY : map rval ex_Y = [1; 0]) by (unfold ex_Y; cbn [map]; now rewrite R1, R0). assert (EP : parameters ex_start = [0; 0]) by (unfold parameters, ex_start; cbn [fst snd map]; now rewrite R0). rewrite EX, EY, EP.
  assert (CR : coded (1 # 2) = 1 / 2) by (unfold coded; replace (encodeQ 65536 (1 # 2)) with 32768%Z by reflexivity; lra). assert (SE : step_error 2 (length ex_X) 1 (1 / 2) <= 1 / 50) by (unfold step_error, sigmoid_shift, unit_error, ex_X; cbn [length INR]; lra).
  split; [|split; [|split; [exact CR|split; [|split; [|split; [exact SE|cbn [INR]; lra]]]]]].
  - split; [discriminate|]. split; [reflexivity|]. split; [cbn; lia|]. assert (B1 : Rabs (rval (ex_raw 65536)) <= 1) by (rewrite R1, Rabs_R1; lra). assert (B2 : Rabs (rval (ex_raw (-32768))) <= 1) by (rewrite R2; apply Rabs_le; lra). split.
    + unfold ex_X. cbn [map]. constructor; [|constructor; [|constructor]]; (split; [reflexivity|split; (constructor; [assumption|constructor])]).
    + unfold ex_Y. cbn [map]. constructor; [|constructor; [|constructor]]; (split; [assumption|]); [rewrite R1|rewrite R0]; lra.
  - split; [lia|]. split; [reflexivity|]. unfold ex_start. cbn [fst snd map]. constructor; [exact A0|constructor; [exact A0|constructor]].
  - rewrite CR. unfold spread, average, square_sum, sumr. cbn [map fold_right length INR]. lra.
  - apply (C112_moderate (1 / 2) [[1]; [- (1 / 2)]] [1; 0] 2 [0; 0] 1 0); try lra; try discriminate; try reflexivity.
    + constructor; [|constructor; [|constructor]]; (constructor; [apply Rabs_le; lra|constructor]).
    + constructor; [lra|constructor; [lra|constructor]].
    + constructor; [rewrite Rabs_R0; lra|constructor; [rewrite Rabs_R0; lra|constructor]].
    + cbn [length INR]. lra.
Qed.

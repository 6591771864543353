(** Property theorems C04, C05, C06. *)
Require Import ZArith QArith List Lia.
From Verif Require Import Ring64 Encoder Encoder_proofs.
Import ListNotations.
Open Scope Z_scope.

(** C04: non-negative reals survive the round trip up to one unit in the last place. *)
Theorem C04_roundtrip_nonneg : forall s x, 1 < s -> (0 <= x)%Q ->
  exists v, decode s (encodeQ s x) = Some v /\ (0 <= x - v /\ x - v < 1 # Z.to_pos s)%Q.
Proof. exact roundtrip_nonneg. Qed.
Print Assumptions C04_roundtrip_nonneg.

(** C04: so do negative reals [-x], provided quotient + remainder of the encoding stay below the scale. *)
Theorem C04_roundtrip_neg : forall s x, 1 < s -> (0 <= x)%Q ->
  (encodeQ s x) / s + (encodeQ s x) mod s <= s - 1 ->
  exists v, decode s (encodeQ s (- x)%Q) = Some v /\ (0 <= v - - x /\ v - - x < 1 # Z.to_pos s)%Q.
Proof. exact roundtrip_neg. Qed.
Print Assumptions C04_roundtrip_neg.

(** C04: exact characterisation of the negative integers that decode correctly. *)
Theorem C04_decode_neg_iff : forall s q r v, 1 < s -> 0 <= q -> 0 <= r < s -> 0 < q * s + r ->
  decode s (- (q * s + r)) = Some v ->
  ((v == (- (q * s + r) # Z.to_pos s))%Q <-> q + r <= s - 1).
Proof. exact decode_neg_iff. Qed.
Print Assumptions C04_decode_neg_iff.

(** C04: every value at or below [-scale] decodes at least 1 too low. *)
Theorem C04_large_negative_wrong : forall s t, 1 < s -> t <= - (s * s) ->
  exists v, decode s t = Some v /\ (v <= (t # Z.to_pos s) - 1)%Q.
Proof. exact decode_large_negative. Qed.
Print Assumptions C04_large_negative_wrong.

(** The naive expectation (decode is division by the scale) is false at the default precision. *)
Theorem C04_naive_refuted : exists t v, - H63 <= t < H63 /\ decode 65536 t = Some v /\ ~ (v == t # 65536)%Q.
Proof. exists (-131071). eexists. split; [unfold H63; lia|]. split; [vm_compute; reflexivity|]. vm_compute. discriminate. Qed.
Print Assumptions C04_naive_refuted.

Example C04_nonneg_case : exists v, decode 65536 (encodeQ 65536 (31415926 # 10000000)) = Some v /\ (v == 205887 # 65536)%Q.
Proof. eexists. split; vm_compute; reflexivity. Qed.
Example C04_neg_case : exists v, decode 65536 (encodeQ 65536 (-5 # 2)) = Some v /\ (v == -5 # 2)%Q.
Proof. eexists. split; vm_compute; reflexivity. Qed.
Example C04_neg_domain : (encodeQ 65536 (5 # 2)) / 65536 + (encodeQ 65536 (5 # 2)) mod 65536 <= 65536 - 1.
Proof. vm_compute. discriminate. Qed.

(** C05: nearest integer, ties toward zero. *)
Theorem C05_nearest : forall t k, 0 < k -> in64 t -> (t < 0 -> k - t < H63) -> 2 * k <= H63 ->
  exists r, nearest_integer_division t k = Some r /\
    2 * Z.abs (k * r - t) <= k /\ (2 * Z.abs (k * r - t) = k -> Z.abs (k * r) <= Z.abs t).
Proof. exact nid_spec. Qed.
Print Assumptions C05_nearest.
Example C05_cases : nearest_integer_division (-7) 2 = Some (-3) /\ nearest_integer_division 8 3 = Some 3 /\ nearest_integer_division 7 2 = Some 3.
Proof. repeat split; vm_compute; reflexivity. Qed.
(** Outside the domain ([k - t] overflows) the result can be wrong. *)
Theorem C05_overflow_refuted : exists t k r, 0 < k /\ in64 t /\ nearest_integer_division t k = Some r /\ k < 2 * Z.abs (k * r - t).
Proof. exists (- H63), 3, (-3074457345618258602). unfold in64. repeat split; try (vm_compute; congruence); vm_compute; reflexivity. Qed.
Print Assumptions C05_overflow_refuted.

(** C06: scale and precision agree after construction and any assignments. *)
Theorem C06_consistent : forall p e l, 0 <= p -> enc_new p = Some e -> Forall assign_ok l ->
  e_scale (fold_left do_assign l e) = 2 ^ e_prec (fold_left do_assign l e).
Proof.
  exact (fun p e l Hp He Hl => proj2 (assigns_ok l e
    ltac:(rewrite (enc_new_ok p Hp) in He; injection He as <-; split; [exact Hp|reflexivity]) Hl)).
Qed.
Print Assumptions C06_consistent.
Example C06_case : e_prec (fold_left do_assign [AScale 1; APrecision 5; AScale 65536; AScale (-3)] (mkEnc 65536 16)) = 16.
Proof. reflexivity. Qed.

(** C06: after [with IgnoreEncodings(refs): body], every listed encoder is as before, whatever the
    aliasing in [refs] and whatever the body did; encoders not listed are as the body left them. *)
Theorem C06_ignore_restores : forall h refs body r, (forall a, enc_ok (h a)) ->
  with_ignore refs body h r = if in_dec Nat.eq_dec r refs then h r else body (ig_enter h refs) r.
Proof. exact (fun h refs body r Hok => ig_exit_spec h refs (body (ig_enter h refs)) Hok r). Qed.
Print Assumptions C06_ignore_restores.
(** Inside the block every listed encoder has scale 1. *)
Theorem C06_ignore_enter : forall h refs r, In r refs -> e_scale (ig_enter h refs r) = 1.
Proof. exact (fun h refs r Hin => ltac:(rewrite ig_enter_spec; destruct (in_dec Nat.eq_dec r refs); [reflexivity|contradiction])). Qed.
Print Assumptions C06_ignore_enter.
Example C06_alias_case : map (with_ignore [0; 1; 0; 1]%nat (fun h => hset h 7%nat (mkEnc 2 1)) (fun a => mkEnc (2 ^ Z.of_nat a) (Z.of_nat a))) [0; 1; 7; 8]%nat
  = [mkEnc 1 0; mkEnc 2 1; mkEnc 2 1; mkEnc 256 8].
Proof. reflexivity. Qed.

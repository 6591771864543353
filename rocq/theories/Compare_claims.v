(** Proofs of C28, C29, C30: comparisons and piecewise-linear functions of encrypted numbers. *)
Require Import ZArith QArith List Lia Lqa.
From Verif Require Import Ring64 Encoder Arith Arith_proofs Trunc Provider Binary Binary_proofs Compare Compare_proofs P_Binary.
Import ListNotations.
Open Scope Z_scope.


(** The number represented by an encrypted scalar, and by the right operand of an operator applied to [x] (a float operand is
    first rounded to [x]'s precision by the encoder). *)
Definition qval (x : num) : Q := (inject_Z (open_a (n_sh x)) / inject_Z (n_sc x))%Q.
Definition qarg (x : num) (y : arg) : Q :=
  match y with AInt k => inject_Z k | AFloat q => (inject_Z (encodeQ (n_sc x) q) / inject_Z (n_sc x))%Q | AEnc y => qval y end.
(** Well-formed operands whose scales are compatible, the scale [S] at which they are compared, and a difference that fits
    64 bits at that scale. *)
Definition scale_of (x : num) (y : arg) : Z := match y with AEnc y => Z.max (n_sc x) (n_sc y) | _ => n_sc x end.
Definition sharing (n : nat) (x : num) : Prop := length (n_sh x) = n /\ Forall in64 (n_sh x) /\ 0 < n_sc x.
Definition operands (n : nat) (x : num) (y : arg) : Prop :=
  sharing n x /\ match y with AEnc y => sharing n y /\ ((n_sc x | n_sc y) \/ (n_sc y | n_sc x)) | _ => True end.
Definition fits (x : num) (y : arg) : Prop :=
  (inject_Z (- H63) < (qval x - qarg x y) * inject_Z (scale_of x y) < inject_Z H63)%Q.
(** [r] is an encrypted bit (an integer of scale 1) telling whether [P]. *)
Definition ebit (r : num) (P : Prop) : Prop := n_sc r = 1 /\ (open_a (n_sh r) = 1 /\ P \/ open_a (n_sh r) = 0 /\ ~ P).

Lemma inj_nz z : 0 < z -> ~ (inject_Z z == 0)%Q.
Proof. intros H E. unfold Qeq in E. cbn in E. lia. Qed.
Lemma inj_pos z : 0 < z -> (0 < inject_Z z)%Q.
Proof. intros H. unfold Qlt. cbn. lia. Qed.
Lemma inj_mul a b : (inject_Z (a * b) == inject_Z a * inject_Z b)%Q.
Proof. unfold inject_Z, Qeq, Qmult. cbn. lia. Qed.
Lemma inj_sub a b : (inject_Z (a - b) == inject_Z a - inject_Z b)%Q.
Proof. unfold inject_Z, Qeq, Qminus, Qplus, Qopp. cbn. lia. Qed.
Lemma inj_lt a b : (inject_Z a < inject_Z b)%Q <-> a < b.
Proof. unfold Qlt. cbn. lia. Qed.

Lemma scale_up o s S : 0 < s -> (s | S) -> (inject_Z o / inject_Z s * inject_Z S == inject_Z (o * (S / s)))%Q.
Proof.
  intros Hs [k ->]. rewrite Z.div_mul by lia. rewrite !inj_mul. field. now apply inj_nz.
Qed.

Lemma S_common x y : scale_of x y = common x y.
Proof. now destruct y. Qed.

Section L.
  Variables (n : nat) (x : num) (y : arg).
  Hypothesis HO : operands n x y.
  Let S := scale_of x y.
  Let a := open_a (n_sh x) * (S / n_sc x).
  Let b := aval y S.
  Lemma S_pos : 0 < S.
  Proof. unfold S, scale_of. destruct HO as [(_ & _ & H) _]. destruct y; lia. Qed.
  Lemma dvd_x : (n_sc x | S).
  Proof.
    unfold S, scale_of. destruct HO as [(_ & _ & H) Hy]. destruct y as [k|q|y']; try apply Z.divide_refl. destruct Hy as ((_ & _ & H') & [E|E]).
    - rewrite Z.max_r; [assumption|]. apply Z.divide_pos_le in E; lia.
    - rewrite Z.max_l; [apply Z.divide_refl|]. apply Z.divide_pos_le in E; lia.
  Qed.
  Lemma qx : (qval x * inject_Z S == inject_Z a)%Q.
  Proof. apply scale_up; [apply HO|apply dvd_x]. Qed.
  Lemma qy : (qarg x y * inject_Z S == inject_Z b)%Q.
  Proof.
    unfold b, aval, qarg, S, scale_of. destruct HO as [(_ & _ & H) Hy]. destruct y as [k|q|y'].
    - symmetry. apply inj_mul.
    - field. now apply inj_nz.
    - apply scale_up; [apply Hy|]. destruct Hy as ((_ & _ & H') & [E|E]).
      + rewrite Z.max_r; [apply Z.divide_refl|]. apply Z.divide_pos_le in E; lia.
      + rewrite Z.max_l; [assumption|]. apply Z.divide_pos_le in E; lia.
  Qed.
  Lemma lt_iff : (qval x < qarg x y)%Q <-> a < b.
  Proof.
    rewrite <- inj_lt, <- qx, <- qy. symmetry. apply Qmult_lt_r, inj_pos, S_pos.
  Qed.
  Lemma gt_iff : (qarg x y < qval x)%Q <-> b < a.
  Proof. rewrite <- inj_lt, <- qx, <- qy. symmetry. apply Qmult_lt_r, inj_pos, S_pos. Qed.
  Lemma fits_iff : fits x y <-> - H63 < a - b < H63.
  Proof.
    unfold fits. fold S. assert (E : ((qval x - qarg x y) * inject_Z S == inject_Z (a - b))%Q) by (rewrite inj_sub, <- qx, <- qy; ring).
    rewrite E, !inj_lt. reflexivity.
  Qed.
  Lemma eq_iff : (qval x == qarg x y)%Q <-> a = b.
  Proof.
    split; intros H.
    - destruct (Z.lt_total a b) as [H1|[H1|H1]]; [|assumption|]; [apply lt_iff in H1|apply gt_iff in H1]; rewrite H in H1; now apply Qlt_irrefl in H1.
    - destruct (Q_dec (qval x) (qarg x y)) as [[H1|H1]|H1]; [apply lt_iff in H1|apply gt_iff in H1|assumption]; lia.
  Qed.
  Lemma wfx : nshare n (open_a (n_sh x)) (n_sc x) x.
  Proof. apply nshare_of, HO. Qed.
  Lemma wfy : wf_arg n y.
  Proof. destruct HO as [_ Hy]. destruct y; cbn; tauto. Qed.
  Lemma px : 0 < n_sc x. Proof. apply HO. Qed.
End L.

Lemma open_bit n (v : Z) r : nshare n v 1 r -> in64 v -> open_a (n_sh r) = v /\ n_sc r = 1.
Proof. intros [H S] I. split; [|assumption]. rewrite (ashare_open _ _ _ H). now apply wrap_id. Qed.
Lemma ebit_of n r (b : bool) P : nshare n (if b then 1 else 0) 1 r -> (b = true <-> P) -> ebit r P.
Proof.
  intros H E. destruct (open_bit n _ r H) as [O S]; [destruct b; unfold in64, H63; lia|]. split; [assumption|]. destruct b; [left|right]; (split; [assumption|]); [now apply E|].
  intros p. apply E in p. discriminate.
Qed.

Section Claims.
  Variables (n : nat) (pr : provider) (D : Z).
  Hypothesis Hn : (0 < n)%nat.
  Hypothesis HV : valid n pr.
  Hypothesis HD : 0 < D.

  Lemma ratio_ok S : S = 1 \/ S = D -> ratio D S = 1.
  Proof. intros [-> | ->]; [reflexivity|now apply (ratio_D n)]. Qed.

  (** C28 *)
  Lemma k_C28_order : forall x y st, operands n x y -> fits x y -> scale_of x y = 1 \/ scale_of x y = D ->
    ebit (fst (n_lt (pr := pr) D x y st)) (qval x < qarg x y)%Q /\ ebit (fst (n_le (pr := pr) D x y st)) (qval x <= qarg x y)%Q /\
    ebit (fst (n_gt (pr := pr) D x y st)) (qarg x y < qval x)%Q /\ ebit (fst (n_ge (pr := pr) D x y st)) (qarg x y <= qval x)%Q.
  Proof using All.
    intros x y st HO HF HS. apply (fits_iff n x y HO) in HF. pose proof (S_common x y) as ES.
    set (a := open_a (n_sh x) * (scale_of x y / n_sc x)) in *. set (b := aval y (scale_of x y)) in *.
    assert (I1 : in64 (a - b)) by (unfold in64; lia). assert (I2 : in64 (b - a)) by (unfold in64; lia).
    pose proof (n_lt_ok n Hn pr HV D _ x y (px n x y HO) (wfx n x y HO) (wfy n x y HO)) as Hlt. pose proof (n_le_ok n Hn pr HV D _ x y (px n x y HO) (wfx n x y HO) (wfy n x y HO)) as Hle.
    pose proof (n_gt_ok n Hn pr HV D _ x y (px n x y HO) (wfx n x y HO) (wfy n x y HO)) as Hgt. pose proof (n_ge_ok n Hn pr HV D _ x y (px n x y HO) (wfx n x y HO) (wfy n x y HO)) as Hge.
    rewrite <- ES in *. cbv zeta in *. fold a b in Hlt, Hle, Hgt, Hge. rewrite (ratio_ok _ HS) in *. specialize (Hlt I1 st). specialize (Hle I2 st). specialize (Hgt I2 st). specialize (Hge I1 st).
    rewrite Z.mul_1_r in *. pose proof (lt_iff n x y HO) as El. pose proof (gt_iff n x y HO) as Eg. fold a b in El, Eg. split; [|split; [|split]].
    - apply (ebit_of n _ (a <? b)); [exact Hlt|]. rewrite El. apply Z.ltb_lt.
    - apply (ebit_of n _ (negb (b <? a))); [destruct (b <? a); exact Hle|]. rewrite <- Z.leb_antisym, Z.leb_le. split; intros H.
      + apply Qnot_lt_le. rewrite Eg. lia.
      + apply Qle_not_lt in H. rewrite Eg in H. lia.
    - apply (ebit_of n _ (b <? a)); [exact Hgt|]. rewrite Eg. apply Z.ltb_lt.
    - apply (ebit_of n _ (negb (a <? b))); [destruct (a <? b); exact Hge|]. rewrite <- Z.leb_antisym, Z.leb_le. split; intros H.
      + apply Qnot_lt_le. rewrite El. lia.
      + apply Qle_not_lt in H. rewrite El in H. lia.
  Qed.

  (** At any other scale [S] the encrypted bit comes out multiplied by [D // S] (0 when S > D). *)
  Lemma k_C28_other_scale : forall x y st, operands n x y -> fits x y -> scale_of x y <> 1 ->
    open_a (n_sh (fst (n_lt (pr := pr) D x y st))) = wrap (if Qlt_le_dec (qval x) (qarg x y) then D / scale_of x y else 0).
  Proof using All.
    intros x y st HO HF HS. apply (fits_iff n x y HO) in HF. pose proof (S_common x y) as ES.
    pose proof (n_lt_ok n Hn pr HV D _ x y (px n x y HO) (wfx n x y HO) (wfy n x y HO)) as Hlt. pose proof (lt_iff n x y HO) as El. rewrite <- ES in Hlt. cbv zeta in Hlt.
    set (a := open_a (n_sh x) * (scale_of x y / n_sc x)) in *. set (b := aval y (scale_of x y)) in *.
    specialize (Hlt ltac:(unfold in64; lia) st). rewrite (ashare_open _ _ _ (proj1 Hlt)). f_equal. unfold ratio. destruct (Z.eqb_spec (scale_of x y) 1); [contradiction|].
    destruct (Qlt_le_dec (qval x) (qarg x y)) as [H|H].
    - apply El in H. destruct (Z.ltb_spec a b); lia.
    - apply Qle_not_lt in H. rewrite El in H. destruct (Z.ltb_spec a b); lia.
  Qed.

  (** C29 *)
  Lemma k_C29_equality : forall x y st, operands n x y -> fits x y -> scale_of x y = D \/ (scale_of x y = 1 /\ n <> 2%nat) ->
    ebit (fst (n_eq (pr := pr) D x y st)) (qval x == qarg x y)%Q /\ ebit (fst (n_ne (pr := pr) D x y st)) (~ qval x == qarg x y)%Q.
  Proof using All.
    intros x y st HO HF HS. apply (fits_iff n x y HO) in HF. pose proof (S_common x y) as ES. pose proof (eq_iff n x y HO) as Ee.
    set (a := open_a (n_sh x) * (scale_of x y / n_sc x)) in *. set (b := aval y (scale_of x y)) in *.
    assert (I1 : in64 (a - b)) by (unfold in64; lia).
    destruct (Nat.eq_dec n 2) as [N2|N2].
    - destruct HS as [HS|[_ HS]]; [|contradiction].
      pose proof (n_eq_2 n Hn pr HV D _ x y N2 (px n x y HO) (wfx n x y HO) (wfy n x y HO)) as H1. pose proof (n_ne_2 n Hn pr HV D _ x y N2 (px n x y HO) (wfx n x y HO) (wfy n x y HO)) as H2.
      cbv zeta in *. rewrite <- ES in *. fold a b in H1, H2. rewrite HS in H1, H2. rewrite Z.div_same, Z.mul_1_r, wrap_id in H1, H2 by (assumption || lia). specialize (H1 st). specialize (H2 st). split.
      + apply (ebit_of n _ (a - b =? 0)); [exact H1|]. rewrite Ee, Z.eqb_eq. lia.
      + apply (ebit_of n _ (negb (a - b =? 0))); [destruct (a - b =? 0); exact H2|]. rewrite Ee, Bool.negb_true_iff, Z.eqb_neq. lia.
    - assert (HS' : scale_of x y = 1 \/ scale_of x y = D) by tauto.
      pose proof (n_eq_many n Hn pr HV D _ x y N2 (px n x y HO) (wfx n x y HO) (wfy n x y HO)) as H1. pose proof (n_ne_many n Hn pr HV D _ x y N2 (px n x y HO) (wfx n x y HO) (wfy n x y HO)) as H2.
      cbv zeta in *. rewrite <- ES in *. fold a b in H1, H2. rewrite (neval_ok n) in H1, H2 by (try apply ratio_ok; try assumption; rewrite wrap_id by assumption; lia). rewrite wrap_id in H1, H2 by assumption.
      specialize (H1 st). specialize (H2 st). split.
      + apply (ebit_of n _ (a - b =? 0)); [destruct (a - b =? 0); exact H1|]. rewrite Ee, Z.eqb_eq. lia.
      + apply (ebit_of n _ (negb (a - b =? 0))); [destruct (a - b =? 0); exact H2|]. rewrite Ee, Bool.negb_true_iff, Z.eqb_neq. lia.
  Qed.
  (** Two parties, integers (scale 1): equality yields the default scale instead of 1. *)
  Lemma k_C29_two_party_scale_one : forall x y st, n = 2%nat -> operands n x y -> fits x y -> scale_of x y = 1 -> (qval x == qarg x y)%Q ->
    open_a (n_sh (fst (n_eq (pr := pr) D x y st))) = wrap D /\ n_sc (fst (n_eq (pr := pr) D x y st)) = 1.
  Proof using All.
    intros x y st N2 HO HF HS E. apply (fits_iff n x y HO) in HF. pose proof (S_common x y) as ES. apply (eq_iff n x y HO) in E.
    pose proof (n_eq_2 n Hn pr HV D _ x y N2 (px n x y HO) (wfx n x y HO) (wfy n x y HO)) as H1. cbv zeta in H1. rewrite <- ES in H1.
    rewrite E, Z.sub_diag, HS, Z.div_1_r in H1. specialize (H1 st). split; [|apply H1]. rewrite (ashare_open _ _ _ (proj1 H1)). change (wrap 0 =? 0) with true. cbv iota. now rewrite Z.mul_1_l.
  Qed.
  (** A difference of -2^63 at the comparison scale: != gives 2 and == gives -1, except with two parties. *)
  Lemma k_C29_corner_difference : forall x y st, n <> 2%nat -> operands n x y -> scale_of x y = 1 \/ scale_of x y = D ->
    ((qval x - qarg x y) * inject_Z (scale_of x y) == inject_Z (- H63))%Q ->
    open_a (n_sh (fst (n_ne (pr := pr) D x y st))) = 2 /\ open_a (n_sh (fst (n_eq (pr := pr) D x y st))) = -1.
  Proof using All.
    intros x y st N2 HO HS E. pose proof (S_common x y) as ES. pose proof (qx n x y HO) as Qx. pose proof (qy n x y HO) as Qy.
    set (a := open_a (n_sh x) * (scale_of x y / n_sc x)) in *. set (b := aval y (scale_of x y)) in *.
    assert (Ed : a - b = - H63).
    { assert (EE : (inject_Z (a - b) == inject_Z (- H63))%Q) by (rewrite inj_sub, <- Qx, <- Qy, <- E; ring). unfold Qeq, inject_Z in EE. cbn [Qnum Qden] in EE. rewrite !Z.mul_1_r in EE. exact EE. }
    pose proof (n_eq_many n Hn pr HV D _ x y N2 (px n x y HO) (wfx n x y HO) (wfy n x y HO)) as H1. pose proof (n_ne_many n Hn pr HV D _ x y N2 (px n x y HO) (wfx n x y HO) (wfy n x y HO)) as H2.
    cbv zeta in *. rewrite <- ES in *. fold a b in H1, H2. rewrite Ed, (neval_corner n Hn D _ _ (ratio_ok _ HS) (wrap_id (- H63) ltac:(unfold in64, H63; lia))) in H1, H2. specialize (H1 st). specialize (H2 st).
    rewrite (ashare_open _ _ _ (proj1 H1)), (ashare_open _ _ _ (proj1 H2)). split; reflexivity.
  Qed.

  (** C30: exact, whatever the sharing; raw values at the tensor's own scale. *)
  Lemma k_C30_piecewise : forall x st, sharing n x -> n_sc x = 1 \/ n_sc x = D -> let v := open_a (n_sh x) in
    (let r := fst (n_sign (pr := pr) D x st) in open_a (n_sh r) = (if v <? 0 then -1 else 1) /\ n_sc r = 1) /\
    (let r := fst (n_relu (pr := pr) D x st) in open_a (n_sh r) = Z.max v 0 /\ n_sc r = n_sc x) /\
    (v <> - H63 -> let r := fst (n_abs (pr := pr) D x st) in open_a (n_sh r) = Z.abs v /\ n_sc r = n_sc x).
  Proof using All.
    intros x st Hx HS v. pose proof (nshare_of n x Hx) as Hs. assert (I : in64 v) by apply open_a_in64. pose proof (ratio_ok _ HS) as R. destruct Hx as (L & F & P). repeat split.
    - pose proof (n_sign_ok n Hn pr HV D _ _ x R I Hs st) as H. rewrite (ashare_open _ _ _ (proj1 H)). now destruct (v <? 0).
    - apply (n_sign_ok n Hn pr HV D _ _ x R I Hs st).
    - pose proof (n_relu_ok n Hn pr HV D _ _ x P R I Hs st) as H. rewrite (ashare_open _ _ _ (proj1 H)). apply wrap_id. unfold in64, H63 in *. fold v. lia.
    - apply (n_relu_ok n Hn pr HV D _ _ x P R I Hs st).
    - pose proof (n_abs_ok n Hn pr HV D _ _ x P R I Hs st) as Ha. rewrite (ashare_open _ _ _ (proj1 Ha)). apply wrap_id. unfold in64, H63 in *. fold v. lia.
    - apply (n_abs_ok n Hn pr HV D _ _ x P R I Hs st).
  Qed.
  (** where() with an encrypted condition and encrypted alternatives at one scale, both as method and as crypten.where. *)
  Lemma k_C30_where : forall x c y st, sharing n x -> sharing n c -> sharing n y -> n_sc c = 1 -> n_sc y = n_sc x -> open_a (n_sh c) = 0 \/ open_a (n_sh c) = 1 ->
    let chosen := if open_a (n_sh c) =? 1 then open_a (n_sh x) else open_a (n_sh y) in
    (let r := fst (where_enc (pr := pr) x c y st) in open_a (n_sh r) = chosen /\ n_sc r = n_sc x) /\
    (let r := fst (cwhere (pr := pr) c x y st) in open_a (n_sh r) = chosen /\ n_sc r = n_sc x).
  Proof using All.
    intros x c y st Hx Hc Hy Sc Sy Hb chosen. pose proof (nshare_of n x Hx) as Nx. pose proof (nshare_of n c Hc) as Nc. pose proof (nshare_of n y Hy) as Ny. rewrite Sc in Nc. rewrite Sy in Ny.
    pose proof (where_enc_ok n Hn pr HV _ _ _ _ x c y (proj2 (proj2 Hx)) Hb Nx Nc Ny st) as H1. pose proof (cwhere_ok n Hn pr HV _ _ _ _ x c y (proj2 (proj2 Hx)) Hb Nx Nc Ny st) as H2.
    fold chosen in H1, H2. assert (I : wrap chosen = chosen) by (apply wrap_id; unfold chosen; destruct (_ =? 1); apply open_a_in64).
    repeat split; try apply H1; try apply H2; [rewrite (ashare_open _ _ _ (proj1 H1))|rewrite (ashare_open _ _ _ (proj1 H2))]; assumption.
  Qed.
  (** ... but with a float alternative its fraction is lost: where the condition is 0 the result is the integer part of [q]. *)
  Lemma k_C30_where_float_truncates : forall x c q st, sharing n x -> sharing n c -> n_sc c = 1 -> 1 < n_sc x -> open_a (n_sh c) = 0 ->
    let r := fst (where_float (pr := pr) x c q st) in open_a (n_sh r) = wrap (Z.quot (Qnum q) (Zpos (Qden q)) * n_sc x) /\ n_sc r = n_sc x.
  Proof using All.
    intros x c q st Hx Hc Sc Sx Hb. pose proof (nshare_of n x Hx) as Nx. pose proof (nshare_of n c Hc) as Nc. rewrite Sc in Nc.
    pose proof (where_float_ok n Hn pr HV _ _ _ x c q Sx (or_introl Hb) Nx Nc st) as H. rewrite Hb in H. change (0 =? 1) with false in H. cbv iota in H.
    split; [|apply H]. rewrite (ashare_open _ _ _ (proj1 H)). unfold encodeQ. now rewrite Z.mul_1_l.
  Qed.
  (** hardtanh is the clamp between the encoded bounds. *)
  Lemma k_C30_hardtanh : forall x lo hi st, sharing n x -> n_sc x = 1 \/ n_sc x = D ->
    match lo, hi with AEnc _, _ | _, AEnc _ => False | _, _ => True end ->
    let s := n_sc x in let v := open_a (n_sh x) in
    let bound y := match y with AInt k => k * s | AFloat q => encodeQ s q | AEnc _ => 0 end in
    in64 (bound lo) -> in64 (bound hi) -> in64 (v - bound lo) -> in64 (v - bound hi) -> bound lo <= bound hi ->
    let r := fst (hardtanh (pr := pr) D x lo hi st) in open_a (n_sh r) = Z.min (Z.max v (bound lo)) (bound hi) /\ n_sc r = n_sc x.
  Proof using All.
    intros x lo hi st Hx HS Hp s v bound Ilo Ihi I1 I2 Hle r. pose proof (nshare_of n x Hx) as Nx.
    assert (Plo : public lo) by (destruct lo, hi; cbn; tauto). assert (Phi : public hi) by (destruct lo, hi; cbn; tauto).
    assert (Elo : aval lo s = bound lo) by (destruct lo; [reflexivity|reflexivity|contradiction]). assert (Ehi : aval hi s = bound hi) by (destruct hi; [reflexivity|reflexivity|contradiction]).
    pose proof (hardtanh_ok n Hn pr HV D _ _ x lo hi (proj2 (proj2 Hx)) (ratio_ok _ HS) Nx Plo Phi) as H. fold s v in H. rewrite Elo, Ehi in H. specialize (H I1 I2 st). fold r in H.
    split; [|apply H]. rewrite (ashare_open _ _ _ (proj1 H)). pose proof (open_a_in64 (n_sh x)) as Iv. fold v in Iv. rewrite wrap_id; unfold in64 in *; lia.
  Qed.
End Claims.

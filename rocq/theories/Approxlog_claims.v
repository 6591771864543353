(** C74: the logarithm. *)
Require Import List Reals ZArith Lia Lra Arith Bool Psatz.
From Verif Require Import Ring64 Tensor Rtensor Rtensor_proofs Realgrad Realgrad_claims Approx Approx_claims Enclose.
Import ListNotations.
Open Scope R_scope.

(** *** Enclosures of the steps of the default configuration *)
Definition iexp8 (i : interval) : interval := isquares 8 (iadd (iz 1) (idiv i 256)).
Lemma e_exp8 i v : enc i v -> enc (iexp8 i) (exp_approx 8 v).
Proof. intros H. unfold exp_approx. apply e_squares. apply e_add; [apply e_z|]. replace (2 ^ 8) with (IZR 256) by (cbn; ring). apply e_div; [reflexivity|exact H]. Qed.
Fixpoint rseries (ds : list Z) (h : R) : R := match ds with [] => 0 | d :: ds => h * (1 / IZR d + rseries ds h) end.
Fixpoint iseries (ds : list Z) (h : interval) : interval := match ds with [] => iz 0 | d :: ds => imul h (iadd (ifrac 1 d) (iseries ds h)) end.
Lemma e_series ds h v : Forall (fun d => 0 < d)%Z ds -> enc h v -> enc (iseries ds h) (rseries ds v).
Proof. intros D H. induction D as [|d ds P _ IH]; [apply (e_z 0)|]. cbn [iseries rseries]. apply e_mul; [exact H|]. apply e_add; [now apply e_frac|exact IH]. Qed.
Definition order8 : list Z := [1; 2; 3; 4; 5; 6; 7; 8]%Z.
Definition ones7 : list Z := [1; 1; 1; 1; 1; 1; 1]%Z.
Definition residual (x y : R) : R := 1 - x * exp_approx 8 (- y).
Lemma log_step_default x y : log_step default x y = y - rseries order8 (residual x y).
Proof.
  unfold log_step, default, mpc_exp, with_exp_iterations. cbn [exp_iterations log_exp_iterations log_order]. fold (residual x y). set (h := residual x y). rewrite polynomial_value. cbn [seq map Nat.add power_series rseries order8]. cbn [INR]. field.
Qed.
Lemma d_series8 h : derivable_pt_lim (rseries order8) h (1 + rseries ones7 h).
Proof.
  apply (d_ext (fun h => h + / 2 * h ^ 2 + / 3 * h ^ 3 + / 4 * h ^ 4 + / 5 * h ^ 5 + / 6 * h ^ 6 + / 7 * h ^ 7 + / 8 * h ^ 8)); [intros t; cbn [rseries order8 pow]; field|].
  apply (d_val _ _ (1 + / 2 * (INR 2 * h ^ 1) + / 3 * (INR 3 * h ^ 2) + / 4 * (INR 4 * h ^ 3) + / 5 * (INR 5 * h ^ 4) + / 6 * (INR 6 * h ^ 5) + / 7 * (INR 7 * h ^ 6) + / 8 * (INR 8 * h ^ 7))); [cbn [INR rseries ones7 pow]; field|].
  repeat apply d_plus; try apply d_id; match goal with |- derivable_pt_lim (fun t => ?c * t ^ ?n) _ _ => apply (derivable_pt_lim_scal (fun t => t ^ n)); apply derivable_pt_lim_pow end.
Qed.
(** the slope of a step in y *)
Definition slope (x y : R) : R := 1 - (1 + rseries ones7 (residual x y)) * (x * exp_approx 8 (- y) * / (1 - y / 256)).
Lemma d_exp8 y : 1 - y / 256 <> 0 -> derivable_pt_lim (fun t => exp_approx 8 (- t)) y (- (exp_approx 8 (- y) * / (1 - y / 256))).
Proof.
  intros Q. assert (E : forall t, exp_approx 8 (- t) = (1 - t / 256) ^ (2 ^ 8)) by (intros t; rewrite exp_approx_power; f_equal; cbn [pow]; field). apply (d_ext (fun t => (1 - t / 256) ^ (2 ^ 8))); [intros t; now rewrite E|].
  apply (d_val _ _ (INR (2 ^ 8) * (1 - y / 256) ^ pred (2 ^ 8) * (- / 256))).
  - rewrite E. replace ((1 - y / 256) ^ (2 ^ 8)) with ((1 - y / 256) * (1 - y / 256) ^ pred (2 ^ 8)) by reflexivity. rewrite pow_INR. cbn [INR pow]. set (q := (1 - y / 256) ^ _). field. lra.
  - apply (derivable_pt_lim_comp (fun t => 1 - t / 256) (fun u => u ^ (2 ^ 8))); [|apply derivable_pt_lim_pow]. apply (d_val _ _ (0 - / 256)); [ring|]. apply d_minus; [apply derivable_pt_lim_const|]. apply (d_ext (fun t => / 256 * t)); [intros t; field|]. apply (d_val _ _ (/ 256 * 1)); [ring|]. apply (derivable_pt_lim_scal (fun t => t)). apply d_id.
Qed.
Lemma d_step x y : 1 - y / 256 <> 0 -> derivable_pt_lim (log_step default x) y (slope x y).
Proof.
  intros Q. apply (d_ext (fun y => y - rseries order8 (residual x y))); [intros t; now rewrite log_step_default|]. unfold slope. apply d_minus; [apply d_id|].
  apply (derivable_pt_lim_comp (residual x) (rseries order8)); [|apply d_series8]. unfold residual. apply (d_val _ _ (0 - x * (- (exp_approx 8 (- y) * / (1 - y / 256))))); [ring|]. apply d_minus; [apply derivable_pt_lim_const|]. apply (derivable_pt_lim_scal (fun t => exp_approx 8 (- t))). now apply d_exp8.
Qed.

Definition within (k : Z) (i : interval) : bool := (- k * scale <=? fst i)%Z && (snd i <=? k * scale)%Z.
Lemma within_le k i v : within k i = true -> enc i v -> - IZR k <= v <= IZR k.
Proof.
  unfold within. intros H [A B]. apply andb_prop in H. destruct H as [H1 H2]. apply Z.leb_le, IZR_le in H1. apply Z.leb_le, IZR_le in H2. rewrite mult_IZR in H1, H2. rewrite opp_IZR in H1. fold rs in H1, H2. pose proof rs_pos. split; apply (Rmult_le_reg_r rs); lra.
Qed.
Definition iresidual (xe : interval) : interval := isub (iz 1) xe.
Definition islope (xe y : interval) : interval := isub (iz 1) (imul (iadd (iz 1) (iseries ones7 (iresidual xe))) (imul xe (iinv (isub (iz 1) (idiv y 256))))).
(** the middle of the interval, and the slope times the distance from it *)
Definition ilog_step (x y : interval) : interval :=
  let m := ((fst y + snd y) / 2)%Z in
  iadd (isub (m, m) (iseries order8 (iresidual (imul x (iexp8 (ineg (m, m))))))) (imul (islope (imul x (iexp8 (ineg y))) y) (isub y (m, m))).
Lemma positive_ds : Forall (fun d => 0 < d)%Z order8 /\ Forall (fun d => 0 < d)%Z ones7. Proof. split; repeat constructor. Qed.
Lemma e_residual x y v w : enc x v -> enc y w -> enc (iresidual (imul x (iexp8 (ineg y)))) (residual v w).
Proof. intros X Y. unfold residual. apply e_sub; [apply (e_z 1)|]. apply e_mul; [exact X|]. apply e_exp8. now apply e_neg. Qed.
Lemma e_slope x y v w : within 12 y = true -> enc x v -> enc y w -> enc (islope (imul x (iexp8 (ineg y))) y) (slope v w).
Proof.
  intros W X Y. unfold slope. apply e_sub; [apply (e_z 1)|]. apply e_mul; [apply e_add; [apply (e_z 1)|apply e_series; [apply positive_ds|now apply e_residual]]|]. apply e_mul; [apply e_mul; [exact X|apply e_exp8; now apply e_neg]|].
  apply e_inv; [|apply e_sub; [apply (e_z 1)|now apply (e_div y 256)]]. unfold within in W. apply andb_prop in W. destruct W as [_ W]. apply Z.leb_le in W. unfold isub, iadd, ineg, iz, idiv. cbn [fst snd]. assert (- (snd y) / 256 >= - (12 * scale) / 256)%Z by (apply Z.le_ge, Z.div_le_mono; lia). assert (- (12 * scale) / 256 > - scale)%Z by reflexivity. lia.
Qed.
Lemma e_step x y v w : within 12 y = true -> enc x v -> enc y w -> enc (ilog_step x y) (log_step default v w).
Proof.
  intros W X Y. unfold ilog_step. set (m := ((fst y + snd y) / 2)%Z). set (M := IZR m / rs). pose proof rs_pos as P. assert (Em : enc (m, m) M) by (unfold enc, M; cbn [fst snd]; replace (IZR m / rs * rs) with (IZR m) by (field; lra); lra).
  assert (F : (fst y <= snd y)%Z) by (destruct Y; apply le_IZR; lra). assert (Ym : enc y M). { destruct Y as [A B]. unfold enc, M. replace (IZR m / rs * rs) with (IZR m) by (field; lra). split; apply IZR_le; unfold m; [apply Z.div_le_lower_bound|apply Z.div_le_upper_bound]; lia. }
  assert (Q : forall u, enc y u -> 1 - u / 256 <> 0) by (intros u U; pose proof (within_le 12 y u W U); lra).
  assert (V : exists u, enc y u /\ log_step default v w = log_step default v M + slope v u * (w - M)).
  { destruct (Rtotal_order M w) as [L|[->|L]].
    - destruct (MVT_cor2 (log_step default v) (slope v) M w L) as (u & E & U); [intros u U; apply d_step, Q; unfold enc in *; nra|]. exists u. split; [unfold enc in *; nra|lra].
    - exists w. split; [exact Y|ring].
    - destruct (MVT_cor2 (log_step default v) (slope v) w M L) as (u & E & U); [intros u U; apply d_step, Q; unfold enc in *; nra|]. exists u. split; [unfold enc in *; nra|lra]. }
  destruct V as (u & U & ->). apply e_add; [|apply e_mul; [now apply e_slope|now apply e_sub]]. rewrite log_step_default. apply e_sub; [exact Em|]. apply e_series; [apply positive_ds|]. now apply e_residual.
Qed.
Definition ilog_initial (x : interval) : interval := iadd (isub (idiv x 120) (itimes 20 (iexp8 (ineg (iadd (itimes 2 x) (iz 1)))))) (iz 3).
Lemma e_initial x v : enc x v -> enc (ilog_initial x) (log_initial default v).
Proof.
  intros X. unfold log_initial. apply e_add; [|apply (e_z 3)]. apply e_sub; [now apply (e_div x 120)|]. rewrite Rmult_comm. apply (e_times 20). apply e_exp8. apply e_neg. apply e_add; [|apply (e_z 1)]. rewrite Rmult_comm. now apply (e_times 2).
Qed.
Definition delta : interval := ifrac 1 1000.
Definition log_ok (x : interval) : bool :=
  let y0 := ilog_initial x in
  if within 12 y0 then
    let y1 := ilog_step x y0 in
    if within 12 y1 then
      let y := ilog_step x y1 in
      let t1 := itimes 100 (isub y delta) in let t2 := itimes 100 (iadd y delta) in
      if (scale <=? fst x)%Z then exp_below 14 (idiv t1 102) x && exp_above 14 (idiv t2 98) x
      else if (snd x <=? scale)%Z then exp_below 14 (idiv t1 98) x && exp_above 14 (idiv t2 102) x else false
    else false
  else false.
Lemma ln_ge t x : 0 < x -> exp t <= x -> t <= ln x.
Proof. intros X [H| <-]; [|rewrite ln_exp; lra]. left. rewrite <- (ln_exp t). apply ln_increasing; [apply exp_pos|exact H]. Qed.
Lemma ln_le' t x : 0 < x -> x <= exp t -> ln x <= t.
Proof. intros X [H| ->]; [|rewrite ln_exp; lra]. left. rewrite <- (ln_exp t). now apply ln_increasing. Qed.
Lemma ln_sign x : (1 <= x -> 0 <= ln x) /\ (0 < x <= 1 -> ln x <= 0).
Proof. split; intros H; rewrite <- ln_1; [destruct H as [H| <-]; [left; apply ln_increasing; lra|lra]|destruct H as [P [H| ->]]; [left; apply ln_increasing; lra|lra]]. Qed.
Lemma log_ok_sound i x : log_ok i = true -> enc i x -> 0 < x -> Rabs (mpc_log default false x - ln x) <= 2 / 100 * Rabs (ln x) + 1 / 1000.
Proof.
  intros H X P. unfold log_ok in H. destruct (within 12 (ilog_initial i)) eqn:W0; [|discriminate]. destruct (within 12 (ilog_step i (ilog_initial i))) eqn:W1; [|discriminate].
  set (y := ilog_step i (ilog_step i (ilog_initial i))) in *. set (v := mpc_log default false x). assert (Y : enc y v). { unfold v, mpc_log, log_main. cbn [default log_iterations Nat.iter nat_rect]. apply e_step; [exact W1|exact X|]. apply e_step; [exact W0|exact X|]. now apply e_initial. }
  assert (D : enc delta (1 / 1000)) by now apply (e_frac 1 1000). pose proof rs_pos as S. destruct (Z.leb_spec scale (fst i)) as [A|A]; [|destruct (Z.leb_spec (snd i) scale) as [B|B]; [|discriminate]].
  - apply andb_prop in H. destruct H as [H1 H2]. assert (X1 : 1 <= x) by (destruct X as [X _]; apply IZR_le in A; fold rs in A; apply (Rmult_le_reg_r rs); lra). pose proof (proj1 (ln_sign x) X1) as L. rewrite (Rabs_right (ln x)) by lra.
    apply (e_below 14 _ _ (100 * (v - 1 / 1000) / 102) x) in H1; [|apply e_div; [reflexivity|apply (e_times 100); now apply e_sub]|exact X]. apply (e_above 14 _ _ (100 * (v + 1 / 1000) / 98) x) in H2; [|apply e_div; [reflexivity|apply (e_times 100); now apply e_add]|exact X].
    apply ln_ge in H1; [|exact P]. apply ln_le' in H2; [|exact P]. apply Rabs_le. lra.
  - apply andb_prop in H. destruct H as [H1 H2]. assert (X1 : 0 < x <= 1) by (split; [exact P|]; destruct X as [_ X]; apply IZR_le in B; fold rs in B; apply (Rmult_le_reg_r rs); lra). pose proof (proj2 (ln_sign x) X1) as L. rewrite (Rabs_left1 (ln x)) by lra.
    apply (e_below 14 _ _ (100 * (v - 1 / 1000) / 98) x) in H1; [|apply e_div; [reflexivity|apply (e_times 100); now apply e_sub]|exact X]. apply (e_above 14 _ _ (100 * (v + 1 / 1000) / 102) x) in H2; [|apply e_div; [reflexivity|apply (e_times 100); now apply e_add]|exact X].
    apply ln_ge in H1; [|exact P]. apply ln_le' in H2; [|exact P]. apply Rabs_le. lra.
Qed.

(** *** The whole range *)
(** the widths of the intervals on which the test is made *)
Definition below_one : list Z := [
  101; 163; 256; 386; 552; 700; 700; 646; 530; 456; 405; 368; 341; 320; 304; 292; 281; 273; 266; 260; 255; 250; 246; 243; 240; 237; 234; 232; 229; 227; 225; 223; 221; 220; 218; 217; 215; 214; 213; 212;
  211; 210; 209; 208; 207; 207; 206; 206; 205; 205; 204; 204; 204; 203; 203; 203; 203; 203; 203; 203; 202; 202; 202; 202; 202; 202; 202; 202; 202; 202; 201; 201; 201; 201; 200; 200; 200; 199; 199; 199;
  198; 198; 197; 197; 196; 195; 195; 194; 193; 192; 190; 189; 188; 186; 185; 183; 182; 180; 178; 177; 175; 173; 171; 169; 167; 165; 163; 160; 158; 155; 152; 150; 147; 144; 140; 137; 134; 131; 128; 125;
  122; 119; 116; 114; 111; 109; 107; 106; 105; 103; 102; 102; 101; 101; 101; 101; 102; 102; 103; 104; 105; 106; 107; 108; 109; 110; 112; 112; 113; 114; 115; 115; 115; 115; 115; 115; 114; 114; 113; 113;
  112; 111; 110; 109; 108; 107; 106; 105; 104; 103; 102; 101; 100; 99; 97; 96; 95; 94; 92; 91; 90; 88; 87; 86; 85; 84; 82; 81; 80; 79; 78; 76; 75; 74; 73; 72; 71; 70; 69; 67;
  66; 65; 64; 63; 62; 61; 60; 59; 58; 58; 57; 56; 55; 54; 53; 52; 51; 50; 49; 49; 48; 47; 46; 45; 45; 44; 43; 42; 42; 41; 40; 40; 39; 38; 38; 37; 36; 36; 35; 34;
  34; 33; 33; 32; 31; 31; 30; 30; 29; 29; 28; 28; 27; 27; 26; 26; 25; 25; 24; 24; 23; 23; 23; 22; 22; 21; 21; 21; 20; 20; 19; 19; 19; 18; 18; 18; 17; 17; 17; 16;
  16; 16; 15; 15; 15; 15; 14; 14; 14; 13; 13; 13; 13; 12; 12; 12; 12; 12; 11; 11; 11; 11; 10; 10; 10; 10; 10; 9; 9; 9; 9; 9; 9; 8; 8; 8; 8; 8; 8; 7;
  7; 7; 7; 7; 7; 7; 6; 6; 6; 6; 6; 6; 6; 6; 5; 5; 5; 5; 5; 5; 5; 5; 5; 5; 4; 4; 4; 4; 4; 4; 4; 4; 4; 4; 4; 4; 3; 3; 700
]%Z.
Definition above_one : list Z := [
  3; 4; 4; 4; 4; 4; 4; 4; 4; 4; 4; 4; 4; 4; 5; 5; 5; 5; 5; 5; 5; 5; 5; 5; 6; 6; 6; 6; 6; 6; 6; 6; 6; 7; 7; 7; 7; 7; 7; 7;
  8; 8; 8; 8; 8; 8; 8; 9; 9; 9; 9; 9; 9; 10; 10; 10; 10; 10; 11; 11; 11; 11; 11; 12; 12; 12; 12; 12; 13; 13; 13; 13; 14; 14; 14; 14; 15; 15; 15; 16;
  16; 16; 16; 17; 17; 17; 18; 18; 18; 19; 19; 19; 20; 20; 20; 21; 21; 22; 22; 22; 23; 23; 24; 24; 24; 25; 25; 26; 26; 27; 27; 28; 28; 29; 29; 30; 30; 31; 31; 32;
  32; 33; 33; 34; 35; 35; 36; 37; 37; 38; 38; 39; 40; 41; 41; 42; 43; 43; 44; 45; 46; 47; 47; 48; 49; 50; 51; 52; 52; 53; 54; 55; 56; 57; 58; 59; 60; 61; 62; 63;
  64; 65; 67; 68; 69; 70; 71; 72; 74; 75; 76; 77; 79; 80; 81; 82; 84; 85; 87; 88; 89; 91; 92; 94; 95; 96; 98; 99; 101; 102; 104; 105; 107; 108; 110; 111; 113; 114; 116; 118;
  119; 121; 122; 124; 125; 127; 128; 130; 131; 133; 135; 136; 138; 139; 141; 142; 144; 145; 147; 148; 150; 151; 153; 154; 156; 157; 159; 160; 162; 163; 164; 166; 167; 168; 170; 171; 172; 174; 175; 176;
  177; 179; 180; 181; 181; 182; 182; 183; 183; 183; 183; 183; 183; 183; 183; 182; 181; 181; 179; 178; 176; 175; 172; 170; 167; 164; 160; 157; 152; 147; 142; 137; 132; 128; 124; 120; 116; 112; 109; 107;
  104; 103; 101; 100; 99; 99; 99; 99; 100; 101; 103; 105; 107; 110; 113; 117; 122; 127; 133; 140; 147; 153; 158; 164; 169; 173; 177; 179; 700
]%Z.
Lemma walk_below : walk log_ok (scale / 10000) below_one scale = true. Proof. vm_cast_no_check (eq_refl true). Qed.
Lemma walk_above : walk log_ok scale above_one (250 * scale + 1) = true. Proof. vm_cast_no_check (eq_refl true). Qed.
(** C74: in the default configuration the logarithm is within 2% of the exact one, plus 0.001, from 0.0001 to 250. *)
Lemma k_C74_range x : 1 / 10000 <= x <= 250 -> Rabs (mpc_log default false x - ln x) <= 2 / 100 * Rabs (ln x) + 1 / 1000.
Proof.
  intros X. pose proof rs_pos as P. set (good x := 0 < x -> Rabs (mpc_log default false x - ln x) <= 2 / 100 * Rabs (ln x) + 1 / 1000). assert (S : forall i x, log_ok i = true -> enc i x -> good x) by (intros i v O E V; now apply (log_ok_sound i)).
  destruct (Rlt_dec x 1) as [H|H].
  - apply (walk_sound log_ok good scale S _ _ walk_below x); [|lra]. fold rs. split; [|nra]. apply Rle_trans with (rs / 10000); [|nra]. apply (Rmult_le_reg_r 10000); [lra|]. unfold Rdiv. rewrite Rmult_assoc, Rinv_l, Rmult_1_r by lra. rewrite <- mult_IZR. apply IZR_le. unfold scale. vm_compute. discriminate.
  - apply (walk_sound log_ok good _ S _ _ walk_above x); [|lra]. fold rs. split; [nra|]. rewrite plus_IZR, mult_IZR. fold rs. nra.
Qed.
(** C74 refuted at 1: the result is not 0, so no relative error can be promised near 1. *)
Lemma k_C74_one_refuted : mpc_log default false 1 < 0 /\ ~ Rabs (mpc_log default false 1 - ln 1) <= 2 / 100 * Rabs (ln 1).
Proof.
  assert (N : mpc_log default false 1 < 0).
  { set (i := iz 1). assert (W0 : within 12 (ilog_initial i) = true) by (vm_compute; reflexivity). assert (W1 : within 12 (ilog_step i (ilog_initial i)) = true) by (vm_compute; reflexivity).
    assert (Y : enc (ilog_step i (ilog_step i (ilog_initial i))) (mpc_log default false 1)). { unfold mpc_log, log_main. cbn [default log_iterations Nat.iter nat_rect]. apply e_step; [exact W1|apply (e_z 1)|]. apply e_step; [exact W0|apply (e_z 1)|]. apply e_initial, (e_z 1). }
    apply (enc_le _ _ (-1)) in Y; [|vm_compute; discriminate]. pose proof rs_pos. apply (Rmult_lt_reg_r rs); lra. }
  split; [exact N|]. rewrite ln_1, Rminus_0_r, Rabs_R0, Rabs_left by exact N. lra.
Qed.
Lemma ln_100 : Rabs (4605170 / 1000000 - ln 100) <= 1 / 10000.
Proof.
  assert (A : exp (46051 / 10000) <= 100) by (apply (e_below 20 (ifrac 46051 10000) (iz 100)); [vm_compute; reflexivity|now apply (e_frac 46051 10000)|apply (e_z 100)]). assert (B : 100 <= exp (46052 / 10000)) by (apply (e_above 20 (ifrac 46052 10000) (iz 100)); [vm_compute; reflexivity|now apply (e_frac 46052 10000)|apply (e_z 100)]).
  apply ln_ge in A; [|lra]. apply ln_le' in B; [|lra]. apply Rabs_le. lra.
Qed.
(** C74: with input_in_01 the bound is that of 100 x, from 0.000001 to 1 (and to 2.5). *)
Lemma k_C74_in_01 x : 1 / 1000000 <= x <= 25 / 10 -> Rabs (mpc_log default true x - ln x) <= 2 / 100 * Rabs (ln (100 * x)) + 11 / 10000.
Proof.
  intros X. unfold mpc_log. change (log_main default (x * 100)) with (mpc_log default false (x * 100)). rewrite (Rmult_comm x). pose proof (k_C74_range (100 * x) ltac:(lra)) as B. pose proof ln_100 as L. rewrite ln_mult in B |- * by lra. set (v := mpc_log default false (100 * x)) in *.
  replace (v - 4605170 / 1000000 - ln x) with ((v - (ln 100 + ln x)) - (4605170 / 1000000 - ln 100)) by ring. apply Rle_trans with (1 := Rabs_triang _ _). rewrite Rabs_Ropp. lra.
Qed.

(** *** Where the iterations settle *)
Lemma polynomial_0 coeffs : polynomial coeffs 0 = 0.
Proof. rewrite polynomial_value. generalize 0%nat. intros k. revert k. induction coeffs as [|a cs IH]; intros k; [reflexivity|]. cbn [power_series]. rewrite IH. cbn [pow]. ring. Qed.
Lemma exp_quadratic_pos u : 0 <= u <= 1 / 4 -> exp u <= 1 + u + u * u.
Proof.
  intros U. replace u with (u / 2 + u / 2) at 1 by field. rewrite exp_plus. pose proof (exp_ineq1_le (- (u / 2))) as I. rewrite exp_Ropp in I. pose proof (exp_pos (u / 2)) as P. set (e := exp (u / 2)) in *. assert (H : e * / e = 1) by (field; lra). assert (e * (1 - u / 2) <= 1) by (rewrite <- H; apply Rmult_le_compat_l; lra). assert (e <= / (1 - u / 2)) by (apply (Rmult_le_reg_r (1 - u / 2)); [lra|]; rewrite Rinv_l; lra).
  assert (W : e * e <= / (1 - u / 2) * / (1 - u / 2)) by (apply Rmult_le_compat; lra). apply Rle_trans with (1 := W). apply (Rmult_le_reg_r ((1 - u / 2) * (1 - u / 2))); [nra|]. replace (/ (1 - u / 2) * / (1 - u / 2) * ((1 - u / 2) * (1 - u / 2))) with 1 by (field; lra). assert (0 <= u * u * (1 - 3 * u + u * u)) by (apply Rmult_le_pos; nra). lra.
Qed.
Lemma exp_quadratic t : Rabs t <= 1 / 4 -> exp (- t) <= 1 - t + t * t.
Proof.
  intros T. unfold Rabs in T. destruct (Rcase_abs t) as [H|H]; [pose proof (exp_quadratic_pos (- t) ltac:(lra)); lra|]. pose proof (exp_ineq1_le t) as I. rewrite exp_Ropp. apply Rle_trans with (/ (1 + t)); [apply Rinv_le_contravar; lra|]. apply (Rmult_le_reg_r (1 + t)); [lra|]. rewrite Rinv_l by lra. assert (0 <= t * t * t) by (apply Rmult_le_pos; nra). lra.
Qed.
(** C74: a step leaves N (1 - x^(-1/N)) where it is, with N = 2^log_exp_iterations, for any order; this is less than ln x, by at most (ln x)^2 / N. *)
Lemma k_C74_rest c x : 0 < x -> let n := 2 ^ log_exp_iterations c in let y := n * (1 - exp (- (ln x / n))) in
  log_step c x y = y /\ (x <> 1 -> y < ln x) /\ (Rabs (ln x) <= n / 4 -> ln x - y <= ln x * ln x / n).
Proof.
  intros X. cbv zeta. set (n := 2 ^ log_exp_iterations c). assert (N : 0 < n) by apply two_pow_pos. set (t := ln x / n). set (y := n * (1 - exp (- t))). assert (E : ln x = n * t) by (unfold t; field; lra). split; [|split].
  - unfold log_step, mpc_exp. replace (exp_iterations (with_exp_iterations (log_exp_iterations c) c)) with (log_exp_iterations c) by reflexivity. replace (exp_approx (log_exp_iterations c) (- y)) with (/ x).
    + rewrite Rinv_r by lra. replace (1 - 1) with 0 by ring. rewrite polynomial_0. ring.
    + rewrite exp_approx_power. fold n. replace (1 + - y / n) with (exp (- t)) by (unfold y; field; lra). rewrite exp_pow, two_pow_INR. fold n. replace (n * - t) with (- ln x) by (rewrite E; ring). rewrite exp_Ropp, exp_ln by exact X. reflexivity.
  - intros X1. assert (T : t <> 0). { intros T. rewrite T, Rmult_0_r in E. apply X1. rewrite <- (exp_ln x X), E. apply exp_0. } pose proof (exp_ineq1 (- t) ltac:(lra)) as B. unfold y. rewrite E. apply Rmult_lt_compat_l; lra.
  - intros B. assert (T : Rabs t <= 1 / 4). { unfold t, Rdiv. rewrite Rabs_mult, (Rabs_right (/ n)) by (apply Rle_ge; left; now apply Rinv_0_lt_compat). apply (Rmult_le_reg_r n); [exact N|]. rewrite Rmult_assoc, Rinv_l by lra. lra. }
    replace (ln x * ln x / n) with (n * (t * t)) by (rewrite E; field; lra). unfold y. rewrite E. replace (n * t - n * (1 - exp (- t))) with (n * (exp (- t) - 1 + t)) by ring. apply Rmult_le_compat_l; [lra|].
    pose proof (exp_quadratic t T). lra.
Qed.

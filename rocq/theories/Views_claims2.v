(** C90, continued: what out-of-place calls and writes leave alone, and where CrypTen differs from PyTorch. *)
Require Import ZArith List Bool Arith Lia.
From Verif Require Import Ring64 Views Views_claims.
Import ListNotations.
Local Open Scope nat_scope.

(** ** Specification *)
(** the calls that only make new tensors *)
Definition out_of_place (s : stmt) : Prop := match s with InPlace _ _ _ | SetItem _ _ _ => False | _ => True end.
(** the tensor a call writes to *)
Definition target (s : stmt) : option nat := match s with InPlace x _ _ | SetItem x _ _ => Some x | _ => None end.
(** party [p]'s share of tensor [x], and its scale *)
Definition held (st : state) (x p : nat) : list Z * Z := (share st (var st x) p, scale (var st x)).
(** the tensors lie in different storages, or at different positions of the same one, at party [p] *)
Definition apart (st : state) (x y p : nat) : Prop :=
  sto (var st x) <> sto (var st y) \/ forall o, In o (off (var st x) p) -> ~ In o (off (var st y) p).
(** the shares of one number *)
Definition single (sh : nat -> list Z) (z : Z) (n : nat) : Prop :=
  (forall p, length (sh p) = 1) /\ wrap (zsum (map (fun p => nth 0 (sh p) 0%Z) (seq 0 n))) = z.
(** the sum of the shares of all parties but party 0 *)
Definition others (sh : nat -> list Z) (n : nat) : Z := zsum (map (fun p => nth 0 (sh p) 0%Z) (seq 1 (n - 1))).

(** ** Proofs *)
Definition wf (st : state) : Prop := forall x, x < length (vars st) -> sto (var st x) < length (heap st).
Lemma var_app st l x h : x < length (vars st) -> var {| heap := h; vars := vars st ++ l |} x = var st x.
Proof. intros H. unfold var; cbn [vars]. now rewrite app_nth1. Qed.
Lemma wf_alloc st f m o s : wf st -> wf (alloc st f m o s).
Proof.
  intros W x. unfold alloc; cbn [vars heap]. rewrite !app_length; cbn [length]. intros Hx. destruct (Nat.eq_dec x (length (vars st))) as [->|].
  - unfold var; cbn [vars]. rewrite app_nth2, Nat.sub_diag by lia. cbn. lia.
  - rewrite var_app by lia. specialize (W x ltac:(lia)). lia.
Qed.
Lemma wf_step n st s st' : wf st -> step n st s = Done st' -> wf st'.
Proof.
  intros W. destruct s as [sh s|x idx|x|o args|x idx ys|x o args|x idx y]; cbn [step].
  - intros [= <-]. now apply wf_alloc.
  - destruct (Nat.ltb_spec x (length (vars st))) as [Hx|]; [|discriminate]. cbn [andb]. destruct (inside _ _); [|discriminate]. intros [= <-] y. cbn [vars heap]. rewrite app_length; cbn [length]. intros Hy.
    destruct (Nat.eq_dec y (length (vars st))) as [->|]; [|rewrite var_app by lia; apply W; lia].
    unfold var at 1; cbn [vars]. rewrite app_nth2, Nat.sub_diag by lia. cbn. now apply W.
  - destruct (x <? _); [|discriminate]. intros [= <-]. now apply wf_alloc.
  - destruct (forallb _ args); [|discriminate]. intros [= <-]. now apply wf_alloc.
  - destruct (_ && _); [|discriminate]. intros [= <-]. now apply wf_alloc.
  - destruct (_ && _); [|discriminate]. destruct (_ =? _); [|discriminate]. destruct (forallb _ (seq 0 n)); [|discriminate]. intros [= <-] y. cbn [vars heap]. unfold put_memory. rewrite !setn_length. intros Hy.
    unfold var at 1; cbn [vars]. rewrite setn_nth. destruct (Nat.eqb_spec y x) as [->|]; cbn [andb]; [|now apply W]. destruct (Nat.ltb_spec x (length (vars st))); cbn [sto]; now apply W.
  - destruct (_ && _); [|discriminate]. destruct (forallb _ (seq 0 n)); [|discriminate]. intros [= <-] z. cbn [vars heap]. unfold put_memory. rewrite setn_length. apply W.
Qed.
Lemma wf_run n prog : forall st st', wf st -> run n st prog = Done st' -> wf st'.
Proof.
  induction prog as [|s prog IH]; cbn; intros st st' W; [now intros [= <-]|]. destruct (step n st s) as [st1|] eqn:E; [|discriminate].
  apply IH. eapply wf_step; eauto.
Qed.
Lemma wf_start : wf start.
Proof. intros x H. cbn in H. lia. Qed.
Lemma held_alloc st f m o s x p : wf st -> x < length (vars st) -> held (alloc st f m o s) x p = held st x p.
Proof.
  intros W Hx. unfold held, alloc. rewrite var_app by assumption. f_equal. unfold share. apply map_ext. intros k. unfold memory; cbn [heap].
  now rewrite app_nth1 by now apply W.
Qed.

(** C90: an out-of-place call leaves every existing tensor as it was, at every party, in every program *)
Lemma k_C90_frame n prog s st st' : run n start prog = Done st -> out_of_place s -> step n st s = Done st' ->
  forall x p, x < length (vars st) -> x < length (vars st') /\ held st' x p = held st x p.
Proof.
  intros R O E x p Hx. assert (W : wf st) by (eapply wf_run; [apply wf_start|eassumption]).
  assert (A : forall f m o sc, x < length (vars (alloc st f m o sc)) /\ held (alloc st f m o sc) x p = held st x p).
  { intros f m o sc. split; [unfold alloc; cbn [vars]; rewrite app_length; lia|now apply held_alloc]. }
  destruct s as [sh s|y idx|y|o args|y idx ys|y o args|y idx z]; cbn [step] in E; try contradiction.
  - injection E as <-. apply A.
  - destruct (_ && _); [|discriminate]. injection E as <-. cbn [vars]. rewrite app_length. split; [lia|]. unfold held. rewrite var_app by assumption. reflexivity.
  - destruct (y <? _); [|discriminate]. injection E as <-. apply A.
  - destruct (forallb _ args); [|discriminate]. injection E as <-. apply A.
  - destruct (_ && _); [|discriminate]. injection E as <-. apply A.
Qed.

(** C90: a write changes no tensor that has no element in common with its target *)
Lemma k_C90_apart n prog s st st' x y p : run n start prog = Done st -> step n st s = Done st' -> target s = Some x ->
  y < length (vars st) -> y <> x -> length (off (var st x) p) = size (var st x) -> apart st x y p -> held st' y p = held st y p.
Proof.
  intros R E T Hy Ny Sz Ap.
  assert (A : forall vs tgt vals m, nth y vs no_tensor = var st y -> (forall o, In o tgt -> In o (off (var st x) p)) -> m p = write (memory st (sto (var st x)) p) tgt vals ->
    held {| heap := put_memory st (sto (var st x)) m; vars := vs |} y p = held st y p).
  { intros vs tgt vals m Ev Ht Em. set (st1 := {| heap := _; vars := vs |}). assert (Ev1 : var st1 y = var st y) by exact Ev. unfold held. rewrite Ev1. f_equal. unfold share. apply map_ext_in. intros o Ho.
    unfold memory at 1, st1; cbn [heap]. unfold put_memory. rewrite setn_nth. destruct (Nat.eqb_spec (sto (var st y)) (sto (var st x))) as [Es|]; [|reflexivity]. cbn [andb].
    destruct (Nat.ltb_spec (sto (var st x)) (length (heap st))); [|reflexivity]. cbn [mem]. rewrite Em. rewrite write_out; [now rewrite Es|].
    intros I. destruct Ap as [Ap|Ap]; [congruence|]. exact (Ap o (Ht o I) Ho). }
  destruct s as [sh s|z idx|z|o args|z idx ys|z o args|z idx u]; cbn [target] in T; try discriminate; injection T as ->; cbn [step] in E.
  - destruct (_ && _); [|discriminate]. destruct (_ =? _); [|discriminate]. destruct (forallb _ (seq 0 n)); [|discriminate]. injection E as <-.
    eapply A; [|intros k Hk; exact Hk|reflexivity]. rewrite setn_nth. destruct (Nat.eqb_spec y x); [contradiction|reflexivity].
  - destruct (Nat.ltb_spec x (length (vars st))) as [Hx|]; [|discriminate]. destruct (u <? _); [|discriminate]. cbn [andb]. destruct (inside idx (size (var st x))) eqn:Ei; [|discriminate].
    cbn [andb] in E. destruct (_ =? _); [|discriminate]. destruct (forallb _ (seq 0 n)); [|discriminate]. injection E as <-. 
    eapply A; [reflexivity| |reflexivity]. intros k Hk. apply in_map_iff in Hk as (i & <- & Hi). apply nth_In. rewrite Sz. now apply (proj1 (inside_iff _ _) Ei).
Qed.

(** ** Broadcasting additions *)
(** [z = x + y] for an encrypted number [x] and a public tensor [y] of several elements, then [z[0] = w] *)
Definition assign_after_sum (x : nat -> list Z) (s : Z) (ys : list Z) (w : nat -> list Z) : list stmt :=
  [Encrypt x s; AddPublic 0 (repeat 0 (length ys)) ys; Encrypt w s; SetItem 1 [0] 2].

Lemma inside_repeat m : inside (repeat 0 m) 1 = true.
Proof. apply inside_iff. intros i H. apply repeat_spec in H. lia. Qed.
Lemma nth_repeat0 k m : nth k (repeat 0 m) 0 = 0.
Proof. revert k. induction m as [|m IH]; intros [|k]; cbn; auto. Qed.
Lemma sums_eq f g n : 0 < n -> (forall p, 0 < p < n -> f p = g p) -> zsum (map f (seq 0 n)) = (f 0%nat + zsum (map g (seq 1 (n - 1))))%Z.
Proof.
  intros Hn H. destruct n as [|n]; [lia|]. rewrite Nat.sub_succ, Nat.sub_0_r. cbn [seq map zsum fold_right]. f_equal.
  fold (zsum (map f (seq 1 n))). fold (zsum (map g (seq 1 n))). apply zsum_ext. intros p Hp. apply in_seq in Hp. apply H. lia.
Qed.

Section Broadcast.
  Variables (n : nat) (x w : nat -> list Z) (s : Z) (ys : list Z).
  Hypothesis n_pos : 0 < n.
  Hypothesis two : 2 <= length ys.
  Variables zx zw : Z.
  Hypothesis Hx : single x zx n.
  Hypothesis Hw : single w zw n.

  Lemma x_one p : exists a, x p = [a].
  Proof. pose proof (proj1 Hx p) as L. destruct (x p) as [|a [|]]; cbn in L; try lia. now exists a. Qed.
  Lemma w_one p : exists a, w p = [a].
  Proof. pose proof (proj1 Hw p) as L. destruct (w p) as [|a [|]]; cbn in L; try lia. now exists a. Qed.

  Definition z_mem (p : nat) : list Z :=
    match p with O => map (fun iy => wadd (nth (fst iy) (x 0) 0%Z) (snd iy)) (combine (repeat 0 (length ys)) ys) | _ => x p end.
  Definition z_off (p : nat) : list nat := match p with O => seq 0 (length ys) | _ => repeat 0 (length ys) end.
  Lemma z_mem0 k : k < length ys -> nth k (z_mem 0) 0%Z = wadd (nth 0 (x 0) 0%Z) (nth k ys 0%Z).
  Proof.
    intros Hk. unfold z_mem. rewrite (nth_map _ _ _ (0, 0%Z)) by (rewrite combine_length, repeat_length; lia).
    rewrite combine_nth by now rewrite repeat_length. cbn [fst snd]. now rewrite nth_repeat0.
  Qed.
  Lemma z_mem0_length : length (z_mem 0) = length ys.
  Proof. unfold z_mem. rewrite map_length, combine_length, repeat_length. lia. Qed.


  Definition st1 : state := fresh start x s.
  Definition flag : bool := if list_eq_dec Nat.eq_dec (repeat 0 (length ys)) (seq 0 (size (var st1 0))) then false else true.
  Definition st2 : state :=
    alloc st1 flag (fun p => match p with O => map (fun iy => wadd (nth (fst iy) (share st1 (var st1 0) p) 0%Z) (snd iy)) (combine (repeat 0 (length ys)) ys)
                             | _ => share st1 (var st1 0) p end) z_off s.
  Definition st3 : state := fresh st2 w s.
  Definition st4 : state :=
    {| heap := put_memory st3 1 (fun p => write (memory st3 1 p) (map (fun i => nth i (z_off p) 0) [0]) (share st3 (var st3 2) p)); vars := vars st3 |}.
  Lemma share1 p : share st1 (var st1 0) p = x p.
  Proof. destruct (x_one p) as (a & E). unfold share, memory, var, st1, fresh, alloc, start; cbn. rewrite E. reflexivity. Qed.
  Lemma size1 : size (var st1 0) = 1.
  Proof. unfold size, var, st1, fresh, alloc, start; cbn. rewrite seq_length. apply Hx. Qed.
  Lemma run2 : run n start [Encrypt x s; AddPublic 0 (repeat 0 (length ys)) ys] = Done st2.
  Proof.
    unfold run. change (step n start (Encrypt x s)) with (Done st1). cbn iota. unfold step. change (length (vars st1)) with 1. cbn [Nat.ltb Nat.leb andb].
    rewrite size1, inside_repeat, repeat_length, Nat.eqb_refl. cbn [andb]. unfold st2, flag. rewrite size1. reflexivity.
  Qed.
  Lemma share3 p : share st3 (var st3 2) p = w p.
  Proof. destruct (w_one p) as (a & E). unfold share, memory, var, st3, fresh, alloc, st2, alloc, st1, fresh, alloc, start; cbn. rewrite E. reflexivity. Qed.
  Lemma mem3 p : memory st3 1 p = z_mem p.
  Proof.
    change (memory st3 1 p) with (match p with O => map (fun iy => wadd (nth (fst iy) (share st1 (var st1 0) p) 0%Z) (snd iy)) (combine (repeat 0 (length ys)) ys)
                             | _ => share st1 (var st1 0) p end). destruct p as [|p]; [|apply share1]. unfold z_mem. now rewrite share1.
  Qed.
  Lemma run4 : run n start (assign_after_sum x s ys w) = Done st4.
  Proof.
    pose proof run2 as R. unfold assign_after_sum. cbn [run] in *. change (step n start (Encrypt x s)) with (Done st1) in *. cbn iota in *.
    destruct (step n st1 _) as [st|] eqn:E; [|discriminate]. injection R as ->. change (step n st2 (Encrypt w s)) with (Done st3). cbn iota.
    unfold step. change (length (vars st3)) with 3. cbn [Nat.ltb Nat.leb andb].
    assert (S1 : size (var st3 1) = length ys) by (change (length (seq 0 (length ys)) = length ys); apply seq_length).
    assert (S2 : size (var st3 2) = 1) by (change (length (seq 0 (length (w 0))) = 1); rewrite seq_length; apply Hw).
    rewrite S1, S2. assert (Ii : inside [0] (length ys) = true) by (apply inside_iff; intros i [<-|[]]; lia). rewrite Ii. cbn [length Nat.eqb andb].
    change (off (var st3 1)) with z_off. change (sto (var st3 1)) with 1.
    assert (T : forallb (fun p => nodupb (map (fun i => nth i (z_off p) 0) [0])) (seq 0 n) = true) by (apply forallb_forall; reflexivity). rewrite T. reflexivity.
  Qed.
  Lemma mem4 p : memory st4 1 p = write (z_mem p) [0] (w p).
  Proof.
    change (memory st4 1 p) with (write (memory st3 1 p) (map (fun i => nth i (z_off p) 0) [0]) (share st3 (var st3 2) p)). rewrite mem3, share3. f_equal. cbn [map].
    destruct p as [|p]; cbn [z_off]; [|now rewrite nth_repeat0]. destruct (length ys); [lia|reflexivity].
  Qed.
  Lemma share4 p k : k < length ys -> nth k (share st4 (var st4 1) p) 0%Z = nth (match p with O => k | _ => 0 end) (write (z_mem p) [0] (w p)) 0%Z.
  Proof.
    intros Hk. unfold share. change (sto (var st4 1)) with 1. change (off (var st4 1) p) with (z_off p). rewrite mem4.
    rewrite (nth_map _ _ _ 0) by (destruct p; cbn [z_off]; rewrite ?seq_length, ?repeat_length; assumption).
    destruct p as [|p]; cbn [z_off]; [now rewrite nth_seq|now rewrite nth_repeat0].
  Qed.

  (** C90: after [z = x + y] with a broadcast [x], [z[0] = w] also changes the other elements of [z], by what the shares of [w] and [x] differ *)
  Lemma k_C90_broadcast_setitem : exists st, run n start (assign_after_sum x s ys w) = Done st /\ nth 0 (plain n st 1) (0, 0)%Z = (zw, s) /\
    forall k, 0 < k < length ys -> nth k (plain n st 1) (0, 0)%Z = (wrap (zx + nth k ys 0%Z + (others w n - others x n))%Z, s).
  Proof.
    exists st4. split; [apply run4|].
    assert (L : length (share st4 (var st4 1) 0) = length ys) by (unfold share; change (off (var st4 1) 0) with (seq 0 (length ys)); now rewrite map_length, seq_length).
    assert (P : forall k, k < length ys -> nth k (plain n st4 1) (0, 0)%Z = (wrap (nth k (write (z_mem 0) [0%nat] (w 0%nat)) 0 + others w n)%Z, s)).
    { intros k Hk. unfold plain. rewrite at_scale_nth by now rewrite reveal_length, L. f_equal. rewrite reveal_nth by now rewrite L. f_equal.
      rewrite (sums_eq _ (fun p => nth 0 (w p) 0%Z)); [|assumption|].
      2:{ intros [|p] Hp; [lia|]. rewrite share4 by assumption. destruct (x_one (S p)) as (a & Ea), (w_one (S p)) as (b & Eb). cbn [z_mem]. rewrite Ea, Eb. reflexivity. }
      rewrite share4 by assumption. reflexivity. }
    destruct (w_one 0) as (b & Eb). pose proof z_mem0_length as Zl. split.
    - rewrite P by lia. rewrite Eb. destruct (z_mem 0) as [|c l] eqn:Ez; [cbn in Zl; lia|]. cbn [write combine fold_left setn fst snd nth].
      f_equal. rewrite <- (proj2 Hw). f_equal. rewrite (sums_eq _ (fun p => nth 0 (w p) 0%Z)) by auto. now rewrite Eb.
    - intros k Hk. rewrite P by lia. f_equal. rewrite write_out by (intros [|[]]; lia). rewrite z_mem0 by lia. rewrite <- (proj2 Hx).
      rewrite (sums_eq _ (fun p => nth 0 (x p) 0%Z) n) by auto. fold (others x n). unfold wadd. apply eqm_wrap_eq. rewrite !wrap_eqm. apply eqm_iff. exists 0%Z. lia.
  Qed.

  (** C90: after such a sum an in-place operation succeeds at party 0 and raises at every other party *)
  Lemma k_C90_broadcast_inplace o args : Forall (fun a => a < 2) args ->
    (forall st, run n start [Encrypt x s; AddPublic 0 (repeat 0 (length ys)) ys] = Done st ->
      length (fst (o (map (fun y => (share st (var st y), scale (var st y))) args)) 0) = length ys) -> 2 <= n ->
    exists who, run n start [Encrypt x s; AddPublic 0 (repeat 0 (length ys)) ys; InPlace 1 o args] = Raised who /\
      who 0 = false /\ forall p, 0 < p -> who p = true.
  Proof.
    intros Fa Hl Hn. pose proof run2 as R. cbn [run] in *. change (step n start (Encrypt x s)) with (Done st1) in *. cbn iota in *.
    destruct (step n st1 _) as [st|] eqn:E; [|discriminate]. injection R as ->. unfold step. change (length (vars st2)) with 2. change (1 <? 2) with true.
    assert (F : forallb (fun a => a <? 2) args = true) by (apply forallb_forall; intros a Ha; rewrite Forall_forall in Fa; apply Nat.ltb_lt; auto). rewrite F. cbn [andb].
    assert (S1 : size (var st2 1) = length ys) by (change (length (seq 0 (length ys)) = length ys); apply seq_length). rewrite S1, (Hl st2 eq_refl), Nat.eqb_refl.
    change (off (var st2 1)) with z_off.
    assert (N0 : nodupb (z_off 0) = true) by (apply nodupb_iff, seq_NoDup).
    assert (N1 : forall p, 0 < p -> nodupb (z_off p) = false). { intros [|p] Hp; [lia|]. cbn [z_off]. destruct (length ys) as [|[|m]]; try lia. reflexivity. }
    assert (T : forallb (fun p => nodupb (z_off p)) (seq 0 n) = false).
    { destruct (forallb (fun p => nodupb (z_off p)) (seq 0 n)) eqn:T; [|reflexivity]. rewrite forallb_forall in T. specialize (T 1 ltac:(apply in_seq; lia)). rewrite N1 in T by lia. discriminate. }
    rewrite T. eexists. split; [reflexivity|]. split; [now rewrite N0|]. intros p Hp. now rewrite N1.
  Qed.
End Broadcast.

(** ** Scales *)
(** the shares of one more tensor: party [p] has [sh p], all of the same length *)
Definition even (sh : nat -> list Z) : Prop := forall p, length (sh p) = length (sh 0).
Lemma seq_nth_id (l : list Z) : map (fun o => nth o l 0%Z) (seq 0 (length l)) = l.
Proof. apply (list_ext _ _ 0%Z); [now rewrite map_length, seq_length|]. rewrite map_length, seq_length. intros k Hk. rewrite (nth_map _ _ _ 0) by now rewrite seq_length. now rewrite nth_seq. Qed.
Lemma write_all (l v : list Z) : length v = length l -> write l (seq 0 (length l)) v = v.
Proof.
  intros E. apply (list_ext _ _ 0%Z); [now rewrite write_length|]. rewrite write_length. intros k Hk.
  rewrite <- (nth_seq k (length l) 0 0) at 1 by assumption. apply write_in; rewrite ?seq_length; auto; [apply seq_NoDup|]. intros o Ho. apply in_seq in Ho. lia.
Qed.

(** C90: an in-place operation that changes the scale leaves a view with the new integers and the old scale *)
Lemma k_C90_stale n sh s o : 0 < n -> even sh -> even (fst (o [(sh, s)])) -> length (fst (o [(sh, s)]) 0) = length (sh 0) ->
  (forall f, (forall p, f p = sh p) -> o [(f, s)] = o [(sh, s)]) ->
  exists st, run n start [Encrypt sh s; View 0 (seq 0 (length (sh 0))); InPlace 0 o [0]] = Done st /\
    plain n st 0 = at_scale (snd (o [(sh, s)])) (reveal n (fst (o [(sh, s)]))) /\
    plain n st 1 = at_scale s (reveal n (fst (o [(sh, s)]))).
Proof.
  intros Hn Ev Er Hl Hx. set (res := o [(sh, s)]) in *. set (L := length (sh 0)) in *.
  set (s1 := fresh start sh s). cbn [run]. change (step n start (Encrypt sh s)) with (Done s1). cbn iota.
  unfold step at 1. change (length (vars s1)) with 1. cbn [Nat.ltb Nat.leb andb].
  assert (Z1 : size (var s1 0) = L) by (change (length (seq 0 (length (sh 0))) = L); apply seq_length). rewrite Z1.
  assert (Ii : inside (seq 0 L) L = true) by (apply inside_iff; intros i Hi; apply in_seq in Hi; lia). rewrite Ii. cbn iota.
  set (s2 := {| heap := heap s1; vars := _ |}). unfold step. change (length (vars s2)) with 2. cbn [Nat.ltb Nat.leb andb forallb map].
  assert (Sh : forall p, share s2 (var s2 0) p = sh p) by (intros p; apply (seq_nth_id (sh p))).
  change (scale (var s2 0)) with s. rewrite (Hx _ Sh). fold res. change (size (var s2 0)) with (size (var s1 0)). rewrite Z1, Hl, Nat.eqb_refl.
  change (off (var s2 0)) with (fun p => seq 0 (length (sh p))).
  assert (T : forallb (fun p => nodupb (seq 0 (length (sh p)))) (seq 0 n) = true) by (apply forallb_forall; intros p _; apply nodupb_iff, seq_NoDup). cbn beta. rewrite T.
  eexists. split; [reflexivity|]. set (s3 := {| heap := _; vars := _ |}).
  assert (M : forall p, memory s3 0 p = fst res p).
  { intros p. change (memory s3 0 p) with (write (sh p) (seq 0 (length (sh p))) (fst res p)). apply write_all. rewrite Er, Hl, Ev. reflexivity. }
  assert (S0 : forall p, share s3 (var s3 0) p = fst res p).
  { intros p. unfold share. change (sto (var s3 0)) with 0. change (off (var s3 0) p) with (seq 0 (length (sh p))). rewrite M. rewrite (Ev p). fold L. rewrite <- Hl, <- (Er p). apply seq_nth_id. }
  assert (S1 : forall p, share s3 (var s3 1) p = fst res p).
  { intros p. unfold share. change (sto (var s3 1)) with 0. change (off (var s3 1) p) with (map (fun i => nth i (seq 0 (length (sh p))) 0) (seq 0 L)).
    rewrite M. transitivity (map (fun o => nth o (fst res p) 0%Z) (seq 0 L)); [|rewrite <- Hl, <- (Er p); apply seq_nth_id]. f_equal.
    transitivity (map (fun i => i) (seq 0 L)); [|apply map_id]. apply map_ext_in. intros i Hi. apply in_seq in Hi. rewrite nth_seq; [reflexivity|]. rewrite (Ev p). fold L. lia. }
  assert (Rv : forall f, (forall p, f p = fst res p) -> reveal n f = reveal n (fst res)).
  { intros f Hf. unfold reveal. rewrite Hf. apply map_ext. intros k. f_equal. apply zsum_ext. intros p _. now rewrite Hf. }
  unfold plain. change (scale (var s3 0)) with (snd res). change (scale (var s3 1)) with s. rewrite (Rv _ S0), (Rv _ S1). auto.
Qed.

(** C90: an assigned value is read with the scale of the tensor it is assigned to, whatever its own scale was *)
Lemma k_C90_setitem_scale n x s w s' k zw : 0 < n -> even x -> k < length (x 0) -> single w zw n ->
  exists st, run n start [Encrypt x s; Encrypt w s'; SetItem 0 [k] 1] = Done st /\
    nth k (plain n st 0) (0, 0)%Z = (zw, s) /\ plain n st 1 = [(zw, s')] /\
    forall j, j < length (x 0) -> j <> k -> nth j (plain n st 0) (0, 0)%Z = (nth j (reveal n x) 0%Z, s).
Proof.
  intros Hn Ev Hk Hw. cbn [run]. set (s1 := fresh start x s). change (step n start (Encrypt x s)) with (Done s1). cbn iota.
  set (s2 := fresh s1 w s'). change (step n s1 (Encrypt w s')) with (Done s2). cbn iota. unfold step. change (length (vars s2)) with 2. cbn [Nat.ltb Nat.leb andb].
  assert (Z0 : size (var s2 0) = length (x 0)) by (change (length (seq 0 (length (x 0))) = length (x 0)); apply seq_length).
  assert (Z1 : size (var s2 1) = 1) by (change (length (seq 0 (length (w 0))) = 1); rewrite seq_length; apply Hw). rewrite Z0, Z1.
  assert (Ii : inside [k] (length (x 0)) = true) by (apply inside_iff; intros i [<-|[]]; assumption). rewrite Ii. cbn [length Nat.eqb andb].
  assert (T : forallb (fun p => nodupb (map (fun i => nth i (off (var s2 0) p) 0) [k])) (seq 0 n) = true) by (apply forallb_forall; reflexivity). rewrite T.
  eexists. split; [reflexivity|]. set (s3 := {| heap := _; vars := _ |}).
  assert (W1 : forall p, share s2 (var s2 1) p = w p) by (intros p; apply (seq_nth_id (w p))).
  assert (M0 : forall p, memory s3 0 p = setn (x p) k (nth 0 (w p) 0%Z)).
  { intros p. change (memory s3 0 p) with (write (x p) (map (fun i => nth i (seq 0 (length (x p))) 0) [k]) (share s2 (var s2 1) p)). rewrite W1.
    pose proof (proj1 Hw p) as L. destruct (w p) as [|a [|]]; cbn in L; try lia. cbn [map]. rewrite nth_seq by now rewrite Ev. reflexivity. }
  assert (L0 : forall p, length (share s3 (var s3 0) p) = length (x 0)).
  { intros p. unfold share. change (off (var s3 0) p) with (seq 0 (length (x p))). rewrite map_length, seq_length. apply Ev. }
  assert (S0 : forall p j, j < length (x 0) -> nth j (share s3 (var s3 0) p) 0%Z = if j =? k then nth 0 (w p) 0%Z else nth j (x p) 0%Z).
  { intros p j Hj. unfold share. change (sto (var s3 0)) with 0. change (off (var s3 0) p) with (seq 0 (length (x p))). rewrite (nth_map _ _ _ 0) by now rewrite seq_length, Ev.
    rewrite nth_seq by now rewrite Ev. rewrite M0. cbn [Nat.add]. rewrite setn_nth, Ev. destruct (Nat.ltb_spec k (length (x 0))); [|lia]. now rewrite andb_true_r. }
  assert (P0 : forall j, j < length (x 0) -> nth j (plain n s3 0) (0, 0)%Z = (wrap (zsum (map (fun p => if j =? k then nth 0 (w p) 0%Z else nth j (x p) 0%Z) (seq 0 n))), s)).
  { intros j Hj. unfold plain. change (scale (var s3 0)) with s. rewrite at_scale_nth by now rewrite reveal_length, L0. rewrite reveal_nth by now rewrite L0.
    do 2 f_equal. apply zsum_ext. intros p _. now apply S0. }
  split; [|split].
  - rewrite P0 by assumption. f_equal. rewrite Nat.eqb_refl. exact (proj2 Hw).
  - unfold plain. change (scale (var s3 1)) with s'. assert (Sw : forall p, share s3 (var s3 1) p = w p) by (intros p; apply (seq_nth_id (w p))).
    assert (E : reveal n (share s3 (var s3 1)) = [zw]); [|now rewrite E]. unfold reveal. rewrite Sw, (proj1 Hw 0). cbn [seq map]. f_equal. rewrite <- (proj2 Hw). f_equal.
    apply zsum_ext. intros p _. now rewrite Sw.
  - intros j Hj Nj. rewrite P0 by assumption. f_equal. rewrite reveal_nth by assumption. f_equal. apply zsum_ext. intros p _. now destruct (Nat.eqb_spec j k).
Qed.

(** C90: without the conditions on writes CrypTen's tensors are not PyTorch's *)
Lemma k_C90_any_program_refuted mean : exists prog st r, Forall (proper 2 mean) prog /\ run 2 start prog = Done st /\ r_run 2 mean r_start prog (Some r) /\ ~ agree 2 st r.
Proof.
  set (x := fun p : nat => match p with 0 => [3%Z] | _ => [4%Z] end). set (w := fun p : nat => match p with 0 => [10%Z] | _ => [20%Z] end).
  assert (Hx : single x 7 2) by (split; [intros [|]; reflexivity|reflexivity]). assert (Hw : single w 30 2) by (split; [intros [|]; reflexivity|reflexivity]).
  destruct (k_C90_broadcast_setitem 2 x w 1%Z [0; 0]%Z ltac:(lia) (le_n 2) 7 30 Hx Hw) as (st & R & _ & K).
  exists (assign_after_sum x 1 [0; 0]%Z w), st. eexists. split; [|split; [exact R|split]].
  - repeat constructor; intros [|p] Hp; reflexivity.
  - eexists. split; [reflexivity|]. eexists. split; [vm_compute; reflexivity|]. eexists. split; [vm_compute; reflexivity|]. eexists. split; [vm_compute; reflexivity|]. reflexivity.
  - intros [L H]. specialize (H 1). rewrite L in H. assert (E := H ltac:(cbn; lia)). specialize (K 1 ltac:(cbn; lia)). rewrite E in K. vm_compute in K. discriminate.
Qed.

(** ** An operation and its meaning, for the examples: addition of two tensors of the same length (arithmetic.py:374-380) *)
Definition add_op : operation := fun args =>
  match args with
  | [(a, s); (b, _)] => (fun p => map (fun c => wadd (fst c) (snd c)) (combine (a p) (b p)), s)
  | _ => (fun _ => [], 1%Z)
  end.
Definition add_meaning : meaning := fun args v =>
  match args with
  | [a; b] => length a = length b -> v = map (fun c => (wadd (fst (fst c)) (fst (snd c)), snd (fst c))) (combine a b)
  | _ => True
  end.
Lemma wrap_sum {A} (f g : A -> Z) l : wrap (zsum (map (fun p => wadd (f p) (g p)) l)) = wadd (wrap (zsum (map f l))) (wrap (zsum (map g l))).
Proof.
  unfold wadd. apply eqm_wrap_eq. rewrite !wrap_eqm. induction l as [|a l IH]; cbn [map zsum fold_right]; [reflexivity|].
  fold (zsum (map (fun p => wrap (f p + g p)) l)). fold (zsum (map f l)). fold (zsum (map g l)). rewrite IH, wrap_eqm. apply eqm_iff. exists 0%Z. lia.
Qed.
Lemma add_implements n : 0 < n -> implements n add_op add_meaning.
Proof.
  intros Hn args F. destruct args as [|[a s] [|[b s'] [|]]]; try (split; [intros ? _; reflexivity|exact I]).
  apply Forall_cons_iff in F as [Fa F]. apply Forall_cons_iff in F as [Fb _]. cbn [fst snd] in Fa, Fb. cbn [add_op fst snd map add_meaning]. split.
  - intros p Hp. rewrite !map_length, !combine_length. now rewrite (Fa p Hp), (Fb p Hp).
  - rewrite !at_scale_length, !reveal_length. intros L.
    apply (list_ext _ _ (0, 1)%Z). { rewrite at_scale_length, reveal_length, !map_length, !combine_length, !at_scale_length, !reveal_length. reflexivity. }
    rewrite at_scale_length, reveal_length, map_length, combine_length. intros k Hk. rewrite at_scale_nth by (rewrite reveal_length, map_length, combine_length; assumption).
    rewrite reveal_nth by (rewrite map_length, combine_length; assumption).
    rewrite (nth_map _ _ _ ((0, 1)%Z, (0, 1)%Z)) by (rewrite combine_length, !at_scale_length, !reveal_length; assumption).
    rewrite combine_nth by (rewrite !at_scale_length, !reveal_length; assumption). rewrite !at_scale_nth by (rewrite reveal_length; lia). cbn [fst snd].
    rewrite !reveal_nth by lia. f_equal. rewrite <- wrap_sum. f_equal. apply zsum_ext. intros p Hp. apply in_seq in Hp.
    rewrite (nth_map _ _ _ (0, 0)%Z) by (rewrite combine_length, (Fa p), (Fb p) by lia; assumption). now rewrite combine_nth by (rewrite (Fa p), (Fb p) by lia; assumption).
Qed.

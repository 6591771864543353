(** C84, C85: the modules of ONNX operators against the ONNX specification. *)
Require Import List ZArith Bool Arith Lia.
From Verif Require Import Ring64 Tensor Tensor_proofs Gradfn Gradfn_claims Gradfn_claims2 Gradfn_claims5 Conv Onnx.
Import ListNotations.
Local Open Scope Z_scope.

(** *** Slice as ONNX defines it *)
(** a bound counts from the end when negative and is clamped to 0 .. n *)
Definition onnx_bound (v : Z) (n : nat) : nat := Z.to_nat (Z.min (Z.of_nat n) (Z.max 0 (if v <? 0 then v + Z.of_nat n else v))).
(** start and end given for dimension d; entries are (axis, (start, end)) *)
Definition given (entries : list (Z * (Z * Z))) (r d : nat) : option (Z * Z) :=
  option_map snd (find (fun e => match dimn (fst e) r with Some k => Nat.eqb k d | None => false end) entries).
Definition from_ (entries : list (Z * (Z * Z))) (s : list nat) (d : nat) : nat := match given entries (length s) d with Some (start, _) => onnx_bound start (pos d s) | None => O end.
Definition to_ (entries : list (Z * (Z * Z))) (s : list nat) (d : nat) : nat := match given entries (length s) d with Some (_, end_) => onnx_bound end_ (pos d s) | None => pos d s end.
Definition onnx_slice (entries : list (Z * (Z * Z))) (x : tensor) : tensor :=
  mkT (tabulate (rank x) (fun d => to_ entries (shape x) d - from_ entries (shape x) d)%nat) (fun ix => at_ x (tabulate (rank x) (fun d => from_ entries (shape x) d + pos d ix)%nat)).
Definition entries_of (axes starts ends : list Z) : list (Z * (Z * Z)) := combine axes (combine starts ends).
(** the ranges for which the module returns *)
Definition accepted (s : list nat) (e : Z * (Z * Z)) : Prop :=
  exists d, dimn (fst e) (length s) = Some d /\ let n := Z.of_nat (pos d s) in let start := fst (snd e) in let end_ := snd (snd e) in
    (0 <= start <= Z.min end_ n) \/ (- n <= start < 0 /\ start <= end_ <= 0).
(** a negative start and end 0: x[-2:0], empty *)
Definition empty_tail (e : Z * (Z * Z)) : Prop := fst (snd e) < 0 /\ snd (snd e) = 0.

Fixpoint slice_entries (es : list (Z * (Z * Z))) (x : tensor) : option tensor :=
  match es with
  | [] => Some x
  | (axis, (start, end_)) :: es =>
      do d <- dimn axis (rank x);
      do x <- narrow axis start (Z.min end_ (Z.of_nat (pos d (shape x))) - start) x;
      slice_entries es x
  end.
Lemma slice_axes_entries starts ends : forall axes idx x, (idx + length axes <= length starts)%nat -> (idx + length axes <= length ends)%nat ->
  slice_axes idx starts ends axes x = slice_entries (combine axes (combine (skipn idx starts) (skipn idx ends))) x.
Proof.
  induction axes as [|a axes IH]; intros idx x H1 H2; [reflexivity|]. cbn [length] in *. cbn [slice_axes].
  destruct (nth_error starts idx) as [s|] eqn:E1; [|apply nth_error_None in E1; lia]. destruct (nth_error ends idx) as [e|] eqn:E2; [|apply nth_error_None in E2; lia].
  assert (G : forall (l : list Z) v, nth_error l idx = Some v -> skipn idx l = v :: skipn (S idx) l). { clear. intros l. revert idx. induction l as [|w l IH]; intros [|i] v H; try discriminate; [injection H as ->; reflexivity|]. exact (IH i v H). }
  rewrite (G _ _ E1), (G _ _ E2). cbn [combine slice_entries bind]. destruct (dimn a (rank x)) as [d|]; [|reflexivity]. cbn [bind]. destruct (narrow _ _ _ _) as [y|]; [|reflexivity]. cbn [bind]. apply IH; lia.
Qed.
Lemma slice_as_entries starts ends axes x : length starts = length axes -> length ends = length axes -> slice starts ends (Some axes) x = slice_entries (entries_of axes starts ends) x.
Proof. intros A B. unfold slice. rewrite slice_axes_entries by lia. reflexivity. Qed.

Lemma narrow_accepted x a start end_ d : dimn a (rank x) = Some d -> let n := Z.of_nat (pos d (shape x)) in
  narrow a start (Z.min end_ n - start) x <> None <-> (0 <= start <= Z.min end_ n) \/ (- n <= start < 0 /\ start <= end_ <= 0).
Proof.
  intros E n. unfold narrow. rewrite E. fold n. assert (Hn : 0 <= n) by (unfold n; lia). cbv zeta.
  destruct (Z.ltb_spec start 0) as [N|N].
  - destruct (Z.leb_spec 0 (start + n)), (Z.leb_spec 0 (Z.min end_ n - start)), (Z.leb_spec (start + n + (Z.min end_ n - start)) n); cbn [andb]; split; intros Q; try congruence; try lia; try discriminate; exfalso; apply Q; reflexivity.
  - destruct (Z.leb_spec 0 start), (Z.leb_spec 0 (Z.min end_ n - start)), (Z.leb_spec (start + (Z.min end_ n - start)) n); cbn [andb]; split; intros Q; try congruence; try lia; try discriminate; exfalso; apply Q; reflexivity.
Qed.
Lemma narrow_value x a start len d y : dimn a (rank x) = Some d -> narrow a start len x = Some y ->
  exists lo, lo = Z.to_nat (if start <? 0 then start + Z.of_nat (pos d (shape x)) else start) /\ (lo + Z.to_nat len <= pos d (shape x))%nat /\ shape y = upd d (Z.to_nat len) (shape x) /\ forall ix, at_ y ix = at_ x (upd d (pos d ix + lo)%nat ix).
Proof.
  intros E. unfold narrow. rewrite E. cbv zeta. destruct (if start <? 0 then _ else _) as [|p|p] eqn:L; destruct (_ && _) eqn:C; try discriminate; intros [= <-]; eexists; (split; [reflexivity|]); apply andb_true_iff in C as [C C3]; apply andb_true_iff in C as [C1 C2]; apply Z.leb_le in C1, C2, C3; (split; [lia|]); split; reflexivity.
Qed.
Lemma rank_narrow x a start len d y : dimn a (rank x) = Some d -> narrow a start len x = Some y -> rank y = rank x.
Proof. intros E H. destruct (narrow_value _ _ _ _ _ _ E H) as (lo & _ & _ & S & _). unfold rank. rewrite S. apply upd_length. unfold rank in E. now apply dimn_lt in E. Qed.
Definition dims_of (es : list (Z * (Z * Z))) (r : nat) : list (option nat) := map (fun e => dimn (fst e) r) es.
Lemma given_none es r d : ~ In (Some d) (dims_of es r) -> given es r d = None.
Proof.
  intros N. unfold given. destruct (find _ es) as [e|] eqn:F; [|reflexivity]. apply find_some in F as [I T]. exfalso. apply N. unfold dims_of. apply in_map_iff. exists e. split; [|exact I]. destruct (dimn (fst e) r) as [k|]; [|discriminate]. apply Nat.eqb_eq in T. now subst.
Qed.
Lemma accepted_ext s s' e : length s = length s' -> (forall d, dimn (fst e) (length s) = Some d -> pos d s = pos d s') -> accepted s e -> accepted s' e.
Proof. intros L H (d & E & A). exists d. rewrite <- L. split; [exact E|]. cbv zeta in *. rewrite <- (H d E). exact A. Qed.
Lemma bound_diff start end_ n : (0 <= start <= Z.min end_ (Z.of_nat n)) \/ (- Z.of_nat n <= start < 0 /\ start <= end_ < 0) ->
  onnx_bound start n = Z.to_nat (if start <? 0 then start + Z.of_nat n else start) /\ (onnx_bound end_ n - onnx_bound start n)%nat = Z.to_nat (Z.min end_ (Z.of_nat n) - start).
Proof. unfold onnx_bound. intros H. destruct (Z.ltb_spec start 0), (Z.ltb_spec end_ 0); lia. Qed.

Lemma slice_entries_ok : forall es x, NoDup (dims_of es (rank x)) ->
  (slice_entries es x <> None <-> Forall (accepted (shape x)) es) /\ (forall y, slice_entries es x = Some y -> Forall (fun e => ~ empty_tail e) es -> teq y (onnx_slice es x)).
Proof.
  induction es as [|[a [start end_]] es IH]; intros x N.
  - split; [split; [constructor|intros _; discriminate]|]. intros y [= <-] _. unfold onnx_slice, from_, to_, given. cbn [find option_map]. split.
    + cbn [shape]. apply list_ext; [now rewrite tab_length|]. intros k Hk. rewrite pos_tab by exact Hk. lia.
    + intros ix V. cbn [at_]. f_equal. pose proof (valid_length _ _ V) as L. apply list_ext; [rewrite tab_length; exact L|]. intros k Hk. rewrite pos_tab by (unfold rank; lia). lia.
  - cbn [dims_of map fst] in N. fold (dims_of es (rank x)) in N. inversion N as [|? ? N1 N2]; subst. cbn [slice_entries]. destruct (dimn a (rank x)) as [d|] eqn:E.
    2:{ cbn [bind]. split; [split; [congruence|]|discriminate]. intros F. inversion F as [|? ? (d & E' & _) _]; subst. cbn [fst] in E'. unfold rank in E. congruence. }
    cbn [bind]. pose proof (narrow_accepted x a start end_ d E) as NA. cbv zeta in NA.
    destruct (narrow a start _ x) as [x1|] eqn:Nw.
    2:{ cbn [bind]. split; [split; [congruence|]|discriminate]. intros F. inversion F as [|? ? (d' & E' & A) _]; subst. cbn [fst snd] in *. unfold rank in E. rewrite E in E'. injection E' as <-. apply NA in A. congruence. }
    cbn [bind]. assert (Ac : accepted (shape x) (a, (start, end_))) by (exists d; split; [exact E|]; apply NA; discriminate).
    pose proof (rank_narrow _ _ _ _ _ _ E Nw) as R1. destruct (narrow_value _ _ _ _ _ _ E Nw) as (lo & Elo & Hlo & S1 & A1). rewrite <- R1 in N2. specialize (IH x1 N2) as [I1 I2].
    assert (Dl : (d < length (shape x))%nat) by (apply dimn_lt in E; exact E).
    assert (Oth : forall e, In e es -> forall k, dimn (fst e) (rank x) = Some k -> pos k (shape x1) = pos k (shape x)).
    { intros e Ie k Ek. rewrite S1, pos_upd by exact Dl. destruct (Nat.eqb_spec k d) as [->|]; [|reflexivity]. exfalso. apply N1. rewrite <- Ek. unfold dims_of. apply in_map_iff. eauto. }
    assert (L1 : length (shape x1) = length (shape x)) by exact R1.
    split.
    + rewrite I1. split; intros F.
      * constructor; [exact Ac|]. rewrite Forall_forall in *. intros e Ie. apply (accepted_ext (shape x1)); [exact L1| |now apply F]. intros k Ek. apply (Oth e Ie). rewrite L1 in Ek. exact Ek.
      * apply Forall_cons_iff in F as [_ F2]. rewrite Forall_forall in *. intros e Ie. apply (accepted_ext (shape x)); [now rewrite L1| |now apply F2]. intros k Ek. symmetry. apply (Oth e Ie). exact Ek.
    + intros y Hy Ne. apply Forall_cons_iff in Ne as [Ne1 Ne2]. destruct (I2 y Hy Ne2) as [Sy Ty].
      assert (Bd : onnx_bound start (pos d (shape x)) = lo /\ (onnx_bound end_ (pos d (shape x)) - onnx_bound start (pos d (shape x)))%nat = Z.to_nat (Z.min end_ (Z.of_nat (pos d (shape x))) - start)).
      { rewrite Elo. apply bound_diff. destruct (proj1 NA ltac:(discriminate)) as [H|[H H']]; [now left|right]. split; [exact H|]. unfold empty_tail in Ne1. cbn [fst snd] in Ne1. lia. }
      destruct Bd as [B1 B2].
      assert (Gd : given es (length (shape x)) d = None) by (apply given_none; exact N1).
      assert (Gc : forall k, given ((a, (start, end_)) :: es) (length (shape x)) k = if Nat.eqb d k then Some (start, end_) else given es (length (shape x)) k).
      { intros k. unfold given. cbn [find fst]. unfold rank in E. rewrite E. destruct (Nat.eqb d k); reflexivity. }
      assert (Sz : forall k, (k < rank x)%nat -> (to_ es (shape x1) k - from_ es (shape x1) k)%nat = (to_ ((a, (start, end_)) :: es) (shape x) k - from_ ((a, (start, end_)) :: es) (shape x) k)%nat).
      { intros k Hk. unfold to_, from_. rewrite L1, Gc, S1, pos_upd by exact Dl. destruct (Nat.eqb_spec d k) as [<-|Nk].
        - rewrite Gd, Nat.eqb_refl. rewrite B2. lia.
        - destruct (Nat.eqb_spec k d); [congruence|]. reflexivity. }
      split.
      * rewrite Sy. unfold onnx_slice. cbn [shape]. rewrite R1. apply list_ext; [now rewrite !tab_length|]. rewrite tab_length. intros k Hk. rewrite !pos_tab by exact Hk. now apply Sz.
      * intros ix V. rewrite Ty by exact V. unfold onnx_slice. cbn [at_]. rewrite A1. f_equal. rewrite R1.
        apply list_ext; [rewrite upd_length; rewrite !tab_length; [reflexivity|exact Dl]|]. rewrite upd_length by (rewrite tab_length; exact Dl). rewrite tab_length. intros k Hk. rewrite pos_upd by (rewrite tab_length; exact Dl). rewrite !pos_tab by (try exact Hk; exact Dl).
        unfold from_. rewrite L1, Gc, S1, pos_upd by exact Dl. destruct (Nat.eqb_spec k d) as [->|Nk].
        -- rewrite Nat.eqb_refl, Gd. lia.
        -- destruct (Nat.eqb_spec d k); [congruence|]. rewrite pos_upd by exact Dl. destruct (Nat.eqb_spec k d); [congruence|reflexivity].
Qed.

(** C84: Slice with axes returns exactly for ranges inside the tensor, and then gives ONNX's slice unless a negative start meets end 0. *)
Lemma k_C84_slice : forall starts ends axes x, length starts = length axes -> length ends = length axes -> NoDup (map (fun a => dimn a (rank x)) axes) ->
  let es := entries_of axes starts ends in
  (slice starts ends (Some axes) x <> None <-> Forall (accepted (shape x)) es) /\
  forall y, slice starts ends (Some axes) x = Some y -> Forall (fun e => ~ empty_tail e) es -> teq y (onnx_slice es x).
Proof.
  intros starts ends axes x A B N es. rewrite slice_as_entries by assumption. apply slice_entries_ok. unfold dims_of, entries_of.
  assert (M : map fst (combine axes (combine starts ends)) = axes). { clear N es. revert starts ends A B. induction axes as [|a axes IH]; intros [|s starts] [|e ends] A B; try discriminate; [reflexivity|]. cbn [combine map fst]. f_equal. apply IH; auto. }
  rewrite <- M in N at 1. rewrite map_map in N. exact N.
Qed.
(** C84: Without axes the first dimensions are sliced, in order. *)
Lemma k_C84_slice_default starts ends x : length ends = length starts -> (length starts <= rank x)%nat ->
  let es := entries_of (map Z.of_nat (seq 0 (length starts))) starts ends in
  (slice starts ends None x <> None <-> Forall (accepted (shape x)) es) /\
  forall y, slice starts ends None x = Some y -> Forall (fun e => ~ empty_tail e) es -> teq y (onnx_slice es x).
Proof.
  intros L R es. assert (La : length (map Z.of_nat (seq 0 (length starts))) = length starts) by (rewrite map_length; apply seq_length).
  apply (k_C84_slice starts ends (map Z.of_nat (seq 0 (length starts))) x); [auto|congruence|]. rewrite map_map. apply (NoDup_map_inv (fun o => match o with Some d => d | None => O end)). rewrite map_map.
  rewrite (map_ext_in _ (fun d => d)); [rewrite map_id; apply seq_NoDup|]. intros a Ia. apply in_seq in Ia. unfold dimn. rewrite (proj2 (Z.leb_le _ _)) by lia. rewrite (proj2 (Z.ltb_lt _ _)) by lia. cbn [andb]. destruct (Z.of_nat a <? 0) eqn:E; [apply Z.ltb_lt in E; lia|]. lia.
Qed.
Lemma dimn0 r : dimn 0 (S r) = Some O. Proof. exact (dimn_of_nat 0 (S r) (Nat.lt_0_succ r)). Qed.
Lemma int32_id v : - 2147483648 <= v < 2147483648 -> int32 v = v.
Proof. intros H. unfold int32. rewrite Z.mod_small; lia. Qed.
(** C84: The bounds may be given as tensors when they fit in 32 bits; other steps than 1 are refused. *)
Lemma k_C84_slice_inputs : forall starts ends axes steps x, Forall (fun v => - 2147483648 <= v < 2147483648) (starts ++ ends) -> (forall l v, steps = Some l -> In v l -> - 2147483648 <= v < 2147483648) ->
  slice_inputs starts ends axes steps x = if match steps with Some l => forallb (Z.eqb 1) l | None => true end then slice starts ends axes x else None.
Proof.
  intros starts ends axes steps x F G. unfold slice_inputs. apply Forall_app in F as [F1 F2].
  assert (M : forall l, Forall (fun v => - 2147483648 <= v < 2147483648) l -> map int32 l = l). { intros l Fl. induction Fl as [|v l H _ IH]; [reflexivity|]. cbn [map]. now rewrite IH, int32_id. }
  rewrite !M by assumption. destruct steps as [l|]; [|reflexivity]. replace (forallb (fun s => int32 s =? 1) l) with (forallb (Z.eqb 1) l); [reflexivity|]. specialize (G l). clear -G.
  assert (H : forall v, In v l -> - 2147483648 <= v < 2147483648) by (intros v; now apply G). clear G. induction l as [|v l IH]; [reflexivity|]. cbn [forallb]. rewrite IH by (intros; apply H; now right). rewrite int32_id by (apply H; now left). now rewrite Z.eqb_sym.
Qed.
(** C84: Refuted: x[-k:0] is empty, the module returns the last k entries. *)
Lemma k_C84_slice_empty_refuted : forall x s n k, shape x = n :: s -> (0 < k <= n)%nat -> exists y, slice [- Z.of_nat k] [0] None x = Some y /\ shape y = k :: s /\ shape (onnx_slice (entries_of [0] [- Z.of_nat k] [0]) x) = O :: s.
Proof.
  intros x s n k Hx Hk. unfold slice. cbn [length seq map slice_axes nth_error bind]. unfold rank. rewrite Hx. cbn [length]. change (Z.of_nat 0) with 0. rewrite dimn0. cbn [bind pos nth].
  unfold narrow, rank. rewrite Hx. cbn [length]. rewrite dimn0. cbn [pos nth]. cbv zeta. destruct (Z.ltb_spec (- Z.of_nat k) 0); [|lia].
  replace (Z.min 0 (Z.of_nat n) - - Z.of_nat k) with (Z.of_nat k) by lia. destruct (Z.leb_spec 0 (- Z.of_nat k + Z.of_nat n)); [|lia]. destruct (Z.leb_spec 0 (Z.of_nat k)); [|lia]. destruct (Z.leb_spec (- Z.of_nat k + Z.of_nat n + Z.of_nat k) (Z.of_nat n)); [|lia]. cbn [andb bind]. eexists. split; [reflexivity|]. split.
  - cbn [shape]. rewrite Nat2Z.id. reflexivity.
  - unfold onnx_slice. cbn [shape]. unfold rank. rewrite Hx. apply list_ext; [now rewrite tab_length|]. rewrite tab_length. intros d Hd. rewrite pos_tab by exact Hd. unfold to_, from_, given, entries_of. cbn [combine find fst length]. rewrite !dimn0. destruct d as [|d]; cbn [Nat.eqb option_map snd pos nth].
    + unfold onnx_bound. destruct (Z.ltb_spec 0 0); [lia|]. destruct (Z.ltb_spec (- Z.of_nat k) 0); lia.
    + lia.
Qed.
(** C84: Refuted: x[-k:] with the end 2^63 - 1 that exporters write, given as a tensor, loses the last entry. *)
Lemma k_C84_slice_end_refuted : forall x s n k, shape x = n :: s -> (0 < k <= n)%nat -> Z.of_nat n < 2147483648 -> exists y, slice_inputs [- Z.of_nat k] [9223372036854775807] None None x = Some y /\ shape y = (k - 1)%nat :: s /\
  shape (onnx_slice (entries_of [0] [- Z.of_nat k] [9223372036854775807]) x) = k :: s.
Proof.
  intros x s n k Hx Hk Hn. unfold slice_inputs. cbn [map]. change (int32 9223372036854775807) with (-1). rewrite int32_id by lia. unfold slice. cbn [length seq map slice_axes nth_error bind]. unfold rank. rewrite Hx. cbn [length]. change (Z.of_nat 0) with 0. rewrite dimn0. cbn [bind pos nth].
  unfold narrow, rank. rewrite Hx. cbn [length]. rewrite dimn0. cbn [pos nth]. cbv zeta. destruct (Z.ltb_spec (- Z.of_nat k) 0); [|lia].
  replace (Z.min (-1) (Z.of_nat n) - - Z.of_nat k) with (Z.of_nat (k - 1)) by lia. destruct (Z.leb_spec 0 (- Z.of_nat k + Z.of_nat n)); [|lia]. destruct (Z.leb_spec 0 (Z.of_nat (k - 1))); [|lia]. destruct (Z.leb_spec (- Z.of_nat k + Z.of_nat n + Z.of_nat (k - 1)) (Z.of_nat n)); [|lia]. cbn [andb bind]. eexists. split; [reflexivity|]. split.
  - cbn [shape]. rewrite Nat2Z.id. reflexivity.
  - unfold onnx_slice. cbn [shape]. unfold rank. rewrite Hx. apply list_ext; [now rewrite tab_length|]. rewrite tab_length. intros d Hd. rewrite pos_tab by exact Hd. unfold to_, from_, given, entries_of. cbn [combine find fst length]. rewrite !dimn0. destruct d as [|d]; cbn [Nat.eqb option_map snd pos nth].
    + unfold onnx_bound. change (9223372036854775807 <? 0) with false. destruct (Z.ltb_spec (- Z.of_nat k) 0); lia.
    + lia.
Qed.

(** *** Expand as ONNX defines it: broadcasting in both directions, aligned at the right *)
Definition onnx_expand (size : list nat) (x : tensor) : option tensor := do t <- bshape (shape x) size; Some (expand x t).
Definition op1 (a b : nat) : option nat := if Nat.eqb a b then Some a else if Nat.eqb a 1 then Some b else if Nat.eqb b 1 then Some a else None.
Fixpoint bz (s t : list nat) : option (list nat) := match s, t with [], [] => Some [] | a :: s, b :: t => do r <- bz s t; do c <- op1 a b; Some (c :: r) | _, _ => None end.
Lemma bshape_rev_lead : forall s t L, length s = length t -> bshape_rev s (t ++ L) = option_map (fun r => r ++ L) (bz s t).
Proof.
  induction s as [|a s IH]; intros [|b t] L H; try discriminate; [now destruct L|]. cbn [app bshape_rev bz]. injection H as H. rewrite (IH t L H). destruct (bz s t) as [r|]; [|reflexivity]. cbn [option_map bind]. unfold op1. destruct (Nat.eqb a b), (Nat.eqb a 1), (Nat.eqb b 1); reflexivity.
Qed.
Lemma bz_snoc : forall s t a b, length s = length t -> bz (s ++ [a]) (t ++ [b]) = do r <- bz s t; do c <- op1 a b; Some (r ++ [c]).
Proof.
  induction s as [|x s IH]; intros [|y t] a b H; try discriminate; cbn [app bz bind].
  - destruct (op1 a b); reflexivity.
  - injection H as H. rewrite (IH t a b H). destruct (bz s t) as [r|]; [|reflexivity]. cbn [bind]. destruct (op1 a b) as [c|]; cbn [bind]; destruct (op1 x y) as [z|]; reflexivity.
Qed.
Lemma bz_rev : forall s t, length s = length t -> bz (rev s) (rev t) = option_map (@rev nat) (bz s t).
Proof.
  induction s as [|x s IH]; intros [|y t] H; try discriminate; [reflexivity|]. injection H as H. cbn [rev bz]. rewrite bz_snoc by (rewrite !rev_length; exact H). rewrite (IH t H). destruct (bz s t) as [r|]; [|reflexivity]. cbn [option_map bind]. destruct (op1 x y); reflexivity.
Qed.
Lemma bshape_lead s L t : length s = length t -> bshape s (L ++ t) = option_map (app L) (bz s t).
Proof.
  intros H. unfold bshape. rewrite rev_app_distr, bshape_rev_lead by (rewrite !rev_length; exact H). rewrite bz_rev by exact H. destruct (bz s t) as [r|]; [|reflexivity]. cbn [option_map]. now rewrite rev_app_distr, !rev_involutive.
Qed.
(** the sizes after the loop *)
Definition adjusted (a : Z) (n : nat) : Z := if a =? 1 then if Nat.ltb 1 n then Z.of_nat n else a else a.
Lemma expand_sizes_eq : forall size idx full, (idx + length size = length full)%nat -> expand_sizes idx size full = Some (map (fun p => adjusted (fst p) (snd p)) (combine size (skipn idx full))).
Proof.
  induction size as [|a size IH]; intros idx full H; [reflexivity|]. cbn [length] in H. cbn [expand_sizes]. destruct (nth_error full idx) as [n|] eqn:E; [|apply nth_error_None in E; lia].
  assert (G : skipn idx full = n :: skipn (S idx) full). { clear -E. revert idx E. induction full as [|w l IH]; intros [|i] E; try discriminate; [injection E as ->; reflexivity|]. exact (IH i E). }
  rewrite G. cbn [combine map fst snd]. rewrite (IH (S idx) full) by lia. destruct (Z.eqb_spec a 1) as [->|Q]; cbn [bind]; f_equal; f_equal; unfold adjusted; try reflexivity; destruct (Z.eqb_spec a 1); [congruence|reflexivity].
Qed.
Lemma expand_sizes_plain : forall size idx full, ~ In 1 size -> expand_sizes idx size full = Some size.
Proof. induction size as [|a size IH]; intros idx full H; [reflexivity|]. cbn [expand_sizes]. destruct (Z.eqb_spec a 1) as [->|]; [exfalso; apply H; now left|]. cbn [bind]. rewrite IH by (intros I; apply H; now right). reflexivity. Qed.
Lemma expanded_adjusted : forall size s, length size = length s -> Forall (fun a => 0 <= a) size ->
  (forall r, expanded (map (fun p => adjusted (fst p) (snd p)) (combine size s)) s = Some r -> bz s (map Z.to_nat size) = Some r) /\
  (~ In O s -> expanded (map (fun p => adjusted (fst p) (snd p)) (combine size s)) s = bz s (map Z.to_nat size)).
Proof.
  induction size as [|a size IH]; intros [|n s] H F; try discriminate; [split; auto|]. injection H as H. apply Forall_cons_iff in F as [F1 F2]. destruct (IH s H F2) as [I1 I2]. cbn [combine map fst snd expanded bz]. set (sizes := map _ (combine size s)) in *. set (t := map Z.to_nat size) in *.
  assert (A1 : (adjusted a n =? -1) = false) by (unfold adjusted; destruct (Z.eqb_spec a 1), (Nat.ltb_spec 1 n); apply Z.eqb_neq; lia).
  assert (St : forall c, (if (adjusted a n =? Z.of_nat n) || (Nat.eqb n 1 && (0 <=? adjusted a n)) then Some (Z.to_nat (adjusted a n)) else None) = Some c -> op1 n (Z.to_nat a) = Some c).
  { intros c. unfold adjusted, op1. destruct (Z.eqb_spec a 1) as [->|N1].
    - change (Z.to_nat 1) with 1%nat. destruct (Nat.ltb_spec 1 n).
      + destruct (Z.eqb_spec (Z.of_nat n) (Z.of_nat n)); [|lia]. cbn [orb]. rewrite Nat2Z.id. intros [= <-]. destruct (Nat.eqb_spec n 1); [lia|]. reflexivity.
      + destruct (Nat.eqb_spec n 1) as [->|N]; cbn [andb orb]; [cbn; auto|]. destruct (Z.eqb_spec 1 (Z.of_nat n)); [lia|]. discriminate.
    - destruct (Z.leb_spec 0 a); [|lia]. rewrite andb_true_r. destruct (Z.eqb_spec a (Z.of_nat n)) as [->|N]; cbn [orb].
      + rewrite Nat2Z.id, Nat.eqb_refl. auto.
      + destruct (Nat.eqb_spec n 1) as [->|N']; [|discriminate]. intros [= <-]. destruct (Nat.eqb_spec 1 (Z.to_nat a)); [lia|reflexivity]. }
  assert (Back : forall c, n <> O -> op1 n (Z.to_nat a) = Some c -> (if (adjusted a n =? Z.of_nat n) || (Nat.eqb n 1 && (0 <=? adjusted a n)) then Some (Z.to_nat (adjusted a n)) else None) = Some c).
  { intros c Nz. unfold adjusted, op1. destruct (Z.eqb_spec a 1) as [->|N1].
    - change (Z.to_nat 1) with 1%nat. destruct (Nat.ltb_spec 1 n).
      + rewrite Z.eqb_refl. cbn [orb]. rewrite Nat2Z.id. destruct (Nat.eqb_spec n 1); [lia|]. auto.
      + destruct (Nat.eqb_spec n 1) as [->|N]; [cbn; auto|lia].
    - destruct (Z.leb_spec 0 a); [|lia]. rewrite andb_true_r. destruct (Nat.eqb_spec n (Z.to_nat a)) as [E|N].
      + destruct (Z.eqb_spec a (Z.of_nat n)); [|lia]. cbn [orb]. intros [= <-]. f_equal. lia.
      + destruct (Nat.eqb_spec n 1) as [->|N']; [rewrite orb_true_r; auto|]. destruct (Nat.eqb_spec (Z.to_nat a) 1); [lia|discriminate]. }
  set (b := (adjusted a n =? Z.of_nat n) || (Nat.eqb n 1 && (0 <=? adjusted a n))) in *. clearbody b. split.
  - intros r. destruct (expanded sizes s) as [r'|] eqn:E; [|discriminate]. cbn [bind]. rewrite A1, (I1 r' eq_refl). cbn [bind]. specialize (St (Z.to_nat (adjusted a n))). destruct b; [|discriminate]. intros [= <-]. rewrite (St eq_refl). reflexivity.
  - intros Nz. rewrite I2 by (intros I; apply Nz; now right). destruct (bz s t) as [r'|]; [|reflexivity]. cbn [bind]. rewrite A1. destruct (op1 n (Z.to_nat a)) as [c|] eqn:O1.
    + specialize (Back c ltac:(intros ->; apply Nz; now left) eq_refl). destruct b; [|discriminate]. injection Back as <-. reflexivity.
    + specialize (St (Z.to_nat (adjusted a n))). destruct b; [|reflexivity]. pose proof (St eq_refl) as Q. discriminate Q || congruence.
Qed.
Lemma expanded_plain : forall size s, length size = length s -> Forall (fun a => 0 <= a) size -> ~ In 1 size -> expanded size s = bz s (map Z.to_nat size).
Proof.
  induction size as [|a size IH]; intros [|n s] H F N; try discriminate; [reflexivity|]. injection H as H. apply Forall_cons_iff in F as [F1 F2]. cbn [expanded map bz]. rewrite IH; try assumption; [|intros I; apply N; now right]. destruct (bz s _) as [r|]; [|reflexivity]. cbn [bind]. assert (a <> 1) by (intros ->; apply N; now left).
  destruct (Z.eqb_spec a (-1)); [lia|]. destruct (Z.leb_spec 0 a); [|lia]. rewrite andb_true_r. unfold op1. destruct (Z.eqb_spec a (Z.of_nat n)) as [->|Q]; cbn [orb].
  - rewrite Nat2Z.id, Nat.eqb_refl. reflexivity.
  - destruct (Nat.eqb_spec n (Z.to_nat a)); [lia|]. destruct (Nat.eqb n 1); [reflexivity|]. destruct (Nat.eqb_spec (Z.to_nat a) 1); [lia|reflexivity].
Qed.
(** C84: Expand to as many dimensions as the input has: the result, if any, is ONNX's. *)
Lemma k_C84_expand : forall size x, length size = rank x -> Forall (fun a => 0 <= a) size ->
  (forall y, expand_module size x = Some y -> onnx_expand (map Z.to_nat size) x = Some y) /\ (~ In O (shape x) -> expand_module size x = onnx_expand (map Z.to_nat size) x).
Proof.
  intros size x L F. unfold expand_module, onnx_expand. unfold rank in L. rewrite expand_sizes_eq by (rewrite L; reflexivity). cbn [bind skipn]. destruct (expanded_adjusted size (shape x) L F) as [A B]. unfold torch_expand, rank. rewrite map_length, combine_length, L, Nat.min_id, Nat.ltb_irrefl, Nat.sub_diag. cbn [firstn forallb skipn map app].
  change (map Z.to_nat size) with ([] ++ map Z.to_nat size). rewrite bshape_lead by (rewrite map_length; auto). cbn [app]. split.
  - intros y. destruct (expanded _ _) as [r|]; [|discriminate]. rewrite (A r eq_refl). auto.
  - intros N. rewrite (B N). destruct (bz _ _); reflexivity.
Qed.
(** C84: So it is to more dimensions when no size is 1; fewer dimensions are refused. *)
Lemma k_C84_expand_more : forall size x, Forall (fun a => 0 <= a) size -> ~ In 1 size ->
  ((rank x <= length size)%nat -> expand_module size x = onnx_expand (map Z.to_nat size) x) /\ ((length size < rank x)%nat -> expand_module size x = None).
Proof.
  intros size x F N. unfold expand_module. rewrite expand_sizes_plain by exact N. cbn [bind]. unfold torch_expand, rank. split; intros L.
  - destruct (Nat.ltb_spec (length size) (length (shape x))); [lia|]. set (lead := (length size - length (shape x))%nat).
    assert (E : size = firstn lead size ++ skipn lead size) by (symmetry; apply firstn_skipn). assert (F' := F). rewrite E in F'. apply Forall_app in F' as [F1 F2].
    assert (Fb : forallb (fun a => 0 <=? a) (firstn lead size) = true) by (apply forallb_forall; rewrite Forall_forall in F1; intros a Ia; apply Z.leb_le; auto). rewrite Fb.
    assert (Ls : length (skipn lead size) = length (shape x)) by (rewrite skipn_length; lia). rewrite expanded_plain; [|exact Ls|exact F2|intros I; apply N; rewrite E; apply in_or_app; now right].
    unfold onnx_expand. replace (bshape (shape x) (map Z.to_nat size)) with (bshape (shape x) (map Z.to_nat (firstn lead size) ++ map Z.to_nat (skipn lead size))) by (rewrite <- map_app, firstn_skipn; reflexivity). rewrite bshape_lead by (rewrite map_length; auto). destruct (bz _ _); reflexivity.
  - destruct (Nat.ltb_spec (length size) (length (shape x))); [reflexivity|lia].
Qed.
(** the sizes asked for, with -1 for the size of the input *)
Definition kept_sizes (size : list Z) (s : list nat) : list nat := map (fun p => if fst p =? -1 then snd p else Z.to_nat (fst p)) (combine size s).
Lemma expanded_keeps : forall size s, length size = length s -> Forall (fun a => -1 <= a) size ->
  expanded (map (fun p => adjusted (fst p) (snd p)) (combine size s)) s = expanded (map (fun p => adjusted (fst p) (snd p)) (combine (map Z.of_nat (kept_sizes size s)) s)) s.
Proof.
  induction size as [|a size IH]; intros [|n s] H F; try discriminate; [reflexivity|]. injection H as H. apply Forall_cons_iff in F as [F1 F2]. unfold kept_sizes. cbn [combine map fst snd expanded]. fold (kept_sizes size s). rewrite (IH s H F2). destruct (expanded _ s) as [r|]; [|reflexivity]. cbn [bind].
  destruct (Z.eqb_spec a (-1)) as [->|N]; [|rewrite Z2Nat.id by lia; reflexivity]. assert (A : adjusted (Z.of_nat n) n = Z.of_nat n) by (unfold adjusted; destruct (Z.of_nat n =? 1), (Nat.ltb 1 n); reflexivity || (exfalso; lia) || reflexivity). rewrite A. change (adjusted (-1) n) with (-1). rewrite Z.eqb_refl. destruct (Z.eqb_spec (Z.of_nat n) (-1)); [lia|]. rewrite Z.eqb_refl, Nat2Z.id. reflexivity.
Qed.
Lemma expanded_below : forall size s, length size = length s -> Exists (fun a => a < -1) size -> expanded (map (fun p => adjusted (fst p) (snd p)) (combine size s)) s = None.
Proof.
  induction size as [|a size IH]; intros [|n s] H F; try discriminate; [inversion F|]. injection H as H. cbn [combine map fst snd expanded]. inversion F as [? ? L|? ? L]; subst.
  - destruct (expanded _ s) as [r|]; [|reflexivity]. cbn [bind]. unfold adjusted. destruct (Z.eqb_spec a 1); [lia|]. destruct (Z.eqb_spec a (-1)); [lia|]. destruct (Z.eqb_spec a (Z.of_nat n)); [lia|]. destruct (Z.leb_spec 0 a); [lia|]. rewrite andb_false_r. reflexivity.
  - rewrite (IH s H L). reflexivity.
Qed.
(** C84: -1 keeps the size of the input, as in torch; smaller numbers are refused. *)
Lemma k_C84_expand_keeps : forall size x, length size = rank x ->
  (Forall (fun a => -1 <= a) size -> (forall y, expand_module size x = Some y -> onnx_expand (kept_sizes size (shape x)) x = Some y) /\ (~ In O (shape x) -> expand_module size x = onnx_expand (kept_sizes size (shape x)) x)) /\
  (Exists (fun a => a < -1) size -> expand_module size x = None).
Proof.
  intros size x L. pose proof L as L'. unfold rank in L'. assert (LK : length (map Z.of_nat (kept_sizes size (shape x))) = rank x) by (unfold kept_sizes, rank in *; rewrite !map_length, combine_length, L'; lia).
  assert (X : forall sz, length sz = length (shape x) -> expand_module sz x = do r <- expanded (map (fun p => adjusted (fst p) (snd p)) (combine sz (shape x))) (shape x); Some (expand x r)).
  { intros sz Ls. unfold expand_module. rewrite expand_sizes_eq by (rewrite Ls; reflexivity). cbn [bind skipn]. unfold torch_expand, rank. rewrite map_length, combine_length, Ls, Nat.min_id, Nat.ltb_irrefl, Nat.sub_diag. reflexivity. }
  split; intros F.
  - assert (Q : expand_module size x = expand_module (map Z.of_nat (kept_sizes size (shape x))) x) by (rewrite !X by (exact L' || exact LK); rewrite (expanded_keeps size (shape x) L' F); reflexivity).
    destruct (k_C84_expand (map Z.of_nat (kept_sizes size (shape x))) x LK) as [A B]; [apply Forall_forall; intros a Ha; apply in_map_iff in Ha as (k & <- & _); lia|]. rewrite Q. rewrite map_map in A, B. rewrite (map_ext _ (fun k => k)) in A, B by (intros k; apply Nat2Z.id). rewrite map_id in A, B. exact (conj A B).
  - rewrite X by exact L'. rewrite (expanded_below size (shape x) L' F). reflexivity.
Qed.
(** C84: Refuted: with a leading 1 the sizes are matched at the left: a vector of n entries expanded to (1, n) becomes (n, n). *)
Lemma k_C84_expand_refuted : forall x n, shape x = [n] -> (1 < n)%nat -> exists y z, expand_module [1; Z.of_nat n] x = Some y /\ shape y = [n; n] /\ onnx_expand [1%nat; n] x = Some z /\ shape z = [1%nat; n].
Proof.
  intros x n Hx Hn. unfold expand_module. rewrite Hx. cbn [expand_sizes nth_error bind Z.eqb Pos.eqb]. destruct (Nat.ltb_spec 1 n); [|lia]. destruct (Z.eqb_spec (Z.of_nat n) 1); [lia|]. cbn [bind]. unfold torch_expand, rank. rewrite Hx. cbn [length Nat.sub Nat.ltb Nat.leb firstn skipn forallb expanded bind]. destruct (Z.leb_spec 0 (Z.of_nat n)); [|lia]. cbn [andb]. destruct (Z.eqb_spec (Z.of_nat n) (-1)); [lia|]. rewrite Z.eqb_refl. cbn [orb bind map app]. rewrite Nat2Z.id.
  eexists. eexists. split; [reflexivity|]. split; [reflexivity|]. unfold onnx_expand. rewrite Hx. unfold bshape. cbn [rev app bshape_rev]. rewrite Nat.eqb_refl. cbn [bind rev app]. split; reflexivity.
Qed.

(** *** Flatten and Reshape *)
Lemma product_split a s : product s = (product (firstn a s) * product (skipn a s))%nat.
Proof. rewrite <- (firstn_skipn a s) at 1. generalize (firstn a s) (skipn a s). intros l m. unfold product. induction l as [|x l IH]; cbn [app fold_right]; [lia|]. rewrite IH. lia. Qed.
Lemma infer_two p N : (0 < p)%nat -> (N mod p = 0)%nat -> infer_size [Z.of_nat p; -1] N = Some [p; (N / p)%nat].
Proof.
  intros Hp Hm. unfold infer_size. cbn [filter forallb]. destruct (Z.eqb_spec (Z.of_nat p) (-1)); [lia|]. destruct (Z.leb_spec (-1) (Z.of_nat p)); [|lia]. cbn [negb Z.eqb Pos.eqb andb Z.leb Z.compare Pos.compare Pos.compare_cont length map product fold_right]. rewrite Nat2Z.id, Nat.mul_1_r. destruct (Nat.ltb_spec 0 p); [|lia]. rewrite Hm. change ((-1 <=? -1) && true) with true. cbn [andb Nat.eqb]. destruct (Z.eqb_spec (Z.of_nat p) (-1)); [lia|reflexivity].
Qed.
(** C84: Flatten gives the matrix of ONNX's definition for every non-negative axis, unless a leading size is zero. *)
Lemma k_C84_flatten : forall axis x, (axis <= rank x)%nat -> product (firstn axis (shape x)) <> O ->
  exists y, flatten_module (Z.of_nat axis) x = Some y /\ shape y = [product (firstn axis (shape x)); product (skipn axis (shape x))] /\
    forall ix, valid (shape x) ix -> at_ y [ravel (firstn axis (shape x)) (firstn axis ix); ravel (skipn axis (shape x)) (skipn axis ix)] = at_ x ix.
Proof.
  intros axis x Ha Hp. set (s := shape x) in *. set (p := product (firstn axis s)) in *. set (q := product (skipn axis s)). assert (Pq : product s = (p * q)%nat) by apply product_split.
  assert (V : view [Z.of_nat p; -1] x = reshape [p; q] x).
  { unfold view. fold s. rewrite infer_two by (try lia; rewrite Pq, Nat.mul_comm; apply Nat.mod_mul; lia). cbn [bind]. replace (product s / p)%nat with q; [reflexivity|]. rewrite Pq, Nat.mul_comm, Nat.div_mul; lia. }
  assert (E : flatten_module (Z.of_nat axis) x = reshape [p; q] x).
  { unfold flatten_module. destruct (Z.ltb_spec (Z.of_nat axis) 0); [lia|]. destruct (Z.eqb_spec (Z.of_nat axis) 0) as [Z0|Z0].
    - rewrite <- V. assert (axis = O) by lia. subst axis. reflexivity.
    - destruct (Z.leb_spec (Z.of_nat axis) (Z.of_nat (rank x))); [|lia]. rewrite Nat2Z.id. exact V. }
  rewrite E. unfold reshape. fold s. replace (product [p; q]) with (product s) by (rewrite Pq; unfold product; cbn [fold_right]; lia). rewrite Nat.eqb_refl. eexists. split; [reflexivity|]. split; [reflexivity|].
  intros ix Vx. cbn [at_]. f_equal. cbn [ravel product fold_right]. rewrite Nat.mul_1_r, Nat.mul_1_r, Nat.add_0_r.
  replace (_ + _)%nat with (ravel s ix); [now apply ravel_ok|]. unfold q. assert (Ha' : (axis <= length s)%nat) by exact Ha. clearbody s. clear -Vx Ha'. revert ix axis Vx Ha'. induction s as [|n s IH]; intros [|i ix] [|a] Vx Ha; try (destruct Vx; fail); cbn [length] in Ha; try lia.
  - reflexivity.
  - reflexivity.
  - cbn [firstn skipn ravel]. destruct Vx as [Hi Vx]. rewrite (IH ix a Vx ltac:(lia)). rewrite (product_split a s). lia.
Qed.
(** C84: Negative axes, axes past the dimensions, and a zero among the leading sizes are refused. *)
Lemma k_C84_flatten_none : forall axis x, axis < 0 \/ Z.of_nat (rank x) < axis \/ product (firstn (Z.to_nat axis) (shape x)) = O -> flatten_module axis x = None.
Proof.
  intros axis x H. unfold flatten_module. destruct (Z.ltb_spec axis 0); [reflexivity|]. destruct (Z.eqb_spec axis 0) as [->|Nz]; [destruct H as [H|[H|H]]; [lia|lia|discriminate]|]. destruct (Z.leb_spec axis (Z.of_nat (rank x))); [|reflexivity]. destruct H as [H|[H|H]]; [lia|lia|]. rewrite H. reflexivity.
Qed.

(** the size vector [t] that ONNX's Reshape computes from [size]: a zero copies the input's size, one -1 is inferred *)
Definition onnx_size (s : list nat) (size : list Z) (t : list nat) : Prop :=
  length t = length size /\ Nat.le (length (filter (Z.eqb (-1)) size)) 1 /\ product t = product s /\
  forall k a, nth_error size k = Some a -> -1 <= a /\ (0 < a -> pos k t = Z.to_nat a) /\ (a = 0 -> (k < length s)%nat /\ pos k t = pos k s).
Lemma known_factor c : forall size, product (map (fun a => if a =? -1 then c else Z.to_nat a) size) = Nat.mul (product (map Z.to_nat (filter (fun a => negb (a =? -1)) size))) (Nat.pow c (length (filter (fun a => a =? -1) size))).
Proof. induction size as [|a size IH]; [reflexivity|]. cbn [map filter]. unfold product in *. cbn [fold_right]. rewrite IH. destruct (Z.eqb_spec a (-1)); cbn [negb map fold_right length Nat.pow]; lia. Qed.
Lemma known_pos size : ~ In 0 size -> forallb (fun a => -1 <=? a) size = true -> Nat.lt 0 (product (map Z.to_nat (filter (fun a => negb (a =? -1)) size))).
Proof.
  induction size as [|a size IH]; intros N F; [cbn; lia|]. cbn [forallb] in F. apply andb_true_iff in F as [F1 F2]. apply Z.leb_le in F1. specialize (IH ltac:(intros I; apply N; now right) F2). cbn [filter]. destruct (Z.eqb_spec a (-1)); cbn [negb]; [exact IH|]. cbn [map]. unfold product in *. cbn [fold_right]. assert (a <> 0) by (intros ->; apply N; now left). nia.
Qed.
Lemma sized size s t : ~ In 0 size -> onnx_size s size t -> exists c, t = map (fun a => if a =? -1 then c else Z.to_nat a) size /\ forallb (fun a => -1 <=? a) size = true.
Proof.
  intros N (L & M & _ & H). revert t L M H N. induction size as [|a size IH]; intros [|b t] L M H N; try discriminate; [exists O; auto|].
  assert (H0 := H O a eq_refl). assert (Na : a <> 0) by (intros ->; apply N; now left). destruct H0 as (A1 & A2 & _). cbn [filter] in M.
  assert (M' : Nat.le (length (filter (Z.eqb (-1)) size)) 1) by (destruct (Z.eqb (-1) a); cbn [length] in M; lia).
  destruct (IH t ltac:(cbn in L; lia) M') as (c & E & F); [|intros I; apply N; now right|].
  { intros k a' Ek. specialize (H (S k) a' Ek) as (B1 & B2 & B3). split; [exact B1|]. split; [exact B2|]. intros ->. exfalso. apply N. right. eapply nth_error_In. exact Ek. }
  cbn [map forallb]. assert (Fa : (-1 <=? a) = true) by (apply Z.leb_le; lia). destruct (Z.eqb_spec a (-1)) as [->|Q].
  - exists b. rewrite Fa, F. split; [|reflexivity]. f_equal. rewrite E. cbn [Z.eqb Pos.eqb length] in M. apply map_ext_in. intros a' Ia. destruct (Z.eqb_spec a' (-1)) as [->|]; [|reflexivity]. exfalso. assert (In (-1) (filter (Z.eqb (-1)) size)) by (apply filter_In; auto). destruct (filter (Z.eqb (-1)) size); [contradiction|cbn in M; lia].
  - exists c. rewrite Fa, F, E. split; [|reflexivity]. f_equal. exact (A2 ltac:(lia)).
Qed.
(** C84: Reshape is ONNX's when no size is zero. *)
Lemma k_C84_reshape : forall size x y, ~ In 0 size -> (reshape_module size x = Some y <-> exists t, onnx_size (shape x) size t /\ reshape t x = Some y).
Proof.
  intros size x y N. unfold reshape_module, view. set (s := shape x).
  assert (Eq : forall t, onnx_size s size t <-> infer_size size (product s) = Some t).
  { intros t. assert (Fl : filter (Z.eqb (-1)) size = filter (fun a => a =? -1) size) by (apply filter_ext; intros a; apply Z.eqb_sym). split.
    - intros O. destruct (sized size s t N O) as (c & E & F). destruct O as (L & M & P & _). rewrite Fl in M. unfold infer_size. rewrite F. pose proof (known_pos size N F) as K. pose proof (known_factor c size) as KF. rewrite <- E, P in KF. set (known := product (map Z.to_nat (filter _ size))) in *. destruct (length (filter (fun a => a =? -1) size)) as [|[|m]] eqn:Lf; [| |lia].
      + cbn [Nat.pow] in KF. rewrite Nat.mul_1_r in KF. rewrite KF, Nat.eqb_refl. f_equal. rewrite E. apply map_ext_in. intros a Ia. destruct (Z.eqb_spec a (-1)) as [->|]; [|reflexivity]. assert (I : In (-1) (filter (fun a => a =? -1) size)) by (apply filter_In; auto). destruct (filter (fun a => a =? -1) size); [contradiction|discriminate].
      + cbn [Nat.pow] in KF. rewrite Nat.mul_1_r in KF. destruct (Nat.ltb_spec 0 known); [|lia]. assert (D : (product s / known = c)%nat) by (rewrite KF, Nat.mul_comm, Nat.div_mul; lia). assert (Mo : (product s mod known = 0)%nat) by (rewrite KF, Nat.mul_comm, Nat.mod_mul; lia). rewrite Mo, D. cbn [Nat.eqb andb]. now rewrite E.
    - unfold infer_size. destruct (forallb _ size) eqn:F; [|discriminate]. pose proof (known_pos size N F) as K. set (known := product (map Z.to_nat (filter _ size))) in *.
      assert (Fa : forall a, In a size -> -1 <= a) by (rewrite forallb_forall in F; intros a Ia; apply Z.leb_le; auto).
      assert (Fin : forall c, (forall a, In a size -> a = -1 -> True) -> product (map (fun a => if a =? -1 then c else Z.to_nat a) size) = product s -> Nat.le (length (filter (fun a => a =? -1) size)) 1 -> onnx_size s size (map (fun a => if a =? -1 then c else Z.to_nat a) size)).
      { intros c _ P M. split; [apply map_length|]. rewrite Fl. split; [exact M|]. split; [exact P|]. intros k a Ek. pose proof (nth_error_In _ _ Ek) as Ia. split; [auto|]. split; [|intros ->; contradiction]. intros Ha. unfold pos. apply nth_error_nth. rewrite nth_error_map, Ek. cbn [option_map]. destruct (Z.eqb_spec a (-1)); [lia|reflexivity]. }
      destruct (length (filter (fun a => a =? -1) size)) as [|[|m]] eqn:Lf; [| |discriminate].
      + destruct (Nat.eqb_spec known (product s)) as [Q|]; [|discriminate]. intros [= <-].
        assert (Em : map Z.to_nat size = map (fun a => if a =? -1 then O else Z.to_nat a) size). { apply map_ext_in. intros a Ia. destruct (Z.eqb_spec a (-1)) as [->|]; [|reflexivity]. assert (I : In (-1) (filter (fun a => a =? -1) size)) by (apply filter_In; auto). destruct (filter (fun a => a =? -1) size); [contradiction|discriminate]. }
        rewrite Em. apply Fin; [auto| |lia]. rewrite known_factor, Lf. cbn [Nat.pow]. fold known. lia.
      + destruct (Nat.ltb_spec 0 known); [|lia]. destruct (Nat.eqb_spec (product s mod known) 0) as [Q|]; [|discriminate]. cbn [andb]. intros [= <-]. apply Fin; [auto| |lia]. rewrite known_factor, Lf. cbn [Nat.pow]. fold known. rewrite Nat.mul_1_r. pose proof (Nat.div_mod (product s) known ltac:(lia)). lia. }
  split.
  - destruct (infer_size size (product s)) as [t|] eqn:E; [|discriminate]. cbn [bind]. intros R. exists t. split; [now apply Eq|exact R].
  - intros (t & O & R). apply Eq in O. rewrite O. exact R.
Qed.
(** C84: Refuted: a zero, ONNX's way to keep a size, makes every non-empty input fail. *)
Lemma k_C84_reshape_zero_refuted : forall size x, In 0 size -> product (shape x) <> O -> reshape_module size x = None.
Proof.
  intros size x I Nz. unfold reshape_module, view, infer_size.
  assert (K : product (map Z.to_nat (filter (fun a => negb (a =? -1)) size)) = O). { clear -I. induction size as [|a size IH]; [contradiction|]. cbn [filter]. destruct I as [->|I]; [reflexivity|]. specialize (IH I). destruct (Z.eqb_spec a (-1)); cbn [negb]; [exact IH|]. cbn [map]. unfold product in *. cbn [fold_right]. lia. }
  rewrite K. destruct (forallb _ size); [|reflexivity]. destruct (length _) as [|[|m]]; try reflexivity. destruct (Nat.eqb_spec O (product (shape x))); [congruence|reflexivity].
Qed.

(** *** Gather *)
(** ONNX's result along dimension d *)
Definition onnx_gather (d : nat) (ishape : list nat) (idx : index -> Z) (x y : tensor) : Prop :=
  shape y = firstn d (shape x) ++ ishape ++ skipn (S d) (shape x) /\
  forall a i b, valid (firstn d (shape x)) a -> valid ishape i -> valid (skipn (S d) (shape x)) b -> at_ y (a ++ i ++ b) = at_ x (a ++ Z.to_nat (idx i mod Z.of_nat (pos d (shape x))) :: b).
Definition indices_fit (ishape : list nat) (idx : index -> Z) (n : nat) : Prop := forall i, valid ishape i -> - Z.of_nat n <= idx i < Z.of_nat n.
Lemma in_range_fit ishape idx n : in_range ishape idx n = true <-> indices_fit ishape idx n.
Proof.
  unfold in_range, indices_fit. rewrite forallb_forall. split; intros H i Hi.
  - specialize (H i (proj2 (in_indices _ _) Hi)). apply andb_true_iff in H as [A B]. apply Z.leb_le in A. apply Z.ltb_lt in B. lia.
  - apply in_indices in Hi. specialize (H i Hi). apply andb_true_iff. split; [apply Z.leb_le|apply Z.ltb_lt]; lia.
Qed.
Lemma wrapped_mod i n : - Z.of_nat n <= i < Z.of_nat n -> wrapped i n = Z.to_nat (i mod Z.of_nat n).
Proof. intros H. unfold wrapped. f_equal. destruct (Z.ltb_spec i 0); [|now rewrite Z.mod_small by lia]. replace i with (i + Z.of_nat n + (-1) * Z.of_nat n) at 2 by lia. rewrite Z.mod_add by lia. rewrite Z.mod_small; lia. Qed.
(** C84: Gather along a given axis is ONNX's, also for negative indices and axes. *)
Lemma k_C84_gather : forall axis d ishape idx x, dimn axis (rank x) = Some d ->
  (indices_fit ishape idx (pos d (shape x)) -> exists y, gather_module (Some axis) ishape idx x = Some y /\ onnx_gather d ishape idx x y) /\
  (~ indices_fit ishape idx (pos d (shape x)) -> gather_module (Some axis) ishape idx x = None).
Proof.
  intros axis d ishape idx x E. unfold gather_module, take. pose proof (dimn_lt _ _ _ E) as Dl. destruct (shape x) as [|m s] eqn:Hx; [unfold rank in Dl; rewrite Hx in Dl; cbn in Dl; lia|]. rewrite E. cbn [bind]. rewrite <- Hx in *. destruct (in_range ishape idx (pos d (shape x))) eqn:R; split; intros F; try reflexivity.
  - apply in_range_fit in R. eexists. split; [reflexivity|]. split; [reflexivity|]. intros a i b Va Vi Vb. cbn [at_].
    assert (La : length a = d) by (rewrite (valid_length _ _ Va), firstn_length; unfold rank in Dl; lia). pose proof (valid_length _ _ Vi) as Li.
    assert (F1 : firstn d (a ++ i ++ b) = a) by (rewrite firstn_app, La, Nat.sub_diag; cbn [firstn]; rewrite app_nil_r, <- La; apply firstn_all).
    assert (F2 : skipn d (a ++ i ++ b) = i ++ b) by (rewrite skipn_app, La, Nat.sub_diag; cbn [skipn]; rewrite <- La, skipn_all; reflexivity).
    assert (F3 : skipn (d + length ishape) (a ++ i ++ b) = b).
    { rewrite skipn_app, (skipn_all2 a) by lia. cbn [app]. replace (d + length ishape - length a)%nat with (length i) by lia. rewrite skipn_app, skipn_all, Nat.sub_diag. reflexivity. }
    rewrite F1, F2, F3. assert (F4 : firstn (length ishape) (i ++ b) = i) by (rewrite <- Li, firstn_app, Nat.sub_diag, firstn_all; cbn [firstn]; apply app_nil_r). rewrite F4. rewrite wrapped_mod by (apply R; exact Vi). reflexivity.
  - exfalso. apply F. now apply in_range_fit.
  - apply in_range_fit in F. congruence.
Qed.
(** C84: Without the axis attribute (default 0) vectors are gathered as ONNX says; *)
Lemma k_C84_gather_default : forall ishape idx x n, shape x = [n] -> indices_fit ishape idx n -> exists y, gather_module None ishape idx x = Some y /\ onnx_gather 0 ishape idx x y.
Proof.
  intros ishape idx x n Hx F. unfold gather_module, take. rewrite Hx. assert (P : product [n] = n) by (unfold product; cbn; lia). rewrite P. rewrite (proj2 (in_range_fit _ _ _) F). eexists. split; [reflexivity|]. unfold onnx_gather. rewrite Hx. split; [cbn [shape firstn skipn app]; now rewrite app_nil_r|].
  intros a i b Va Vi Vb. cbn [firstn skipn] in Va, Vb. destruct a; [|contradiction]. destruct b; [|contradiction]. rewrite app_nil_r. cbn [app at_ pos nth]. f_equal. cbn [unravel product fold_right]. rewrite Nat.div_1_r. rewrite wrapped_mod by (apply F; exact Vi). reflexivity.
Qed.
(** C84: Refuted: for more dimensions the flattened tensor is read, and the result has too few dimensions. *)
Lemma k_C84_gather_default_refuted : forall ishape idx x y, (2 <= rank x)%nat -> gather_module None ishape idx x = Some y -> shape y = ishape /\ ~ onnx_gather 0 ishape idx x y.
Proof.
  intros ishape idx x y R H. unfold gather_module, take in H. assert (S : shape y = ishape) by (destruct (shape x); destruct (in_range _ _ _); try discriminate; injection H as <-; reflexivity). split; [exact S|]. intros [Q _]. rewrite S in Q. apply (f_equal (@length nat)) in Q. rewrite !app_length, firstn_length, skipn_length in Q. unfold rank in R. lia.
Qed.

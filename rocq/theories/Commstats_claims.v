(** C57: communication statistics. *)
Require Import List ZArith Arith Bool Lia.
From Verif Require Import Commstats.
Import ListNotations.
Open Scope Z_scope.

(** Spec: collective operations of the whole group, and the messages they consist of: (from, to, bytes). *)
Inductive event :=
| Barrier
| Message (blocking : bool) (from to : nat) (n : Z)                 (* send and recv, or isend and irecv *)
| Scatter (root : nat) (sizes : list Z)                             (* one tensor per party *)
| Gather (root : nat) (n : Z)
| Reduce (root : nat) (sizes : Z + list Z)                          (* a tensor, or a batch *)
| Broadcast (root : nat) (sizes : Z + list Z)
| AllReduce (sizes : Z + list Z)
| AllGather (n : Z)
| Object (from to : nat) (nbytes : Z).
Definition total (l : list Z) : Z := fold_right Z.add 0 l.
Definition elements (sizes : Z + list Z) : Z := match sizes with inl n => n | inr l => total l end.
Definition others (P root : nat) : list nat := filter (fun p => negb (Nat.eqb p root)) (seq 0 P).
Definition messages (P : nat) (e : event) : list (nat * nat * Z) :=
  match e with
  | Barrier => []
  | Message _ from to n => [(from, to, 8 * n)]
  | Scatter root sizes => map (fun p => (root, p, 8 * nth p sizes 0)) (others P root)
  | Gather root n => map (fun p => (p, root, 8 * n)) (others P root)
  | Reduce root sizes => map (fun p => (p, root, 8 * elements sizes)) (others P root)
  | Broadcast root sizes => map (fun p => (root, p, 8 * elements sizes)) (others P root)
  | AllReduce sizes => map (fun p => (p, Nat.modulo (p + 1) P, 8 * elements sizes)) (seq 0 P)        (* the ring of the code's comment *)
  | AllGather n => flat_map (fun p => map (fun q => (p, q, 8 * n)) (others P p)) (seq 0 P)
  | Object from to nbytes => [(from, to, nbytes)]
  end.
Definition possible (P : nat) (e : event) : Prop :=
  match e with
  | Barrier | AllReduce _ | AllGather _ => True
  | Message _ from to _ | Object from to _ => (from < P)%nat /\ (to < P)%nat /\ from <> to
  | Scatter root sizes => (root < P)%nat /\ length sizes = P
  | Gather root _ | Reduce root _ | Broadcast root _ => (root < P)%nat
  end.
Definition payload_of (sizes : Z + list Z) : payload := match sizes with inl n => Tensor n | inr l => Tensors l end.
Definition is_batched (sizes : Z + list Z) : bool := match sizes with inl _ => false | inr _ => true end.
(** the calls each party makes, roots given positionally *)
Definition calls (e : event) (p : nat) : list call :=
  match e with
  | Barrier => [mkCall barrier None None false (Obj 16)]
  | Message b from to n => if Nat.eqb p from then [mkCall (if b then send else isend) (Some (Tensor n)) (Some to) false (Obj 16)]
                           else if Nat.eqb p to then [mkCall (if b then recv else irecv) (Some (Tensor n)) (Some from) false (Tensor n)] else []
  | Scatter root sizes => [mkCall scatter (Some (Tensors sizes)) (Some root) false (Tensor (nth p sizes 0))]
  | Gather root n => [mkCall gather (Some (Tensor n)) (Some root) false (Tensors [n])]
  | Reduce root sizes => [mkCall reduce (Some (payload_of sizes)) (Some root) (is_batched sizes) (payload_of sizes)]
  | Broadcast root sizes => [mkCall broadcast (Some (payload_of sizes)) (Some root) (is_batched sizes) (payload_of sizes)]
  | AllReduce sizes => [mkCall all_reduce (Some (payload_of sizes)) None (is_batched sizes) (payload_of sizes)]
  | AllGather n => [mkCall all_gather (Some (Tensor n)) None false (Tensors [n])]
  | Object from to nbytes => if Nat.eqb p from then [mkCall send_obj (Some (Obj nbytes)) (Some to) false (Obj 16)]
                             else if Nat.eqb p to then [mkCall recv_obj (Some (Obj 28)) None false (Obj nbytes)] else []
  end.
Definition bytes_of (l : list (nat * nat * Z)) : Z := total (map snd l).
(** what a party sends and receives *)
Definition touching (p : nat) (l : list (nat * nat * Z)) : Z := bytes_of (filter (fun m => Nat.eqb p (fst (fst m)) || Nat.eqb p (snd (fst m))) l).
Definition takes_part (p : nat) (e : event) : bool := match e with Message _ from to _ | Object from to _ => Nat.eqb p from || Nat.eqb p to | _ => true end.

Lemma total_app a b : total (a ++ b) = total a + total b. Proof. induction a as [|x a IH]; cbn [total fold_right app] in *; [reflexivity|]. change (fold_right Z.add 0 (a ++ b)) with (total (a ++ b)). rewrite IH. unfold total. lia. Qed.
Lemma total_const {A} (l : list A) c : total (map (fun _ => c) l) = Z.of_nat (length l) * c.
Proof. induction l as [|a l IH]; cbn [map total fold_right length]; [lia|]. change (fold_right Z.add 0 (map (fun _ => c) l)) with (total (map (fun _ => c) l)). rewrite IH. lia. Qed.
Lemma total_add {A} (l : list A) f g : total (map (fun x => f x + g x) l) = total (map f l) + total (map g l).
Proof. unfold total. induction l as [|a l IH]; cbn [map fold_right]; lia. Qed.
Lemma total_ext {A} (l : list A) f g : (forall x, In x l -> f x = g x) -> total (map f l) = total (map g l).
Proof. intros H. f_equal. now apply map_ext_in. Qed.
Lemma total_at P root f : (root < P)%nat -> total (map (fun p => if Nat.eqb p root then f p else 0) (seq 0 P)) = f root.
Proof.
  intros H. assert (G : forall n s, total (map (fun p => if Nat.eqb p root then f p else 0) (seq s n)) = if (s <=? root)%nat && (root <? s + n)%nat then f root else 0).
  { induction n as [|n IH]; intros s; cbn [seq map total fold_right]; [destruct (s <=? root)%nat eqn:A, (root <? s + 0)%nat eqn:B; try reflexivity; apply Nat.leb_le in A; apply Nat.ltb_lt in B; lia|]. change (fold_right Z.add 0 ?l) with (total l). rewrite IH. destruct (Nat.eqb_spec s root) as [->|N].
    - destruct (Nat.leb_spec (S root) root); [lia|]. destruct (Nat.leb_spec root root); [|lia]. destruct (Nat.ltb_spec root (root + S n)); [|lia]. cbn. lia.
    - destruct (Nat.leb_spec (S s) root), (Nat.leb_spec s root), (Nat.ltb_spec root (S s + n)), (Nat.ltb_spec root (s + S n)); cbn; lia. }
  rewrite G. destruct (Nat.ltb_spec root (0 + P)); [reflexivity|lia].
Qed.
Lemma total_others P root f : (root < P)%nat -> total (map f (others P root)) = total (map f (seq 0 P)) - f root.
Proof.
  intros H. unfold others. rewrite <- (total_at P root f H). generalize (seq 0 P). unfold total. induction l as [|p l IH]; cbn [filter map fold_right]; [reflexivity|]. destruct (Nat.eqb p root); cbn [negb map fold_right]; lia.
Qed.
Lemma sum_others_spec rank : forall l idx, sum_others rank idx l = total (map (fun p => if Nat.eqb p rank then 0 else nth (p - idx) l 0) (seq idx (length l))).
Proof.
  induction l as [|n l IH]; intros idx; cbn [sum_others length seq map total fold_right]; [reflexivity|]. rewrite Nat.sub_diag. cbn [nth]. f_equal. rewrite IH. unfold total at 1. change (fold_right Z.add 0 ?l) with (total l). apply total_ext. intros p Hp. apply in_seq in Hp. destruct (Nat.eqb p rank); [reflexivity|]. replace (p - idx)%nat with (S (p - S idx)) by lia. reflexivity.
Qed.

(** *** One event *)
Definition counted (P p : nat) (e : event) : Z :=
  match e with
  | Barrier => 0
  | Message _ from to n => if Nat.eqb p from || Nat.eqb p to then 8 * n else 0
  | Scatter root sizes => if Nat.eqb p root then 8 * sum_others p 0 sizes else 8 * nth p sizes 0
  | Gather root n => 8 * n * (if Nat.eqb p root then Z.of_nat P - 1 else 1)
  | Reduce root sizes | Broadcast root sizes => 8 * elements sizes * (if Nat.eqb p root then Z.of_nat P - 1 else 1)
  | AllReduce sizes => 8 * (2 * elements sizes)
  | AllGather n => 8 * (2 * (Z.of_nat P - 1) * n)
  | Object from to nbytes => if Nat.eqb p from || Nat.eqb p to then nbytes else 0
  end.
Lemma stats_eq a b c d : a = c -> b = d -> mkStats a b = mkStats c d. Proof. congruence. Qed.
Lemma run_event P p e cs s : (2 <= P)%nat -> run true P p (calls e p ++ cs) s = run true P p cs (mkStats (comm_rounds s + (if takes_part p e then 1 else 0)) (comm_bytes s + counted P p e)).
Proof.
  intros HP. assert (L : Nat.ltb P 2 = false) by (apply Nat.ltb_ge; exact HP).
  destruct s as [r b]. destruct e as [|bl from to n|root sizes|root n|root sizes|root sizes|sizes|n|from to nb]; cbn [calls takes_part counted comm_rounds comm_bytes].
  - cbn [app run]. unfold wrapper. rewrite L. cbn. f_equal.
  - destruct (Nat.eqb_spec p from) as [E|N]; [|destruct (Nat.eqb_spec p to) as [E|N']]; cbn [orb app].
    + destruct bl; cbn [run]; unfold wrapper; rewrite L; cbn [func arg0 log_before with_arg0 nelement logged log_after]; unfold log_elements, log_bytes, BYTES_PER_ELEMENT; cbn [comm_rounds comm_bytes]; f_equal; apply stats_eq; lia.
    + destruct bl; cbn [run]; unfold wrapper; rewrite L; cbn [func arg0 log_before with_arg0 nelement logged log_after]; unfold log_elements, log_bytes, BYTES_PER_ELEMENT; cbn [comm_rounds comm_bytes]; f_equal; apply stats_eq; lia.
    + f_equal. apply stats_eq; lia.
  - cbn [app run]. unfold wrapper. rewrite L. cbn [func arg0 arg1 log_before log_after with_arg1 with_arg0 result nelement logged]. rewrite (Nat.eqb_sym root p). destruct (Nat.eqb p root); cbn [with_arg0 logged]; unfold log_elements, log_bytes, BYTES_PER_ELEMENT; cbn [comm_rounds comm_bytes]; f_equal; apply stats_eq; lia.
  - cbn [app run]. unfold wrapper. rewrite L. cbn [func arg0 arg1 log_before log_after with_arg1 with_arg0 nelement logged batched]. rewrite (Nat.eqb_sym root p). unfold log_elements, log_bytes, BYTES_PER_ELEMENT. cbn [comm_rounds comm_bytes]. f_equal. apply stats_eq; [lia|]. destruct (Nat.eqb p root); lia.
  - cbn [app run]. unfold wrapper. rewrite L. cbn [func arg0 arg1 log_before log_after with_arg1 with_arg0 batched]. rewrite (Nat.eqb_sym root p). destruct sizes as [n|l]; cbn [payload_of is_batched nelement sum_nelement logged elements]; change (fold_right Z.add 0 ?x) with (total x); unfold log_elements, log_bytes, BYTES_PER_ELEMENT; cbn [comm_rounds comm_bytes]; f_equal; (apply stats_eq; [lia|]); destruct (Nat.eqb p root); lia.
  - cbn [app run]. unfold wrapper. rewrite L. cbn [func arg0 arg1 log_before log_after with_arg1 with_arg0 batched]. rewrite (Nat.eqb_sym root p). destruct sizes as [n|l]; cbn [payload_of is_batched nelement sum_nelement logged elements]; change (fold_right Z.add 0 ?x) with (total x); unfold log_elements, log_bytes, BYTES_PER_ELEMENT; cbn [comm_rounds comm_bytes]; f_equal; (apply stats_eq; [lia|]); destruct (Nat.eqb p root); lia.
  - cbn [app run]. unfold wrapper. rewrite L. cbn [func arg0 arg1 log_before log_after with_arg1 with_arg0 batched]. destruct sizes as [n|l]; cbn [payload_of is_batched nelement sum_nelement logged elements]; change (fold_right Z.add 0 ?x) with (total x); unfold log_elements, log_bytes, BYTES_PER_ELEMENT; cbn [comm_rounds comm_bytes]; f_equal; apply stats_eq; lia.
  - cbn [app run]. unfold wrapper. rewrite L. cbn [func arg0 arg1 log_before log_after with_arg1 with_arg0 batched nelement logged]. unfold log_elements, log_bytes, BYTES_PER_ELEMENT; cbn [comm_rounds comm_bytes]. f_equal. apply stats_eq; lia.
  - destruct (Nat.eqb_spec p from) as [E|N]; [|destruct (Nat.eqb_spec p to) as [E|N']]; cbn [orb app].
    + cbn [run]; unfold wrapper; rewrite L; cbn [func arg0 log_before with_arg0 getsizeof log_after]; unfold log_bytes; cbn [comm_rounds comm_bytes]; f_equal; apply stats_eq; lia.
    + cbn [run]; unfold wrapper; rewrite L; cbn [func arg0 log_before with_arg0 getsizeof log_after result]; unfold log_bytes; cbn [comm_rounds comm_bytes]; f_equal; apply stats_eq; lia.
    + f_equal. apply stats_eq; lia.
Qed.
Lemma bytes_map {A} (f : A -> nat * nat * Z) l : bytes_of (map f l) = total (map (fun a => snd (f a)) l).
Proof. unfold bytes_of. now rewrite map_map. Qed.
Lemma total_root P root c : (root < P)%nat -> total (map (fun p => c * (if Nat.eqb p root then Z.of_nat P - 1 else 1)) (seq 0 P)) = 2 * (Z.of_nat P - 1) * c.
Proof.
  intros H. rewrite (total_ext _ _ (fun p => c + (if Nat.eqb p root then c * (Z.of_nat P - 2) else 0))) by (intros p _; destruct (Nat.eqb p root); lia). rewrite total_add, total_const, seq_length, total_at by exact H. lia.
Qed.
Lemma total_two P a b c : (a < P)%nat -> (b < P)%nat -> a <> b -> total (map (fun p => if Nat.eqb p a || Nat.eqb p b then c else 0) (seq 0 P)) = 2 * c.
Proof.
  intros A B N. rewrite (total_ext _ _ (fun p => (if Nat.eqb p a then c else 0) + (if Nat.eqb p b then c else 0))).
  - rewrite total_add, (total_at P a (fun _ => c)), (total_at P b (fun _ => c)) by assumption. lia.
  - intros p _. destruct (Nat.eqb_spec p a), (Nat.eqb_spec p b); cbn [orb]; lia.
Qed.
Lemma others_len P root : (root < P)%nat -> Z.of_nat (length (others P root)) = Z.of_nat P - 1.
Proof. intros H. pose proof (total_others P root (fun _ => 1) H) as E. rewrite !total_const, seq_length in E. lia. Qed.
Lemma counted_total P e : possible P e -> total (map (fun p => counted P p e) (seq 0 P)) = 2 * bytes_of (messages P e).
Proof.
  destruct e as [|bl from to n|root sizes|root n|root sizes|root sizes|sizes|n|from to nb]; cbn [possible counted messages]; intros H.
  - rewrite total_const. cbn. lia.
  - destruct H as (A & B & N). rewrite total_two by assumption. unfold bytes_of, total. cbn [map snd fold_right]. lia.
  - destruct H as [R Ls]. rewrite bytes_map. cbn [snd]. rewrite (total_others P root (fun p => 8 * nth p sizes 0) R).
    rewrite (total_ext _ _ (fun p => 8 * nth p sizes 0 + (if Nat.eqb p root then 8 * sum_others root 0 sizes - 8 * nth root sizes 0 else 0))).
    + rewrite total_add, (total_at P root (fun _ => 8 * sum_others root 0 sizes - 8 * nth root sizes 0) R). rewrite sum_others_spec, Ls.
      rewrite (total_ext (seq 0 P) (fun p => if Nat.eqb p root then 0 else nth (p - 0) sizes 0) (fun p => nth p sizes 0 + (if Nat.eqb p root then - nth p sizes 0 else 0))) by (intros p _; rewrite Nat.sub_0_r; destruct (Nat.eqb p root); lia).
      rewrite total_add, (total_at P root (fun p => - nth p sizes 0) R). assert (X : total (map (fun p => 8 * nth p sizes 0) (seq 0 P)) = 8 * total (map (fun p => nth p sizes 0) (seq 0 P))) by (generalize (seq 0 P); unfold total; induction l as [|a l IH]; cbn [map fold_right]; lia). rewrite X. lia.
    + intros p _. destruct (Nat.eqb_spec p root) as [->|]; lia.
  - rewrite total_root by exact H. rewrite bytes_map. cbn [snd]. rewrite total_const, others_len by exact H. lia.
  - rewrite total_root by exact H. rewrite bytes_map. cbn [snd]. rewrite total_const, others_len by exact H. lia.
  - rewrite total_root by exact H. rewrite bytes_map. cbn [snd]. rewrite total_const, others_len by exact H. lia.
  - rewrite bytes_map. cbn [snd]. rewrite !total_const. lia.
  - rewrite total_const, seq_length. unfold bytes_of. assert (X : forall l, (forall p, In p l -> (p < P)%nat) -> total (map snd (flat_map (fun p => map (fun q => (p, q, 8 * n)) (others P p)) l)) = Z.of_nat (length l) * ((Z.of_nat P - 1) * (8 * n))).
    { induction l as [|p l IH]; intros Hl; cbn [flat_map map length]; [reflexivity|]. rewrite map_app, total_app, IH by (intros; apply Hl; now right). rewrite map_map. cbn [snd]. rewrite total_const, others_len by (apply Hl; now left). lia. }
    rewrite X by (intros p Hp; apply in_seq in Hp; lia). rewrite seq_length. lia.
  - destruct H as (A & B & N). rewrite total_two by assumption. unfold bytes_of, total. cbn [map snd fold_right]. lia.
Qed.

(** *** Histories *)
Lemma run_history P p es : (2 <= P)%nat -> forall s, run true P p (flat_map (fun e => calls e p) es) s =
  (None, mkStats (comm_rounds s + Z.of_nat (length (filter (takes_part p) es))) (comm_bytes s + total (map (counted P p) es))).
Proof.
  intros HP. induction es as [|e es IH]; intros s; cbn [flat_map filter map]; [destruct s as [r b]; cbn; f_equal; f_equal; unfold total; cbn; lia|]. rewrite run_event by exact HP. rewrite IH. cbn [comm_rounds comm_bytes]. f_equal. apply stats_eq; [destruct (takes_part p e); cbn [length]; lia|]. unfold total. cbn [fold_right]. lia.
Qed.
Lemma k_stats P es : (2 <= P)%nat -> (forall e, In e es -> possible P e) ->
  (forall p, (p < P)%nat -> fst (run true P p (flat_map (fun e => calls e p) es) reset_communication_stats) = None /\
    comm_rounds (snd (run true P p (flat_map (fun e => calls e p) es) reset_communication_stats)) = Z.of_nat (length (filter (takes_part p) es))) /\
  total (map (fun p => comm_bytes (snd (run true P p (flat_map (fun e => calls e p) es) reset_communication_stats))) (seq 0 P)) = 2 * bytes_of (flat_map (messages P) es).
Proof.
  intros HP Hes. split; [intros p Hp; rewrite run_history by exact HP; split; [reflexivity|cbn; lia]|].
  rewrite (total_ext _ _ (fun p => total (map (counted P p) es))) by (intros p _; rewrite run_history by exact HP; cbn; lia).
  induction es as [|e es IH]; cbn [map flat_map]; [rewrite total_const; cbn; lia|]. unfold total at 2. cbn [fold_right]. rewrite (total_ext _ _ (fun p => counted P p e + total (map (counted P p) es))) by (intros; reflexivity). rewrite total_add, counted_total by (apply Hes; now left). rewrite IH by (intros; apply Hes; now right). unfold bytes_of. rewrite map_app, total_app. lia.
Qed.

(** each party counts exactly what it sends and receives, except that the ring of all_reduce is the documented cost *)
Lemma filter_map_total {A} (f : A -> nat * nat * Z) (g : nat * nat * Z -> bool) l : bytes_of (filter g (map f l)) = total (map (fun a => if g (f a) then snd (f a) else 0) l).
Proof. unfold bytes_of, total. induction l as [|a l IH]; cbn [map filter fold_right]; [reflexivity|]. destruct (g (f a)); cbn [map fold_right]; lia. Qed.
Lemma others_in P root p : In p (others P root) <-> (p < P)%nat /\ p <> root.
Proof. unfold others. rewrite filter_In, in_seq, negb_true_iff, Nat.eqb_neq. lia. Qed.
Lemma touch_root P root p f : (root < P)%nat -> (p < P)%nat -> total (map (fun q => if Nat.eqb p root || Nat.eqb p q then f q else 0) (others P root)) = if Nat.eqb p root then total (map f (others P root)) else f p.
Proof.
  intros R Hp. destruct (Nat.eqb_spec p root) as [->|N]; [reflexivity|]. cbn [orb]. rewrite total_others by exact R. destruct (Nat.eqb_spec p root) as [?|_]; [contradiction|]. rewrite (total_ext _ _ (fun q => if Nat.eqb q p then f q else 0)) by (intros q _; now rewrite Nat.eqb_sym). rewrite total_at by exact Hp. lia.
Qed.
Lemma mod_next P p : (2 <= P)%nat -> (p < P)%nat -> exists q, (q < P)%nat /\ q <> p /\ (forall x, (x < P)%nat -> Nat.eqb p (Nat.modulo (x + 1) P) = Nat.eqb x q).
Proof.
  intros HP Hp. assert (M : forall x, (x < P)%nat -> Nat.modulo (x + 1) P = if Nat.eqb (x + 1) P then 0%nat else (x + 1)%nat).
  { intros x Hx. destruct (Nat.eqb_spec (x + 1) P) as [->|N]; [apply Nat.mod_same; lia|apply Nat.mod_small; lia]. }
  exists (if Nat.eqb p 0 then P - 1 else p - 1)%nat. destruct (Nat.eqb_spec p 0) as [->|N0].
  - split; [lia|]. split; [lia|]. intros x Hx. rewrite M by exact Hx. destruct (Nat.eqb_spec (x + 1) P), (Nat.eqb_spec x (P - 1)); try reflexivity; try lia. now destruct (Nat.eqb_spec 0 (x + 1)); [lia|].
  - split; [lia|]. split; [lia|]. intros x Hx. rewrite M by exact Hx. destruct (Nat.eqb_spec (x + 1) P) as [E|E]; [destruct (Nat.eqb_spec p 0), (Nat.eqb_spec x (p - 1)); try reflexivity; lia|]. destruct (Nat.eqb_spec p (x + 1)), (Nat.eqb_spec x (p - 1)); try reflexivity; lia.
Qed.
Lemma sum_others_total P root sizes : (root < P)%nat -> length sizes = P -> sum_others root 0 sizes = total (map (fun q => nth q sizes 0) (others P root)).
Proof.
  intros R Ls. rewrite sum_others_spec, Ls, (total_others P root (fun q => nth q sizes 0) R).
  rewrite (total_ext _ _ (fun p => nth p sizes 0 + (if Nat.eqb p root then - nth p sizes 0 else 0))) by (intros p _; rewrite Nat.sub_0_r; destruct (Nat.eqb p root); lia). rewrite total_add, (total_at P root (fun p => - nth p sizes 0) R). lia.
Qed.
Lemma total_scale {A} (l : list A) c f : total (map (fun x => c * f x) l) = c * total (map f l).
Proof. unfold total. induction l as [|a l IH]; cbn [map fold_right]; lia. Qed.
Lemma touching_two p from to n : from <> to -> touching p [(from, to, n)] = if Nat.eqb p from || Nat.eqb p to then n else 0.
Proof. intros N. unfold touching. cbn [filter fst snd]. destruct (Nat.eqb p from || Nat.eqb p to); unfold bytes_of, total; cbn; lia. Qed.
Lemma touching_out P root p f : (root < P)%nat -> (p < P)%nat -> touching p (map (fun q => (root, q, f q)) (others P root)) = if Nat.eqb p root then total (map f (others P root)) else f p.
Proof. intros R Hp. unfold touching. rewrite filter_map_total. cbn [fst snd]. now apply touch_root. Qed.
Lemma touching_in P root p f : (root < P)%nat -> (p < P)%nat -> touching p (map (fun q => (q, root, f q)) (others P root)) = if Nat.eqb p root then total (map f (others P root)) else f p.
Proof. intros R Hp. unfold touching. rewrite filter_map_total. cbn [fst snd]. rewrite (total_ext _ _ (fun q => if Nat.eqb p root || Nat.eqb p q then f q else 0)) by (intros q _; now rewrite orb_comm). now apply touch_root. Qed.
Lemma touching_app p a b : touching p (a ++ b) = touching p a + touching p b.
Proof. unfold touching, bytes_of. now rewrite filter_app, map_app, total_app. Qed.
Lemma touching_flat {A} p (f : A -> list (nat * nat * Z)) l : touching p (flat_map f l) = total (map (fun a => touching p (f a)) l).
Proof. induction l as [|a l IH]; cbn [flat_map map]; [reflexivity|]. rewrite touching_app, IH. reflexivity. Qed.
Lemma counted_touching P p e : (2 <= P)%nat -> (p < P)%nat -> possible P e -> counted P p e = touching p (messages P e).
Proof.
  intros HP Hp. destruct e as [|bl from to n|root sizes|root n|root sizes|root sizes|sizes|n|from to nb]; cbn [possible counted messages]; intros H.
  - reflexivity.
  - now rewrite touching_two.
  - destruct H as [R Ls]. rewrite (touching_out P root p (fun q => 8 * nth q sizes 0)), total_scale by assumption. destruct (Nat.eqb_spec p root) as [->|]; [|reflexivity]. now rewrite (sum_others_total P).
  - rewrite (touching_in P root p (fun _ => 8 * n)), total_const, others_len by assumption. destruct (Nat.eqb p root); lia.
  - rewrite (touching_in P root p (fun _ => 8 * elements sizes)), total_const, others_len by assumption. destruct (Nat.eqb p root); lia.
  - rewrite (touching_out P root p (fun _ => 8 * elements sizes)), total_const, others_len by assumption. destruct (Nat.eqb p root); lia.
  - unfold touching. rewrite filter_map_total. cbn [fst snd]. destruct (mod_next P p HP Hp) as (q & Hq & Nq & M).
    rewrite (total_ext _ _ (fun x => if Nat.eqb x p || Nat.eqb x q then 8 * elements sizes else 0)) by (intros x Hx; apply in_seq in Hx; rewrite M, (Nat.eqb_sym p x) by lia; reflexivity). rewrite total_two by auto. lia.
  - rewrite touching_flat. rewrite (total_ext _ _ (fun x => 8 * n + (if Nat.eqb x p then (Z.of_nat P - 1) * (8 * n) - 8 * n else 0))).
    + rewrite total_add, total_const, seq_length, (total_at P p (fun _ => (Z.of_nat P - 1) * (8 * n) - 8 * n) Hp). lia.
    + intros x Hx. apply in_seq in Hx. rewrite (touching_out P x p (fun _ => 8 * n)), total_const, others_len by lia. rewrite (Nat.eqb_sym x p). destruct (Nat.eqb p x); lia.
  - now rewrite touching_two.
Qed.
Lemma k_party P es p : (2 <= P)%nat -> (p < P)%nat -> (forall e, In e es -> possible P e) -> forall s,
  run true P p (flat_map (fun e => calls e p) es) s =
  (None, mkStats (comm_rounds s + Z.of_nat (length (filter (takes_part p) es))) (comm_bytes s + touching p (flat_map (messages P) es))).
Proof.
  intros HP Hp Hes s. rewrite run_history by exact HP. do 3 f_equal. rewrite touching_flat. apply total_ext. intros e He. apply counted_touching; auto.
Qed.
(** without verbose accounting nothing is counted *)
Lemma k_quiet P p cs : (2 <= P)%nat -> forall s, run false P p cs s = (None, s).
Proof. intros HP. assert (L : Nat.ltb P 2 = false) by (apply Nat.ltb_ge; exact HP). induction cs as [|c cs IH]; intros s; cbn [run]; [reflexivity|]. unfold wrapper. rewrite L. apply IH. Qed.

(** *** Objects sent to all *)
Lemma k_broadcast_obj P root nbytes none : (2 <= P)%nat -> (root < P)%nat ->
  total (map (fun p => comm_bytes (snd (run true P p [mkCall broadcast_obj (Some (Obj (if Nat.eqb p root then nbytes else none))) (Some root) false (Obj nbytes)] reset_communication_stats))) (seq 0 P)) = (Z.of_nat P - 1) * nbytes + (Z.of_nat P - 1) * (Z.of_nat P - 1) * none.
Proof.
  intros HP R. rewrite (total_ext _ _ (fun p => none * (Z.of_nat P - 1) + (if Nat.eqb p root then (nbytes - none) * (Z.of_nat P - 1) else 0))).
  - rewrite total_add, total_const, seq_length, (total_at P root (fun _ => (nbytes - none) * (Z.of_nat P - 1)) R). ring.
  - intros p _. cbn [run]. unfold wrapper. destruct (Nat.ltb_spec P 2); [lia|]. cbn [func arg0 log_before log_after with_arg0 getsizeof]. unfold log_bytes, reset_communication_stats. cbn [snd comm_bytes]. destruct (Nat.eqb p root); ring.
Qed.
Lemma k_broadcast_obj' P root nbytes none : (2 <= P)%nat -> (root < P)%nat ->
  let counted := total (map (fun p => comm_bytes (snd (run true P p [mkCall broadcast_obj (Some (Obj (if Nat.eqb p root then nbytes else none))) (Some root) false (Obj nbytes)] reset_communication_stats))) (seq 0 P)) in
  counted = (Z.of_nat P - 1) * nbytes + (Z.of_nat P - 1) * (Z.of_nat P - 1) * none /\ (counted = 2 * bytes_of (map (fun p => (root, p, nbytes)) (others P root)) <-> (Z.of_nat P - 1) * none = nbytes).
Proof.
  intros HP R counted. pose proof (k_broadcast_obj P root nbytes none HP R) as E. fold counted in E. split; [exact E|]. rewrite E, bytes_map. cbn [snd]. rewrite total_const, others_len by exact R. set (q := Z.of_nat P - 1). assert (1 <= q) by (unfold q; lia). split; intros H0; [apply (Z.mul_reg_l _ _ q); lia|rewrite <- H0; ring].
Qed.
Lemma k_stops verbose P p cs e s : fst (run verbose P p cs s) = Some e -> forall more, run verbose P p (cs ++ more) s = run verbose P p cs s.
Proof.
  revert s. induction cs as [|c cs IH]; intros s H more; cbn [run app] in *; [discriminate|]. destruct (wrapper verbose P p c s) as [v s'|e' s']; [now apply IH|reflexivity].
Qed.

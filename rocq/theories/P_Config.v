(** Property theorems C37: temporary configuration overrides. *)
Require Import List Arith Bool Lia.
From Verif Require Import Config Config_proofs.
Import ListNotations.

(** Every assignment in the program goes through [cfg] itself, not through an object remembered in a variable. *)
Fixpoint by_cfg {V} (p : prog V) : Prop :=
  match p with
  | SetVar _ _ _ _ | Use _ _ => False
  | Seq _ a b | Catch _ a b | Case _ _ a b => by_cfg a /\ by_cfg b
  | Override _ _ a => by_cfg a
  | _ => True
  end.
(** The state after loading a configuration and then running any program. *)
Definition start {V} (c : conf V) : cstate V := mkC V (fun _ => c) 1 0 (fun _ => 0).
Definition ran {V} (reparse : V -> V) (c : conf V) (p : prog V) : cstate V := snd (exec V reparse p (start c)).
(** Neither dotted name is the other or lies below it. *)
Definition apart (p q : name) : Prop := ~ (exists r, q = p ++ r) /\ ~ (exists r, p = q ++ r).

Lemma by_cfg_ok {V} (p : prog V) : by_cfg p -> through_cfg p.
Proof. induction p; cbn [by_cfg through_cfg]; try tauto. Qed.
Lemma start_wf {V} (c : conf V) : wf (start c).
Proof. split; cbn; lia. Qed.
Lemma prefix_app p : forall q, prefix p q = true <-> exists r, q = p ++ r.
Proof.
  induction p as [|a p IH]; intros q; cbn [prefix]; [split; [intros _; now exists q|reflexivity]|]. destruct q as [|b q].
  - split; [discriminate|]. intros [r E]. discriminate.
  - rewrite andb_true_iff, Nat.eqb_eq, IH. cbn [app]. split; [intros [-> [r ->]]; now exists r|]. intros [r E]. injection E as -> ->. eauto.
Qed.
Lemma apart_clash p q : apart p q -> clash p q = false.
Proof.
  intros [A B]. unfold clash. apply orb_false_iff. split.
  - destruct (prefix p q) eqn:E; [|reflexivity]. apply prefix_app in E. contradiction.
  - destruct (prefix q p) eqn:E; [|reflexivity]. apply prefix_app in E. contradiction.
Qed.

Section Claim.
  Context {V : Type} (reparse : V -> V).

  (** After the block every key has its old value, whatever the block did through [cfg], whatever it nested, and whether or not it raised
      (a dictionary that cannot be merged included). *)
  Theorem C37_restored : forall c p0 d a k, by_cfg a -> let s := ran reparse c p0 in
    get (snd (exec V reparse (Override V d a) s)) k = get s k.
  Proof.
    intros c p0 d a k B s. destruct (exec_wf reparse p0 (start c) (start_wf c)) as [W _]. fold (ran reparse c p0) in W. fold s in W.
    destruct (override_undone reparse d a s (by_cfg_ok a B) W) as [E F]. unfold get. rewrite E, F; [reflexivity|apply W].
  Qed.
  (** Inside, the block sees the overriding values, and the old ones under every name apart from them. *)
  Theorem C37_inside : forall c p0 kvs, let s := ran reparse c p0 in
    NoDup (map fst kvs) -> (forall k1 k2, In k1 (map fst kvs) -> In k2 (map fst kvs) -> k1 <> k2 -> apart k1 k2) ->
    exists view : name -> option V,
      (forall test : (name -> option V) -> bool, fst (exec V reparse (Override V (Some kvs) (Case V (fun s => test (get s)) (Skip V) (Raise V))) s) = test view) /\
      (forall k v, In (k, v) kvs -> view k = Some (reparse v)) /\
      (forall q, (forall k, In k (map fst kvs) -> apart k q) -> view q = get s q).
  Proof.
    intros c p0 kvs s N A. exists (get (install V (merge V reparse (objs s (cur s)) kvs) s)). split; [|split].
    - intros test. cbn [exec]. destruct (test (get (install V (merge V reparse (objs s (cur s)) kvs) s))) eqn:E; reflexivity.
    - intros k v I. unfold get, install. cbn [objs cur]. rewrite upd_same. apply merge_here; auto. intros k1 k2 I1 I2 D. apply apart_clash. auto.
    - intros q H. unfold get, install. cbn [objs cur]. rewrite upd_same. apply merge_apart. intros k v I. apply apart_clash, H. apply in_map_iff. exists (k, v). auto.
  Qed.
  (** The block swallows no exception: one raised by the body, or by a dictionary that cannot be merged, leaves it. *)
  Theorem C37_not_swallowed : forall d a s, fst (exec V reparse (Override V d (Seq V a (Raise V))) s) = false /\ fst (exec V reparse (Override V None a) s) = false.
  Proof. intros d a s. split; [|reflexivity]. cbn [exec]. destruct d as [kvs|]; [|reflexivity]. destruct (exec V reparse a _) as [[] s']; reflexivity. Qed.
End Claim.
(** The restriction is needed: a configuration object remembered before the block and assigned to inside keeps the change. *)
Theorem C37_alias_refuted : exists (c : conf nat) p0 d a k, let s := ran (fun v => v) c p0 in
  get (snd (exec nat (fun v => v) (Override nat d a) s)) k <> get s k.
Proof.
  exists (fun _ => Some 0), (Grab nat 0), (Some []), (SetVar nat 0 [1; 2] 7), [1; 2]. vm_compute. discriminate.
Qed.
Print Assumptions C37_restored.
Print Assumptions C37_inside.
Print Assumptions C37_not_swallowed.
Print Assumptions C37_alias_refuted.

(** mpc.provider is [1; 1], mpc.protocol [1; 2]; a nested override whose body assigns and raises; the observer inside sees the inner value. *)
Definition demo_conf : conf nat := fun k => if same k [1; 1] then Some 10 else if same k [1; 2] then Some 20 else None.
Definition demo_block : prog nat :=
  Seq nat (SetItem nat [1; 2] 99)
    (Override nat (Some [([1; 2], 21)])
       (Seq nat (SetDot nat [1; 1] 55) (Case nat (fun s => match get s [1; 2] with Some 21 => true | _ => false end) (Raise nat) (Skip nat)))).
Example C37_case : by_cfg demo_block /\
  let (ok, s) := exec nat (fun v => v) (Override nat (Some [([1; 1], 11)]) demo_block) (start demo_conf) in
  ok = false /\ get s [1; 1] = Some 10 /\ get s [1; 2] = Some 20.
Proof. vm_compute. auto. Qed.
Example C37_inside_case : NoDup (map fst [([1; 1], 11); ([3], 4)]) /\ apart [1; 1] [3] /\
  fst (exec nat (fun v => v) (Override nat (Some [([1; 1], 11); ([3], 4)]) (Case nat (fun s => match get s [1; 1], get s [1; 2], get s [3] with Some 11, Some 20, Some 4 => true | _, _, _ => false end) (Skip nat) (Raise nat))) (start demo_conf)) = true.
Proof.
  split; [|split; [|reflexivity]].
  - repeat constructor; cbn; intuition discriminate.
  - split; intros [r E]; discriminate.
Qed.

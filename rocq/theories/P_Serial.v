(** Theorems for C56. *)
Require Import List String Ascii Bool Arith.
From Verif Require Import Serial Serial_claims.
Import ListNotations.
Open Scope string_scope.

(** C56: after any history of registrations of ordinary classes, a name resolves to the last class registered under it, else to the built-in entry of that name, else to nothing. *)
Theorem C56_find : forall allow found h m n o, (forall c, In c h -> ordinary c) ->
  (find_class (fold_left register h (initial allow found)) m n = Some o <->
   (exists c, o = Registered c /\ last_named (m ++ "." ++ n) h = Some c) \/
   (last_named (m ++ "." ++ n) h = None /\ o = Builtin (m ++ "." ++ n) /\ (m ++ "." ++ n = "torch.storage._load_from_bytes" \/ (In (m ++ "." ++ n) allow /\ found (m ++ "." ++ n) = true)))).
Proof. exact k_find. Qed.
Print Assumptions C56_find.
(** C56: whatever the pickle, everything it calls, every argument and the result are built from objects of the table only. *)
Theorem C56_calls : forall t ext ops,
  (forall f a, In (f, a) (calls (machine_of (load t ext ops start))) -> only_safe t f /\ only_safe t a) /\ (forall v m, load t ext ops start = Stopped v m -> only_safe t v).
Proof. exact k_safe. Qed.
Print Assumptions C56_calls.
(** C56: a pickle that loads has found every name it asked for. *)
Theorem C56_names : forall t ext pre op mn n rest, op = GLOBAL mn n \/ op = INST mn n -> ~ In STOP pre -> forall m0 v m, load t ext (pre ++ op :: rest) m0 = Stopped v m -> exists o, find_class t mn n = Some o.
Proof. exact k_names. Qed.
Print Assumptions C56_names.
(** C56: registrations never make a name unknown again. *)
Theorem C56_monotone : forall h t m n, find_class t m n <> None -> find_class (fold_left register h t) m n <> None.
Proof. exact k_monotone. Qed.
Print Assumptions C56_monotone.

(** C56: a tensor is returned iff it has no backward hooks; a module iff none of its parameters and none of its modules has. *)
Theorem C56_hooks : (forall h r, restricted_loads (LTensor h) = Some r <-> r = LTensor h /\ h = []) /\
  (forall ps ms fwd r, restricted_loads (LModule ps ms fwd) = Some r <-> r = LModule ps ms fwd /\ forall h, In h ps \/ In h ms -> h = []).
Proof. exact k_hooks. Qed.
Print Assumptions C56_hooks.
Example C56_hooks_case : restricted_loads (LModule [[]; []] [[]; []] [4]) = Some (LModule [[]; []] [[]; []] [4]) /\ restricted_loads (LModule [[]; []] [[]; [3]] []) = None /\ restricted_loads (LModule [[]; [3]] [[]] []) = None.
Proof. repeat split. Qed.

(** an OrderedDict of one registered instance loads; os.system does not, and nothing is called *)
Definition net := mkClass "models" "Net" 7.
Definition table1 := fold_left register [net] (initial ["builtins.set"; "collections.OrderedDict"; "torch.Gone"] (fun n => negb (String.eqb n "torch.Gone"))).
Example C56_ordinary : ordinary net.
Proof. split; [discriminate|]. intros (a & b & E). change (full_name net) with "models.Net" in E. do 10 (destruct a as [|? a]; cbn [append] in E; [discriminate E|injection E as _ E]). destruct a; discriminate E. Qed.
Example C56_good : load table1 (fun _ => None) [GLOBAL "collections" "OrderedDict"; EMPTY; REDUCE; PUSH_TEXT "models"; PUSH_TEXT "Net"; STACK_GLOBAL; EMPTY; NEWOBJ; APPEND; STOP] start =
  Stopped (Update (Call (Resolved (Builtin "collections.OrderedDict")) (Items [])) [New (Resolved (Registered net)) (Items [])])
    (mkM [] [] [] [(Resolved (Registered net), Items []); (Resolved (Builtin "collections.OrderedDict"), Items [])]).
Proof. reflexivity. Qed.
Example C56_bad : load table1 (fun _ => None) [GLOBAL "os" "system"; MARK; PUSH_TEXT "ls"; TUPLE; REDUCE; STOP] start = Failed (Restricted "os.system") start /\ find_class table1 "torch" "Gone" = None /\ find_class table1 "builtins" "set" = Some (Builtin "builtins.set").
Proof. repeat split. Qed.

(** C56 refuted for built-in classes: registering one (str(int) is "<class 'int'>") does not make its pickled name known. *)
Theorem C56_builtin_class_refuted : forall t c, modname c = "builtins" -> quote_free (qualname c) -> find_class (register t c) (modname c) (qualname c) = find_class t (modname c) (qualname c).
Proof. exact k_builtin. Qed.
Print Assumptions C56_builtin_class_refuted.
Example C56_builtin_class_case : find_class (register table1 (mkClass "builtins" "complex" 3)) "builtins" "complex" = None /\ lookup (register table1 (mkClass "builtins" "complex" 3)) "complex" <> None.
Proof. split; [reflexivity|discriminate]. Qed.
(** C56 refuted for the hook check: a tensor with hooks is refused by itself but returned inside a list, and a module's forward hooks are not checked. *)
Theorem C56_hooks_refuted : forall h hs vs, restricted_loads (LTensor (h :: hs)) = None /\ restricted_loads (LList (LTensor (h :: hs) :: vs)) = Some (LList (LTensor (h :: hs) :: vs)) /\ restricted_loads (LModule [] [[]] (h :: hs)) = Some (LModule [] [[]] (h :: hs)).
Proof. repeat split. Qed.
Print Assumptions C56_hooks_refuted.

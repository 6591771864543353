(** Configuration overrides, crypten/config/config.py. *)
Require Import List Arith Bool.
Import ListNotations.

Section Config.
  (** values, and what a value becomes when written to and read back from the text ["key=value"] (OmegaConf.from_dotlist, config.py:80, 91) *)
  Variable V : Type.
  Variable reparse : V -> V.

  (** A dotted name ["a.b.c"] is the list of its parts. *)
  Definition name : Type := list nat.
  Fixpoint prefix (p q : name) : bool :=
    match p, q with [], _ => true | a :: p, b :: q => Nat.eqb a b && prefix p q | _ :: _, [] => false end.
  Fixpoint same (p q : name) : bool :=
    match p, q with [], [] => true | a :: p, b :: q => Nat.eqb a b && same p q | _, _ => false end.

  (** An OmegaConf object, by the values at its leaves. *)
  Definition conf : Type := name -> option V.
  (** Storing a leaf: a leaf above it becomes an inner node, and an inner node in its place loses everything below. *)
  Definition put (c : conf) (k : name) (v : V) : conf :=
    fun q => if same k q then Some v else if prefix k q || prefix q k then None else c q.
  (** OmegaConf.merge of a dotlist (config.py:80-82, 91-93): a new object, one assignment after the other *)
  Definition merge (c : conf) (kvs : list (name * V)) : conf := fold_left (fun c kv => put c (fst kv) (reparse (snd kv))) kvs c.

  (** OmegaConf objects are mutable; the global [cfg] points to one of them, [cfg.config].  Variables of the program may point to others. *)
  Record cstate := mkC { objs : nat -> conf; next : nat; cur : nat; vars : nat -> nat }.
  Definition upd {A} (f : nat -> A) (i : nat) (a : A) : nat -> A := fun j => if Nat.eqb j i then a else f j.
  (** a new object holding [c] becomes [cfg.config] *)
  Definition install (c : conf) (s : cstate) : cstate := mkC (upd (objs s) (next s) c) (S (next s)) (next s) (vars s).
  (** __getattribute__, config.py:58-66 *)
  Definition get (s : cstate) (k : name) : option V := objs s (cur s) k.

  (** Programs that use the configuration; [Override] is [with cfg.temp_override({...}):]. *)
  Inductive prog :=
  | Skip
  | Seq (a b : prog)
  | SetItem (k : name) (v : V)          (* cfg["a.b"] = v, or setattr(cfg, "a.b", v) *)
  | SetDot (k : name) (v : V)           (* cfg.a.b = v *)
  | Load (c : conf)                     (* cfg.load_config(file) *)
  | Grab (x : nat)                      (* x = cfg.config *)
  | SetVar (x : nat) (k : name) (v : V) (* x.a.b = v *)
  | Use (x : nat)                       (* cfg.set_config(x) *)
  | Raise
  | Catch (a b : prog)                  (* try: a except: b *)
  | Case (f : cstate -> bool) (a b : prog)
  | Override (d : option (list (name * V))) (a : prog). (* [None]: a dict from_dotlist or merge rejects with an exception *)

  (** [true]: finished normally; [false]: an exception is propagating *)
  Fixpoint exec (p : prog) (s : cstate) : bool * cstate :=
    match p with
    | Skip => (true, s)
    | Seq a b => let (ok, s) := exec a s in if ok then exec b s else (false, s)
    (* __setattr__, config.py:72-82 *)
    | SetItem k v => (true, install (merge (objs s (cur s)) [(k, v)]) s)
    (* assignment to a node of the current object: in place *)
    | SetDot k v => (true, mkC (upd (objs s) (cur s) (put (objs s (cur s)) k v)) (next s) (cur s) (vars s))
    (* load_config, config.py:42-50 *)
    | Load c => (true, install c s)
    | Grab x => (true, mkC (objs s) (next s) (cur s) (upd (vars s) x (cur s)))
    | SetVar x k v => (true, mkC (upd (objs s) (vars s x) (put (objs s (vars s x)) k v)) (next s) (cur s) (vars s))
    (* set_config, config.py:52-56 *)
    | Use x => (true, mkC (objs s) (next s) (vars s x) (vars s))
    | Raise => (false, s)
    | Catch a b => let (ok, s) := exec a s in if ok then (true, s) else exec b s
    | Case f a b => if f s then exec a s else exec b s
    (* temp_override, config.py:87-96 *)
    | Override d a =>
        let old := cur s in
        let (ok, s) := match d with
                       | Some kvs => exec a (install (merge (objs s (cur s)) kvs) s)
                       | None => (false, s)
                       end in
        (ok, mkC (objs s) (next s) old (vars s))
    end.
End Config.
Arguments get {_}. Arguments objs {_}. Arguments next {_}. Arguments cur {_}. Arguments vars {_}.

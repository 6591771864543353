(** Restricted unpickling: crypten/common/serial.py:42-160. *)
Require Import List String Ascii Bool Arith.
Import ListNotations.
Open Scope string_scope.

(** *** Names of classes *)
(** A Python class by its __module__ and __qualname__ and an identity. *)
Record pyclass := mkClass { modname : string; qualname : string; ident : nat }.
(** str(cls) of a class whose metaclass does not define __str__ (CPython's type_repr) *)
Definition str_class (c : pyclass) : string :=
  "<class '" ++ (if String.eqb (modname c) "builtins" then qualname c else modname c ++ "." ++ qualname c) ++ "'>".
(** s.split(sep) for a one-character separator *)
Fixpoint split (sep : ascii) (s : string) : list string :=
  match s with
  | EmptyString => [EmptyString]
  | String c s => if Ascii.eqb c sep then EmptyString :: split sep s
                  else match split sep s with [] => [String c EmptyString] | w :: ws => String c w :: ws end
  end.
(** str(input_class).split("'")[1], 110 *)
Definition classname (c : pyclass) : string := nth 1 (split "'"%char (str_class c)) "".

(** *** The table of safe classes, 43-103, and its lookups *)
Inductive object := Builtin (name : string) | Registered (c : pyclass).
Definition table := list (string * object).
(** __SAFE_CLASSES[classname] = input_class: the newest entry counts *)
Definition register (t : table) (c : pyclass) : table := (classname c, Registered c) :: t.
Fixpoint lookup (t : table) (n : string) : option object := match t with [] => None | (k, o) :: t => if String.eqb k n then Some o else lookup t n end.
(** The loop over the allow-list, 94-103: [found n] tells whether the installed torch has the attribute; others are left out. *)
Definition initial (allowlist : list string) (found : string -> bool) : table :=
  fold_left (fun t n => if found n then (n, Builtin n) :: t else t) allowlist [("torch.storage._load_from_bytes", Builtin "torch.storage._load_from_bytes")].
(** find_class, 114-120; None: ValueError *)
Definition find_class (t : table) (m n : string) : option object := lookup t (m ++ "." ++ n).

(** *** The unpickling machine of the standard library (pickle.py), the operations that build or call objects *)
(** Values by their provenance: who was called on what; sharing is not modelled. *)
Inductive value :=
| Text (s : string) | Datum (n : nat) | Resolved (o : object)
| Call (f args : value) | New (cls args : value)
| Items (vs : list value) | Update (target : value) (items : list value).
Inductive opcode :=
| PUSH_TEXT (s : string) | PUSH_DATUM (n : nat) | MARK | POP | DUP | POP_MARK | TUPLE | EMPTY | APPENDS | APPEND | SETITEM
| GLOBAL (m n : string) | STACK_GLOBAL | REDUCE | NEWOBJ | BUILD | INST (m n : string) | OBJ | EXT (code : nat) | PERSID | PUT (i : nat) | GET (i : nat) | STOP.
Record machine := mkM { stack : list value; metastack : list (list value); memo : list (nat * value); calls : list (value * value) }.
Inductive error := Restricted (name : string) | UnpicklingError.
Inductive step_result := Next (m : machine) | Stopped (v : value) (m : machine) | Failed (e : error) (m : machine).
Definition push (v : value) (m : machine) : machine := mkM (v :: stack m) (metastack m) (memo m) (calls m).
Definition resolve (t : table) (mn n : string) (m : machine) (k : value -> machine) : step_result :=
  match find_class t mn n with Some o => Next (k (Resolved o)) | None => Failed (Restricted (mn ++ "." ++ n)) m end.
Definition fail (m : machine) : step_result := Failed UnpicklingError m.
(** [ext]: copyreg's extension registry *)
Definition step (t : table) (ext : nat -> option (string * string)) (op : opcode) (m : machine) : step_result :=
  match op with
  | PUSH_TEXT s => Next (push (Text s) m)
  | PUSH_DATUM n => Next (push (Datum n) m)
  | EMPTY => Next (push (Items []) m)
  | MARK => Next (mkM [] (stack m :: metastack m) (memo m) (calls m))
  | POP => match stack m, metastack m with _ :: s, _ => Next (mkM s (metastack m) (memo m) (calls m)) | [], s :: ms => Next (mkM s ms (memo m) (calls m)) | _, _ => fail m end
  | DUP => match stack m with v :: s => Next (push v m) | _ => fail m end
  | POP_MARK => match metastack m with s :: ms => Next (mkM s ms (memo m) (calls m)) | _ => fail m end
  | TUPLE => match metastack m with s :: ms => Next (mkM (Items (rev (stack m)) :: s) ms (memo m) (calls m)) | _ => fail m end
  | APPENDS => match metastack m with (v :: s) :: ms => Next (mkM (Update v (rev (stack m)) :: s) ms (memo m) (calls m)) | _ => fail m end
  | APPEND => match stack m with x :: v :: s => Next (mkM (Update v [x] :: s) (metastack m) (memo m) (calls m)) | _ => fail m end
  | SETITEM => match stack m with x :: k :: v :: s => Next (mkM (Update v [k; x] :: s) (metastack m) (memo m) (calls m)) | _ => fail m end
  | BUILD => match stack m with st :: v :: s => Next (mkM (Update v [st] :: s) (metastack m) (memo m) (calls m)) | _ => fail m end
  | GLOBAL mn n => resolve t mn n m (fun v => push v m)
  | STACK_GLOBAL => match stack m with Text n :: Text mn :: s => resolve t mn n m (fun v => mkM (v :: s) (metastack m) (memo m) (calls m)) | _ => fail m end
  | EXT code => match ext code with Some (mn, n) => resolve t mn n m (fun v => push v m) | None => fail m end
  | REDUCE => match stack m with a :: f :: s => Next (mkM (Call f a :: s) (metastack m) (memo m) ((f, a) :: calls m)) | _ => fail m end
  | NEWOBJ => match stack m with a :: c :: s => Next (mkM (New c a :: s) (metastack m) (memo m) ((c, a) :: calls m)) | _ => fail m end
  | INST mn n => match metastack m with
                 | s :: ms => let a := Items (rev (stack m)) in resolve t mn n m (fun c => mkM (Call c a :: s) ms (memo m) ((c, a) :: calls m))
                 | _ => fail m end
  | OBJ => match metastack m, rev (stack m) with s :: ms, c :: a => Next (mkM (Call c (Items a) :: s) ms (memo m) ((c, Items a) :: calls m)) | _, _ => fail m end
  | PERSID => fail m
  | PUT i => match stack m with v :: _ => Next (mkM (stack m) (metastack m) ((i, v) :: memo m) (calls m)) | _ => fail m end
  | GET i => match find (fun p => Nat.eqb (fst p) i) (memo m) with Some (_, v) => Next (push v m) | None => fail m end
  | STOP => match stack m with v :: s => Stopped v (mkM s (metastack m) (memo m) (calls m)) | _ => fail m end
  end.
Fixpoint load (t : table) (ext : nat -> option (string * string)) (ops : list opcode) (m : machine) : step_result :=
  match ops with
  | [] => fail m
  | op :: ops => match step t ext op m with Next m => load t ext ops m | r => r end
  end.
Definition start : machine := mkM [] [] [] [].

(** *** The check for hooks, 123-146 *)
(** what is loaded: hooks are the entries of the _backward_hooks dictionary *)
Inductive loaded :=
| LTensor (hooks : list nat)
| LModule (parameter_hooks module_hooks : list (list nat)) (forward_hooks : list nat)   (* of all parameters() and modules(), itself included *)
| LList (vs : list loaded)
| LOther.
(** None: AssertionError *)
Definition empty_hooks (h : list nat) : bool := match h with [] => true | _ => false end.
Definition restricted_loads (r : loaded) : option loaded :=
  match r with
  | LTensor h => if empty_hooks h then Some r else None
  | LModule ps ms _ => if forallb empty_hooks ps && forallb empty_hooks ms then Some r else None
  | _ => Some r
  end.

(** State dictionaries of modules: crypten/nn/module.py:73-120, 168-310, 381-402. *)
Require Import List String Bool Arith.
Import ListNotations.
Open Scope string_scope.

Section State.
  Context {V : Type}.
  (** parameters and buffers are references; two names may share one reference (tied weights) *)
  Record tensor := mkTensor { size : list nat; encrypted_tensor : bool; value : V }.
  Definition heap := nat -> tensor.
  Definition write (r : nat) (t : tensor) (h : heap) : heap := fun i => if Nat.eqb i r then t else h i.
  (** [id]: object identity, used by the memo of named_children; entries that are None are left out *)
  Inductive module := Mod (id : nat) (encrypted : bool) (params buffers : list (string * nat)) (children : list (string * module)).
  Definition m_id (m : module) : nat := let (i, _, _, _, _) := m in i.
  Definition m_encrypted (m : module) : bool := let (_, e, _, _, _) := m in e.
  Definition m_params (m : module) := let (_, _, p, _, _) := m in p.
  Definition m_buffers (m : module) := let (_, _, _, b, _) := m in b.
  (** named_children, 82-98 *)
  Fixpoint children_from (memo : list nat) (l : list (string * module)) : list (string * module) :=
    match l with [] => [] | (n, c) :: l => if existsb (Nat.eqb (m_id c)) memo then children_from memo l else (n, c) :: children_from (m_id c :: memo) l end.
  Definition named_children (m : module) := let (_, _, _, _, c) := m in children_from [] c.
  (** named_parameters, 181-201; the recursion over named_children is written out *)
  Fixpoint named_parameters (prefix : option string) (m : module) : list (string * nat) :=
    match m with
    | Mod _ _ params _ children =>
        map (fun p => (match prefix with None => fst p | Some pre => (pre ++ "." ++ fst p)%string end, snd p)) params ++
        (fix go memo l := match l with
                          | [] => []
                          | (n, c) :: l => if existsb (Nat.eqb (m_id c)) memo then go memo l
                                           else (named_parameters (Some (match prefix with None => n | Some pre => (pre ++ "." ++ n)%string end)) c ++ go (m_id c :: memo) l)%list
                          end) [] children
    end%list.
  (** dictionaries *)
  Fixpoint get {A} (k : string) (l : list (string * A)) : option A := match l with [] => None | (i, a) :: l => if String.eqb i k then Some a else get k l end.
  Fixpoint put {A} (k : string) (a : A) (l : list (string * A)) : list (string * A) := match l with [] => [(k, a)] | (i, b) :: l => if String.eqb i k then (k, a) :: l else (i, b) :: put k a l end.
  Definition puts {A} (new l : list (string * A)) : list (string * A) := fold_left (fun l p => put (fst p) (snd p) l) new l.
  (** _save_to_state_dict 202-215 and state_dict 217-235: the tensors as they are now *)
  Fixpoint state_dict (h : heap) (prefix : string) (m : module) (destination : list (string * tensor)) : list (string * tensor) :=
    match m with
    | Mod _ _ params buffers children =>
        let entries := map (fun p => (prefix ++ fst p, h (snd p))) in
        (fix go memo l destination := match l with
                          | [] => destination
                          | (n, c) :: l => if existsb (Nat.eqb (m_id c)) memo then go memo l destination
                                           else go (m_id c :: memo) l (state_dict h (prefix ++ n ++ ".") c destination)
                          end) [] children (puts (entries buffers) (puts (entries params) destination))
    end.

  Inductive error := ValueError | KeyError | AssertionError.
  (** one parameter, 259-277 *)
  Definition load_parameter (state : list (string * tensor)) (encrypted : bool) (key : string) (r : nat) (h : heap) : option error * heap :=
    match get key state with
    | None => (Some KeyError, h)
    | Some input => if list_eq_dec Nat.eq_dec (size input) (size (h r)) then
                      if Bool.eqb (encrypted_tensor input) encrypted then (None, write r (mkTensor (size (h r)) (encrypted_tensor (h r)) (value input)) h) else (Some AssertionError, h)
                    else (Some ValueError, h)
    end.
  Fixpoint load_parameters (state : list (string * tensor)) (encrypted : bool) (prefix : string) (local : list (string * nat)) (h : heap) : option error * heap :=
    match local with
    | [] => (None, h)
    | (name, r) :: local => match load_parameter state encrypted (prefix ++ name) r h with (Some e, h) => (Some e, h) | (None, h) => load_parameters state encrypted prefix local h end
    end.
  (** _load_from_state_dict_crypten, 237-277: the parameters of the module and all its descendants *)
  Definition load_module (state : list (string * tensor)) (strict : bool) (prefix : string) (m : module) (h : heap) : option error * heap :=
    let local := puts (named_parameters None m) [] in
    if strict && negb (forallb (fun p => match get (prefix ++ fst p) state with Some _ => true | None => false end) local) then (Some ValueError, h)
    else load_parameters state (m_encrypted m) prefix local h.
  Fixpoint load (state : list (string * tensor)) (strict : bool) (prefix : string) (m : module) (h : heap) : option error * heap :=
    match load_module state strict prefix m h with
    | (Some e, h) => (Some e, h)
    | (None, h) =>
        match m with
        | Mod _ _ _ _ children =>
            (fix go memo l h := match l with
                          | [] => (None, h)
                          | (n, c) :: l => if existsb (Nat.eqb (m_id c)) memo then go memo l h
                                           else match load state strict (prefix ++ n ++ ".") c h with (Some e, h) => (Some e, h) | (None, h) => go (m_id c :: memo) l h end
                          end) [] children h
        end
    end.
  (** load_state_dict, 279-310; [version]: the version in the dictionary's metadata, if any *)
  Definition load_state_dict (version : option nat) (state : list (string * tensor)) (strict : bool) (m : module) (h : heap) : option error * heap :=
    if strict && negb (match version with Some 1 => true | _ => false end) then (Some ValueError, h) else load state strict "" m h.
End State.
Arguments tensor : clear implicits. Arguments heap : clear implicits.

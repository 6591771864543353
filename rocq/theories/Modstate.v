(** The states of modules: encrypt, decrypt, train and eval, and the inverse deviation kept by batch normalisation.  crypten/nn/module.py:18-120, 178-196, 463-507, 990-992, 2905-2914. *)
Require Import List String Bool Arith.
Import ListNotations.
Open Scope string_scope.

Section States.
  (** contents of a tensor *)
  Variable V : Type.
  (** what decryption gives back for an encrypted tensor: the value rounded by the encoder *)
  Variable round : V -> V.
  (** [add(eps).sqrt().reciprocal()] of a torch tensor and [add(eps).inv_sqrt()] of an encrypted one *)
  Variables inv_std inv_std_enc : V -> V.

  (** An object as all parties see it.  A torch tensor is local: every party has its own.  An encrypted tensor is shared.  [Other]: anything else a buffer may hold, such as a shape *)
  Inductive content := Plain (v : nat -> V) | Encrypted (v : V) | Other.
  Record object := mkObject { held : content; requires_grad : bool }.
  (** [Fixed]: the classes Constant and ConstantOfShape, with their own encrypt.  [Norm]: the classes derived from _BatchNorm, with their own train *)
  Inductive kind := Ordinary | Fixed | Norm.
  (** _parameters, _buffers and _modules are dictionaries in order of insertion; entries of _modules that are None are left out *)
  Record mrec := mkM { class : kind; params : list (string * nat); buffers : list (string * nat); children : list nat; encrypted : bool; training : bool; inv_var : option content }.
  (** [objects] below [next] have been created *)
  Record world := mkW { objects : nat -> object; next : nat; mods : nat -> mrec }.

  Definition set_mod (m : nat) (r : mrec) (w : world) : world := mkW (objects w) (next w) (fun k => if Nat.eqb k m then r else mods w k).
  Definition set_object (i : nat) (o : object) (w : world) : world := mkW (fun k => if Nat.eqb k i then o else objects w k) (next w) (mods w).
  Definition create (o : object) (w : world) : nat * world := (next w, mkW (fun k => if Nat.eqb k (next w) then o else objects w k) (S (next w)) (mods w)).

  Definition bindo {A B} (x : option A) (f : A -> option B) : option B := match x with Some a => f a | None => None end.
  Fixpoint foldo {A} (f : A -> world -> option world) (l : list A) (w : world) : option world :=
    match l with [] => Some w | a :: l => bindo (f a w) (foldo f l) end.

  (** named_children, 75-89: each child once *)
  Fixpoint once (memo : list nat) (l : list nat) : list nat :=
    match l with [] => [] | c :: l => if existsb (Nat.eqb c) memo then once memo l else c :: once (c :: memo) l end.
  Definition kids (r : mrec) : list nat := once [] (children r).

  (** 475-487: [crypten.cryptensor(param, src=src)] takes the tensor of party [src] and raises on an encrypted tensor; [get_plain_text] does not exist on torch tensors *)
  Definition convert_param (mode : bool) (src : nat) (o : object) : option object :=
    match mode, held o with
    | true, Plain v => Some (mkObject (Encrypted (round (v src))) (requires_grad o))
    | false, Encrypted v => Some (mkObject (Plain (fun _ => v)) (requires_grad o))
    | _, _ => None
    end.
  (** 490-500; None: the buffer is not touched *)
  Definition convert_buffer (mode : bool) (src : nat) (o : object) : option object :=
    match held o with
    | Plain v => if mode then Some (mkObject (Encrypted (round (v src))) false) else None
    | Encrypted v => Some (mkObject (Plain (fun _ => v)) false)
    | Other => None
    end.
  (** the loops over named_parameters(recurse=False) and named_buffers(recurse=False), with [set_parameter] and [set_buffer] at the entry being visited *)
  Fixpoint convert_params (mode : bool) (src : nat) (l : list (string * nat)) (w : world) : option (list (string * nat) * world) :=
    match l with
    | [] => Some ([], w)
    | (name, i) :: l => bindo (convert_param mode src (objects w i)) (fun o => let (j, w) := create o w in
        bindo (convert_params mode src l w) (fun lw => Some ((name, j) :: fst lw, snd lw)))
    end.
  Fixpoint convert_buffers (mode : bool) (src : nat) (l : list (string * nat)) (w : world) : list (string * nat) * world :=
    match l with
    | [] => ([], w)
    | (name, i) :: l => match convert_buffer mode src (objects w i) with
                        | Some o => let (j, w) := create o w in let (l, w) := convert_buffers mode src l w in ((name, j) :: l, w)
                        | None => let (l, w) := convert_buffers mode src l w in ((name, i) :: l, w)
                        end
    end.
  (** 470-500: the module itself *)
  Definition convert_module (mode : bool) (src : nat) (m : nat) (w : world) : option world :=
    let r := mods w m in
    bindo (convert_params mode src (params r) w) (fun pw =>
    let (b, w) := convert_buffers mode src (buffers r) (snd pw) in
    Some (set_mod m (mkM (class r) (fst pw) b (children r) mode (training r) (inv_var r)) w)).

  (** _apply, 463-468.  The first argument of the recursive functions is the depth of the call stack left; None is an exception (RecursionError when it is used up) *)
  Fixpoint apply (depth : nat) (fn : nat -> world -> option world) (m : nat) (w : world) : option world :=
    match depth with O => None | S depth => bindo (foldo (apply depth fn) (kids (mods w m)) w) (fn m) end.
  (** encrypt, 470-503; 990-992 and 1026-1028 for constants *)
  Fixpoint encrypt (depth : nat) (mode : bool) (src : nat) (m : nat) (w : world) : option world :=
    match depth with
    | O => None
    | S depth =>
        let r := mods w m in
        match class r with
        | Fixed => Some (set_mod m (mkM (class r) (params r) (buffers r) (children r) mode (training r) (inv_var r)) w)
        | _ => if Bool.eqb mode (encrypted r) then Some w else bindo (convert_module mode src m w) (apply depth (encrypt depth mode src) m)
        end
    end.
  (** 505-507 *)
  Definition decrypt (depth : nat) (m : nat) (w : world) : option world := encrypt depth false 0 m w.

  (** parameters(), 165-196, without the names *)
  Fixpoint parameters (depth : nat) (m : nat) (w : world) : option (list nat) :=
    match depth with
    | O => None
    | S depth => bindo ((fix go l := match l with [] => Some [] | c :: l => bindo (parameters depth c w) (fun a => bindo (go l) (fun b => Some (a ++ b)%list)) end) (kids (mods w m)))
                       (fun below => Some (map snd (params (mods w m)) ++ below)%list)
    end.
  Definition set_requires_grad (mode : bool) (i : nat) (w : world) : world := set_object i (mkObject (held (objects w i)) mode) w.
  Fixpoint get (k : string) (l : list (string * nat)) : option nat := match l with [] => None | (i, a) :: l => if String.eqb i k then Some a else get k l end.
  (** _BatchNorm.train, 2908-2913 *)
  Definition frozen (mode : bool) (r : mrec) (w : world) : option (option content) :=
    if mode then Some None else
    bindo (get "running_var" (buffers r)) (fun i => match held (objects w i) with
      | Encrypted v => Some (Some (Encrypted (inv_std_enc v)))
      | Plain v => Some (Some (Plain (fun p => inv_std (v p))))
      | Other => None
      end).
  Definition set_training (mode : bool) (m : nat) (w : world) : world :=
    let r := mods w m in set_mod m (mkM (class r) (params r) (buffers r) (children r) (encrypted r) mode (inv_var r)) w.
  Definition set_inv_var (v : option content) (m : nat) (w : world) : world :=
    let r := mods w m in set_mod m (mkM (class r) (params r) (buffers r) (children r) (encrypted r) (training r) v) w.
  (** train, 52-61, and 2905-2914 *)
  Fixpoint train (depth : nat) (mode : bool) (m : nat) (w : world) : option world :=
    match depth with
    | O => None
    | S depth =>
        bindo (parameters (S depth) m w) (fun l =>
        let w := set_training mode m (fold_left (fun w i => set_requires_grad mode i w) l w) in
        bindo (foldo (train depth mode) (kids (mods w m)) w) (fun w =>
        match class (mods w m) with
        | Norm => bindo (frozen mode (mods w m) w) (fun v => Some (set_inv_var v m w))
        | _ => Some w
        end))
    end.
  Definition eval (depth : nat) (m : nat) (w : world) : option world := train depth false m w.
  (** calls on a model *)
  Inductive call := Encrypt (src : nat) | Decrypt | Train | Eval.
  Definition run_call (depth : nat) (m : nat) (c : call) (w : world) : option world :=
    match c with Encrypt src => encrypt depth true src m w | Decrypt => decrypt depth m w | Train => train depth true m w | Eval => eval depth m w end.
  Definition run_calls (depth : nat) (m : nat) (l : list call) (w : world) : option world := foldo (run_call depth m) l w.
End States.
Arguments Plain {V}. Arguments Encrypted {V}. Arguments Other {V}. Arguments mkObject {V}. Arguments mkM {V}. Arguments mkW {V}.
Arguments held {V}. Arguments requires_grad {V}. Arguments class {V}. Arguments params {V}. Arguments buffers {V}. Arguments children {V}. Arguments encrypted {V}. Arguments training {V}. Arguments inv_var {V}.
Arguments objects {V}. Arguments next {V}. Arguments mods {V}. Arguments kids {V}.

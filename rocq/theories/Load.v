(** Loading, saving and printing with several parties: crypten/__init__.py:286-436 and 514-576. *)
Require Import List ZArith Bool Arith String.
From Verif Require Import Ring64 Net.
Import ListNotations.

Section Load.
  (** elements of plaintext tensors, with the ring element that encodes them *)
  Context {E : Type} (zero : E) (encode : E -> Z).
  (** A torch.nn.Module: the classes of which it and its parts are, its parameters and its buffers (such as the running statistics of batch normalisation).  A tensor is its list of elements. *)
  Record module := mkModule { classes : list string; parameters : list (string * list E); buffers : list (string * list E) }.
  Inductive obj := Tensor (x : list E) | Module (m : module) | Int (z : Z) | Other (type_name : string).
  Definition type_name (o : obj) : string := match o with Tensor _ => "Tensor"%string | Module m => hd "Module"%string (classes m) | Int _ => "int"%string | Other n => n end.
  Inductive error :=
  | NotImplementedError | BadSrc | NotExactlyOne | LoadFailed | UnrecognizedType (name : string) | UnrecognizedFromSrc | CommError (e : Net.error) | AttributeError.
  (** what load_from_party returns: a share of an encrypted tensor, or a module as it is *)
  Inductive outcome := Share (s : list Z) | Plain (m : module) | Raised (e : error).
  Context {W V : Type}.
  Notation prog := (prog W V outcome).

  (** pickle.dumps and serial.restricted_loads with the given safe classes *)
  Context (dumps : obj -> list Z) (loads : list string -> list Z -> Net.error + obj).
  (** the arguments of one party: a file, by what load_closure makes of it (None: it raises); a preloaded object; model_class; and the classes that are safe at this party already *)
  Record args := mkArgs { file : option (option obj); preloaded : option obj; model_class : option string; safe : list string }.
  (** MPCTensor(result, src=src): the pseudo-random zero share of this party, and the encoded tensor at the source (arithmetic.py:101-109) *)
  Context (przs : nat -> list Z).
  Definition share (p : nat) (src : nat) (x : list E) : list Z := zipw (fun z e => if (p =? src)%nat then wadd z (encode e) else z) (przs p) x.
  (** 357-365: tensors are encrypted, modules are returned as they are; [result.src = src] fails for anything else *)
  Definition finish (p src : nat) (o : obj) : prog :=
    match o with Tensor x => Done (Share (share p src x)) | Module m => Done (Plain m) | _ => Done (Raised AttributeError) end.
  (** 336-345: result_zeros *)
  Definition zeroed (m : module) : module := mkModule (classes m) (map (fun nt => (fst nt, map (fun _ => zero) (snd nt))) (parameters m)) (buffers m).
  Definition failed (r : Net.error + option obj) (k : obj -> prog) : prog := match r with inl e => Done (Raised (CommError e)) | inr (Some o) => k o | inr None => Done (Raised AttributeError) end.
  Definition source (n p : nat) (o : obj) : prog :=
    match o with
    | Tensor x => broadcast_obj dumps (loads []) n p (Some (Tensor (map (fun _ => zero) x))) p (fun r => failed r (fun _ => finish p p o))
    | Module m => broadcast_obj dumps (loads []) n p (Some (Module (zeroed m))) p (fun r => failed r (fun _ => finish p p o))
    | _ => broadcast_obj dumps (loads []) n p (Some (Int (-1))) p (fun r => failed r (fun result => Done (Raised (UnrecognizedType (type_name result)))))
    end.
  (** 286-365; [n] parties, at party [p].  Not modelled: a [src] that is not an integer. *)
  Definition load_from_party (n p : nat) (encrypted : bool) (src : Z) (a : args) : prog :=
    if encrypted then Done (Raised NotImplementedError) else
    if negb ((0 <=? src) && (src <? Z.of_nat n))%Z then Done (Raised BadSrc) else
    if (Z.of_nat p =? src)%Z then
      match file a, preloaded a with
      | None, Some o => source n p o
      | Some (Some o), None => source n p o
      | Some None, None => Done (Raised LoadFailed)
      | _, _ => Done (Raised NotExactlyOne)
      end
    else
      let table := match model_class a with Some c => c :: safe a | None => safe a end in
      broadcast_obj dumps (loads table) n p None (Z.to_nat src) (fun r => failed r (fun result =>
        match result with Int (-1) => Done (Raised UnrecognizedFromSrc) | _ => finish p (Z.to_nat src) result end)).
End Load.
Arguments module : clear implicits. Arguments obj : clear implicits. Arguments outcome : clear implicits. Arguments args : clear implicits.

(** *** Saving, 392-436.  The world is a file system that all parties share, from names to contents; a party that fails ends with [None]. *)
Section Save.
  Context {C : Type}.
  Definition files := string -> option C.
  Notation prog := (prog files (option C) (option (option C))).
  Definition write (f : string) (c : C) : files -> files * option C := fun fs => (fun g => if String.eqb g f then Some c else fs g, None).
  Definition read (f : string) : files -> files * option C := fun fs => (fs, fs f).
  (** 392-417 *)
  Definition save_from_party (n p : nat) (encrypted : bool) (c : C) (f : string) (src : Z) (k : prog) : prog :=
    if encrypted then Done None else
    if negb ((0 <=? src) && (src <? Z.of_nat n))%Z then Done None else
    if (Z.of_nat p =? src)%Z then Act (write f c) (fun _ => barrier k) else barrier k.
  (** 420-436 *)
  Definition save (c : C) (f : string) (k : prog) : prog := Act (write f c) (fun _ => barrier k).
  (** 368-389, without [src] *)
  Definition load (f : string) : prog := Act (read f) (fun v => Done (Some v)).
End Save.
Arguments files : clear implicits.

(** *** Printing, 514-535.  The world is what has been printed, by whom. *)
Section Print.
  Context {L : Type}.
  Notation prog := (prog (list (nat * L)) unit unit).
  Definition put (p : nat) (l : L) : list (nat * L) -> list (nat * L) * unit := fun o => (o ++ [(p, l)], tt).
  Definition print_in_order (n p : nat) (l : L) (k : prog) : prog :=
    fold_right (fun i next => if (p =? i)%nat then Act (put p l) (fun _ => barrier next) else barrier next) k (seq 0 n).
  Definition print_to (dst : list nat) (p : nat) (l : L) (k : prog) : prog := if existsb (Nat.eqb p) dst then Act (put p l) (fun _ => k) else k.
End Print.

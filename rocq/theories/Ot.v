(** Base oblivious transfer, crypten/mpc/primitives/ot/baseOT.py. *)
Require Import ZArith List Zpow_facts.
Import ListNotations.
Open Scope Z_scope.

Section Ot.
  (** [sha256(str(x).encode("utf-8")).hexdigest()] as a list of code points *)
  Variable H : Z -> list Z.

  (** baseOT.py:29-31 *)
  Definition prime : Z := 631276824160446938136046282957027762913.
  Definition generator : Z := 3.
  (** Python's three-argument [pow] *)
  Definition pow3 (b e m : Z) : Z := Zpow_mod b e m.
  Definition inverse_generator : Z := pow3 generator (prime - 2) prime.

  (** string_xor, baseOT.py:33-38; strings are lists of code points *)
  Fixpoint string_xor (s t : list Z) : list Z :=
    match s, t with a :: s, b :: t => Z.lxor a b :: string_xor s t | _, _ => [] end.

  (** *** One message pair; [alpha] and [beta] are the draws of [random.randint(0, prime - 1)] *)
  (** the sender's first message, baseOT.py:54-60 *)
  Definition mask1 (alpha : Z) : Z := pow3 generator alpha prime.
  (** baseOT.py:68-75 *)
  Definition divider (alpha : Z) : Z := pow3 inverse_generator (alpha * alpha mod (prime - 1)) prime.
  (** the receiver's answer, baseOT.py:117-131 *)
  Definition choice_mask (beta : Z) (choice : bool) (m1 : Z) : Z :=
    let b := pow3 generator beta prime in if choice then (b * m1) mod prime else b.
  (** the two pads, baseOT.py:85-91 *)
  Definition key0 (alpha : Z) (cm : Z) : Z := pow3 cm alpha prime.
  Definition key1 (alpha : Z) (cm : Z) : Z := (key0 alpha cm * divider alpha) mod prime.
  (** the receiver's key, baseOT.py:137-143 *)
  Definition own_key (beta : Z) (m1 : Z) : Z := pow3 m1 beta prime.
  (** encryption with the length checks, baseOT.py:93-100; [None]: raising a string raises TypeError *)
  Definition encrypt (alpha cm : Z) (m0 m1 : list Z) : option (list Z * list Z) :=
    let pad0 := H (key0 alpha cm) in let pad1 := H (key1 alpha cm) in
    if Nat.ltb (length pad0) (length m0) then None
    else if Nat.ltb (length pad1) (length m1) then None
    else Some (string_xor pad0 m0, string_xor pad1 m1).
  (** baseOT.py:145-154 *)
  Definition decrypt (beta : Z) (choice : bool) (m1 : Z) (enc : list Z * list Z) : list Z :=
    string_xor (H (own_key beta m1)) (if choice then snd enc else fst enc).

  (** *** The whole exchange.  Each side's sends and receives come in the same order (baseOT.py:62-64/125, 133-135/79-81, 103-104/149-150),
      so message [i] of one side is received as message [i] of the other. *)
  Fixpoint sender_encrypts (alphas cms : list Z) (m0s m1s : list (list Z)) : option (list (list Z * list Z)) :=
    match alphas, cms, m0s, m1s with
    | a :: alphas, c :: cms, m0 :: m0s, m1 :: m1s =>
        match encrypt a c m0 m1 with
        | Some e => option_map (cons e) (sender_encrypts alphas cms m0s m1s)
        | None => None
        end
    | _, _, _, _ => Some []
    end.
  Fixpoint receiver_masks (betas : list Z) (choices : list bool) (m1s : list Z) : list Z :=
    match betas, choices, m1s with
    | b :: betas, c :: choices, m :: m1s => choice_mask b c m :: receiver_masks betas choices m1s
    | _, _, _ => []
    end.
  Fixpoint receiver_decrypts (betas : list Z) (choices : list bool) (m1s : list Z) (es : list (list Z * list Z)) : list (list Z) :=
    match betas, choices, m1s, es with
    | b :: betas, c :: choices, m :: m1s, e :: es => decrypt b c m e :: receiver_decrypts betas choices m1s es
    | _, _, _, _ => []
    end.
  (** [send(message0s, message1s)] at one party and [receive(choices)] at the other, for equally many pairs and choices; the result is what
      [receive] returns.  [None]: an exception at the sender (baseOT.py:48-49 or a message that is too long). *)
  Definition transfer (alphas betas : list Z) (m0s m1s : list (list Z)) (choices : list bool) : option (list (list Z)) :=
    if negb (Nat.eqb (length m0s) (length m1s)) then None
    else let masks := map mask1 alphas in
         let cms := receiver_masks betas choices masks in
         option_map (receiver_decrypts betas choices masks) (sender_encrypts alphas cms m0s m1s).
End Ot.

(** Theorems for C91. *)
Require Import String List ZArith Bool Arith Lia.
From Verif Require Import Ring64 Net Net_claims Load Load_claims.
Import ListNotations.
Open Scope nat_scope.

(** C91: a tensor that the source gives is shared: every run ends with a share at every party, and the shares add up to the encoded tensor; the others' shares do not depend on it, and neither do their arguments matter. *)
Theorem C91_tensor : forall (E : Type) (zero : E) (encode : E -> Z) (W V : Type) (dumps : obj E -> list Z) (loads : list string -> list Z -> Net.error + obj E) (przs : nat -> list Z) n src a x ch w, src < n -> gives (a src) (Tensor x) -> pickles dumps loads (message zero (Tensor x)) -> (forall p, p < n -> length (przs p) = length x) -> (forall i, zsum (map (fun p => nth i (przs p) 0%Z) (seq 0 n)) == 0) ->
  exists s : nat -> list Z, (forall t, ends (net n (fun p => load_from_party (W := W) (V := V) zero encode dumps loads przs n p false (Z.of_nat src) (a p)) ch w) t <-> t = net n (fun p => Done (Share (s p))) ch w) /\
    (forall i, i < length x -> zsum (map (fun p => nth i (s p) 0%Z) (seq 0 n)) == encode (nth i x zero)) /\ (forall p, p < n -> p <> src -> s p = przs p).
Proof. exact @k_C91_tensor. Qed.
Print Assumptions C91_tensor.
(** C91: a module that the source gives: the source gets it, and every other party that accepts its classes gets it with zero parameters, but with the source's buffers; the others raise, alone. *)
Theorem C91_module : forall (E : Type) (zero : E) (encode : E -> Z) (W V : Type) (dumps : obj E -> list Z) (loads : list string -> list Z -> Net.error + obj E) (przs : nat -> list Z) n src a m ch w, src < n -> gives (a src) (Module m) -> pickles dumps loads (message zero (Module m)) ->
  exists m', blank_module zero m m' /\ forall t, ends (net n (fun p => load_from_party (W := W) (V := V) zero encode dumps loads przs n p false (Z.of_nat src) (a p)) ch w) t <->
    t = net n (fun p => Done (if p =? src then Plain m else if accepts (a p) (Module m) then Plain m' else Raised (CommError Unpicklable))) ch w.
Proof. exact @k_C91_module. Qed.
Print Assumptions C91_module.
(** C91 refuted: what the source loaded is hidden.  Every other party that accepts the module's classes gets the source's buffers in plaintext. *)
Theorem C91_buffers_refuted : forall (E : Type) (zero : E) (encode : E -> Z) (W V : Type) (dumps : obj E -> list Z) (loads : list string -> list Z -> Net.error + obj E) (przs : nat -> list Z) n src a m ch w t p, src < n -> gives (a src) (Module m) -> pickles dumps loads (message zero (Module m)) -> p < n -> accepts (a p) (Module m) = true ->
  ends (net n (fun p => load_from_party (W := W) (V := V) zero encode dumps loads przs n p false (Z.of_nat src) (a p)) ch w) t -> exists m', nth_error (procs t) p = Some (Done (Plain m')) /\ buffers m' = buffers m.
Proof. exact @k_C91_buffers_refuted. Qed.
Print Assumptions C91_buffers_refuted.
(** C91: an object that is neither tensor nor module makes every party raise; but the source's message always names the type int. *)
Theorem C91_type : forall (E : Type) (zero : E) (encode : E -> Z) (W V : Type) (dumps : obj E -> list Z) (loads : list string -> list Z -> Net.error + obj E) (przs : nat -> list Z) n src a o ch w t, src < n -> gives (a src) o -> match o with Int _ | Other _ => True | _ => False end -> pickles dumps loads (Int (-1)) ->
  (ends (net n (fun p => load_from_party (W := W) (V := V) zero encode dumps loads przs n p false (Z.of_nat src) (a p)) ch w) t <-> t = net n (fun p => Done (Raised (if p =? src then UnrecognizedType "int" else UnrecognizedFromSrc))) ch w).
Proof. exact @k_C91_type. Qed.
Print Assumptions C91_type.
(** C91: with [encrypted], or a source that is not a party, every party raises at once. *)
Theorem C91_arguments : forall (E : Type) (zero : E) (encode : E -> Z) (W V : Type) (dumps : obj E -> list Z) (loads : list string -> list Z -> Net.error + obj E) (przs : nat -> list Z) n e src a ch w t, e = true \/ ~ (0 <= src < Z.of_nat n)%Z ->
  (ends (net n (fun p => load_from_party (W := W) (V := V) zero encode dumps loads przs n p e src (a p)) ch w) t <-> t = net n (fun p => Done (Raised (if e then NotImplementedError else BadSrc))) ch w).
Proof. exact @k_C91_arguments. Qed.
Print Assumptions C91_arguments.
(** C91 refuted: if the source fails before it broadcasts (both or none of f and preloaded, or a file that does not load), it raises alone and all other parties wait for ever. *)
Theorem C91_source_fails_refuted : forall (E : Type) (zero : E) (encode : E -> Z) (W V : Type) (dumps : obj E -> list Z) (loads : list string -> list Z -> Net.error + obj E) (przs : nat -> list Z) n src a ch w t, 2 <= n -> src < n -> ~ (exists o, gives (a src) o) ->
  ends (net n (fun p => load_from_party (W := W) (V := V) zero encode dumps loads przs n p false (Z.of_nat src) (a p)) ch w) t -> (exists e, nth_error (procs t) src = Some (Done (Raised e))) /\ forall p, p < n -> p <> src -> waits t p.
Proof. exact @k_C91_source_fails_refuted. Qed.
Print Assumptions C91_source_fails_refuted.
(** C91: what the source puts on the network depends on a tensor's size only, and on a module's classes, names, sizes and buffers only. *)
Theorem C91_transcript : forall (E : Type) (zero : E) (encode : E -> Z) (W V : Type) (dumps : obj E -> list Z) (loads : list string -> list Z -> Net.error + obj E) (przs : nat -> list Z) n src a a' o o' rs, src < n -> gives a o -> gives a' o' -> alike o o' -> words (load_from_party (W := W) (V := V) zero encode dumps loads przs n src false (Z.of_nat src) a) rs = words (load_from_party (W := W) (V := V) zero encode dumps loads przs n src false (Z.of_nat src) a') rs.
Proof. exact @k_C91_transcript. Qed.
Print Assumptions C91_transcript.
(** C91: after save_from_party every party that goes on finds the source's object in the file, whatever the others passed. *)
Theorem C91_save_from_party : forall (C : Type) n src (c : nat -> C) f (name : nat -> string) (K : nat -> prog (files C) (option C) (option (option C))) ch fs t, src < n -> name src = f ->
  exists fs', fs' f = Some (c src) /\ (forall g, g <> f -> fs' g = fs g) /\
    (ends (net n (fun p => save_from_party n p false (c p) (name p) (Z.of_nat src) (K p)) ch fs) t <-> ends (net n K ch fs') t).
Proof. exact @k_C91_save_from_party. Qed.
Print Assumptions C91_save_from_party.
(** C91: printing in order prints the lines of all parties in the order of their ranks, under every schedule. *)
Theorem C91_print_in_order : forall (L : Type) n (l : nat -> L) (K : nat -> prog (list (nat * L)) unit unit) ch out t, ends (net n (fun p => print_in_order n p (l p) (K p)) ch out) t <-> ends (net n K ch (out ++ map (fun p => (p, l p)) (seq 0 n))) t.
Proof. exact @k_C91_print_in_order. Qed.
Print Assumptions C91_print_in_order.
(** C91: crypten.save to a file of its own at every party, then crypten.load: every party gets its own share back. *)
Theorem C91_save : forall (C : Type) n (c : nat -> C) (f : nat -> string) ch fs t, (forall p q, p < n -> q < n -> f p = f q -> p = q) ->
  ends (net n (fun p => save (c p) (f p) (load (f p))) ch fs) t -> forall p, p < n -> nth_error (procs t) p = Some (Done (Some (Some (c p)))).
Proof. exact @k_C91_save. Qed.
Print Assumptions C91_save.
(** C91 refuted if they use the same file: which share is in it depends on the schedule, and a party may get the other's. *)
Theorem C91_save_shared_refuted : forall (C : Type) (c : nat -> C) f fs, exists t t', ends (net 2 (fun p => save (c p) f (load f)) (repeat [] 4) fs) t /\ ends (net 2 (fun p => save (c p) f (load f)) (repeat [] 4) fs) t' /\
  nth_error (procs t) 0 = Some (Done (Some (Some (c 0)))) /\ nth_error (procs t) 1 = Some (Done (Some (Some (c 0)))) /\ nth_error (procs t') 0 = Some (Done (Some (Some (c 1)))) /\ nth_error (procs t') 1 = Some (Done (Some (Some (c 1)))).
Proof. exact @k_C91_save_shared_refuted. Qed.
Print Assumptions C91_save_shared_refuted.
(** C91: printing to given parties prints the line of each of them once, in some order, and nothing else. *)
Theorem C91_print_to : forall (L : Type) n (l : nat -> L) dst ch out t, ends (net n (fun p => print_to dst p (l p) (Done tt)) ch out) t ->
  exists r, world t = out ++ map (fun p => (p, l p)) r /\ NoDup r /\ (forall p, In p r <-> p < n /\ In p dst) /\ procs t = map (fun _ => Done tt) (seq 0 n).
Proof. exact @k_C91_print_to. Qed.
Print Assumptions C91_print_to.

(** *** Cases *)
Open Scope string_scope.
Open Scope nat_scope.
Definition net_module : module Z := mkModule ["Net"; "Linear"] [("weight", [3; -4]%Z)] [("running_mean", [9]%Z)].
Definition hidden_module : module Z := mkModule ["Net"; "Linear"] [("weight", [0; 0]%Z)] [("running_mean", [9]%Z)].
Definition dumps2 (o : obj Z) : list Z := match o with Tensor _ => [200; 1]%Z | Module _ => [7]%Z | _ => [255]%Z end.
Definition loads2 (t : list string) (b : list Z) : Net.error + obj Z :=
  match b with
  | [200; 1]%Z => inr (Tensor [0; 0]%Z)
  | [7]%Z => if existsb (String.eqb "Net") t && existsb (String.eqb "Linear") t then inr (Module hidden_module) else inl Unpicklable
  | _ => inr (Int (-1))
  end.
Definition zeros2 (p : nat) : list Z := match p with O => [11; 12]%Z | _ => [-11; -12]%Z end.
Definition arguments2 (o : obj Z) (p : nat) : args Z := match p with O => mkArgs None None (Some "Net") ["Linear"] | _ => mkArgs None (Some o) None [] end.
Notation load2 o := (net 2 (fun p => load_from_party (W := unit) (V := unit) 0%Z (fun e => 65536 * e)%Z dumps2 loads2 zeros2 2 p false 1 (arguments2 o p)) (repeat [] 4) tt).
Example C91_tensor_case : gives (arguments2 (Tensor [5; -7]%Z) 1) (Tensor [5; -7]%Z) /\ pickles dumps2 loads2 (message 0%Z (Tensor [5; -7]%Z)) /\ (forall p, p < 2 -> length (zeros2 p) = 2) /\ zsum (map (fun p => nth 0 (zeros2 p) 0%Z) (seq 0 2)) = 0%Z /\
  run [None; None] (load2 (Tensor [5; -7]%Z)) = Some (net 2 (fun p => Done (Share (nth p [[11; 12]; [-11 + 5 * 65536; -12 - 7 * 65536]]%Z []))) (repeat [] 4) tt).
Proof. split; [now left|]. split; [split; [split; [repeat (apply Forall_cons; [lia|]); apply Forall_nil|reflexivity]|reflexivity]|]. split; [intros [|[|]] H; reflexivity|]. split; [reflexivity|vm_compute; reflexivity]. Qed.
Example C91_module_case : gives (arguments2 (Module net_module) 1) (Module net_module) /\ pickles dumps2 loads2 (message 0%Z (Module net_module)) /\ accepts (arguments2 (Module net_module) 0) (Module net_module) = true /\ blank_module 0%Z net_module hidden_module /\
  run [None; None] (load2 (Module net_module)) = Some (net 2 (fun p => Done (Plain (if p =? 1 then net_module else hidden_module))) (repeat [] 4) tt).
Proof.
  split; [now left|]. split; [split; [split; [repeat (apply Forall_cons; [lia|]); apply Forall_nil|reflexivity]|]|].
  - intros t. cbn [message dumps2 loads2 classes_in zeroed classes net_module forallb]. destruct (existsb (String.eqb "Net") t), (existsb (String.eqb "Linear") t); reflexivity.
  - split; [reflexivity|]. split; [|reflexivity]. split; [reflexivity|]. split; [reflexivity|]. repeat constructor.
Qed.
Example C91_type_case : gives (arguments2 (Other "dict") 1) (Other "dict") /\ pickles dumps2 loads2 (Int (-1)) /\ run [None; None] (load2 (Other "dict")) = Some (net 2 (fun p => Done (Raised (if p =? 1 then UnrecognizedType "int" else UnrecognizedFromSrc))) (repeat [] 4) tt).
Proof. split; [now left|]. split; [split; [split; [repeat (apply Forall_cons; [lia|]); apply Forall_nil|reflexivity]|reflexivity]|reflexivity]. Qed.
Example C91_source_fails_case : (~ exists o : obj Z, gives (mkArgs (Some (Some (Other "dict"))) (Some (Tensor [1]%Z)) None []) o) /\ (~ exists o : obj Z, gives (mkArgs (Some None) None None []) o) /\ ~ exists o : obj Z, gives (mkArgs None None None []) o.
Proof. repeat split; intros (o & [(A & B)|(A & B)]); discriminate. Qed.
Example C91_transcript_case : alike (Module net_module) (Module (mkModule ["Net"; "Linear"] [("weight", [8; 8]%Z)] [("running_mean", [9]%Z)])) /\ alike (Tensor [1; 2]%Z) (Tensor [3; 4]%Z) /\ ~ alike (Module net_module) (Module (mkModule ["Net"; "Linear"] [("weight", [3; -4]%Z)] [("running_mean", [10]%Z)])) /\
  words (load_from_party (W := unit) (V := unit) 0%Z (fun e => e) dumps2 loads2 zeros2 2 1 false 1 (arguments2 (Tensor [5; -7]%Z) 1)) [Nothing; Nothing] = [Said (Broadcast 1 (mkMsg Int32 [2]%Z)); Said (Broadcast 1 (mkMsg Int8 [-56; 1]%Z))].
Proof. repeat split. intros (_ & H & _). discriminate. Qed.
Example C91_print_case : run [Some 0; None; Some 1; None] (net 2 (fun p => print_in_order 2 p (nth p ["a"; "b"] "") (Done tt)) (repeat [] 4) []) = Some (net 2 (fun _ => Done tt) (repeat [] 4) [(0, "a"); (1, "b")]) /\ run [Some 1] (net 2 (fun p => print_in_order 2 p (nth p ["a"; "b"] "") (Done tt)) (repeat [] 4) []) = None /\
  run [Some 2; Some 0] (net 3 (fun p => print_to [0; 2] p (nth p ["a"; "b"; "c"] "") (Done tt)) (repeat [] 9) []) = Some (net 3 (fun _ => Done tt) (repeat [] 9) [(2, "c"); (0, "a")]).
Proof. repeat split. Qed.
Example C91_save_case : let final := run [Some 1; Some 0; None; Some 0; Some 1] (net 2 (fun p => save p (nth p ["f0"; "f1"] "") (load (nth p ["f0"; "f1"] ""))) (repeat [] 4) (fun _ => None)) in match final with Some t => procs t = [Done (Some (Some 0)); Done (Some (Some 1))] | None => False end.
Proof. reflexivity. Qed.

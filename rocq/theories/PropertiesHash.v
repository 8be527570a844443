(** C77: what is hashed.  [sip13] and [hashed_bytes] are the hasher of RustText, [decoded] is in
    SpecHash. *)
From Coq Require Import String.
From Verif Require Import Base Token Types Values Ast Env RustText RustInstance Resolve Eval Interpreter SpecCalls SpecHash HashProofs Concrete ConcreteSpecs.
Open Scope list_scope.

(** Seed and text can be read from the bytes that are hashed, for all seeds of 64 bits and
    texts of Unicode characters. *)
Theorem C77_bytes : forall seed x, (seed < 2 ^ 64)%N -> Forall is_char x -> decoded (hashed_bytes seed x) = Some (seed, x).
Proof. exact decoded_message. Qed.
Print Assumptions C77_bytes.
Theorem C77_different : forall seed seed' x y, (seed < 2 ^ 64)%N -> (seed' < 2 ^ 64)%N -> Forall is_char x -> Forall is_char y ->
  hashed_bytes seed x = hashed_bytes seed' y -> seed = seed' /\ x = y.
Proof. exact same_bytes. Qed.
Print Assumptions C77_different.

(** The hash has 64 bits. *)
Theorem C77_range : forall seed x, (hash64 rust seed x < 2 ^ 64)%N.
Proof. exact rust_range. Qed.
Print Assumptions C77_range.

(** Two calls of [hash] compose the same identifier, or the same string, exactly if SipHash
    collides on their bytes: nothing else of the values is lost but their spelling. *)
Theorem C77_names : forall seed seed' u v a b,
  hash_meaning rust seed u = Ok a -> hash_meaning rust seed' v = Ok b ->
  match u, v with VLitStr _ _, VLitStr _ _ => True | VLitStr _ _, _ | _, VLitStr _ _ => False | _, _ => True end ->
  let text v := match v with VLitStr x _ | VIdent x => x | _ => text_of rust v end in
  (a = b <-> sip13 (hashed_bytes seed (text u)) = sip13 (hashed_bytes seed' (text v))).
Proof. exact rust_names. Qed.
Print Assumptions C77_names.

(** [a = hash(é), b = hash(e), c = hash(é), d = hash("é")] *)
Example C77_example :
  hashed_bytes 258 [233; 8364; 128512]%N = [2; 1; 0; 0; 0; 0; 0; 0; 195; 169; 226; 130; 172; 240; 159; 152; 128; 255]%N /\
  make_substitutions rust (new_initialized rust 1 0) (spec_of
    [(txt "a", ECall 1 (txt "hash") [EValue 2 (VIdent [233%N])] None); (txt "b", ECall 3 (txt "hash") [id_ 4 "e"] None);
     (txt "c", ECall 5 (txt "hash") [EValue 6 (VIdent [233%N])] None); (txt "d", ECall 7 (txt "hash") [EValue 8 (VLitStr [233%N] [])] None)]) =
  Ok [(txt "a", VIdent (txt "__12311235523641519689")); (txt "b", VIdent (txt "__10086190428249551156"));
      (txt "c", VIdent (txt "__12311235523641519689")); (txt "d", VLitStr (txt "12311235523641519689") [])].
Proof. split; vm_compute; reflexivity. Qed.

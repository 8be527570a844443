(** C48: the built-in functions.  [call_meaning] and [functions] are in SpecFunctions. *)
From Coq Require Import String.
From Verif Require Import Base Token Types Values Ast Env Resolve Eval SpecElab SpecScope SpecCalls SpecFunctions FunctionProofs Concrete ConcreteSpecs.
Open Scope list_scope.

(** C48: a call with plain arguments, any number of them, of any function, known or not,
    means what the table says about the values of the arguments; errors and panics
    included. *)
Theorem C48_calls : forall O seed first_id pre a id name leaves raw bs c c',
  NoDup (item_ids (pre ++ [(a, ECall id name (plain leaves) raw)])) -> ~ In a (map fst pre) ->
  make_substitutions O (new_initialized O seed first_id) {| spec_items := pre; is_comma_used := c |} = Ok bs ->
  make_substitutions O (new_initialized O seed first_id) {| spec_items := pre ++ [(a, ECall id name (plain leaves) raw)]; is_comma_used := c' |} =
  let! v := call_meaning O seed name (option_map snd raw) (map (fun l => lookup_value bs (snd l)) leaves) in Ok (bs ++ [(a, v)]).
Proof. exact function_call. Qed.
Print Assumptions C48_calls.

(** [s = "aB", a = upper(s), b = to_ident(a), c = normalize2(std::vec), d = upper(1)] *)
Example C48_example :
  let s := (txt "s", EValue 0 (VLitStr (txt "aB") [])) in
  let a := (txt "a", ECall 1 (txt "upper") (plain [(2%N, VIdent (txt "s"))]) None) in
  let b := (txt "b", ECall 3 (txt "to_ident") (plain [(4%N, VIdent (txt "a"))]) None) in
  let c := (txt "c", ECall 5 (txt "normalize2") (plain [(6%N, VPath ([i "std"] ++ colons ++ [i "vec"]))]) None) in
  let d := (txt "d", ECall 7 (txt "upper") (plain [(8%N, VLitInt (txt "1") (txt "1"))]) None) in
  make_substitutions ascii env0 (spec_of [s; a; b; c]) =
    Ok [(txt "s", VLitStr (txt "aB") []); (txt "a", VLitStr (txt "AB") []); (txt "b", VIdent (txt "AB")); (txt "c", VIdent (txt "std_vec"))] /\
  make_substitutions ascii env0 (spec_of [s; a; b; c; d]) = Err (SignatureError (txt "upper")).
Proof. split; vm_compute; reflexivity. Qed.

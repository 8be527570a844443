(** C75: raw identifiers as arguments.  [raw_name] and [refuses_raw_names] are in SpecRawNames. *)
From Coq Require Import String.
From Verif Require Import Base Token Types Values Ast Env Eval Normalize SpecNormalize SpecElab SpecCalls SpecCasing SpecRawNames
  RawNameProofs Concrete ConcreteSpecs RustInstance.
Open Scope list_scope.

(** [a = upper(r#type)], [a = lower(r#type)] and [a = concat(x, r#type)] do not compose an
    identifier but make the macro panic. *)
Theorem C75_accepted_refuted : exists e,
  let run l := make_substitutions rust (new_initialized rust 1 0) (spec_of [(txt "a", l)]) in
  run e = Ok [(txt "a", VIdent (txt "r#type"))] /\
  run (ECall 1 (txt "upper") [e] None) = Panic PIdentNew /\ run (ECall 1 (txt "lower") [e] None) = Panic PIdentNew /\
  run (ECall 1 (txt "concat") [id_ 2 "x"; e] None) = Panic PIdentNew /\ run (ECall 1 (txt "concat") [e] None) = Panic PIdentNew.
Proof. exists (EValue 3 (VIdent (txt "r#type"))). repeat split; vm_compute; reflexivity. Qed.
Print Assumptions C75_accepted_refuted.

(** For every implementation of the external functions that refuses such names: *)
Theorem C75_cased : forall O seed first_id pre a id name lid v raw bs c c' x, refuses_raw_names O ->
  name = txt "upper" \/ name = txt "lower" -> lookup_value bs v = VIdent x -> raw_name x ->
  NoDup (item_ids (pre ++ [(a, ECall id name (plain [(lid, v)]) raw)])) -> ~ In a (map fst pre) ->
  make_substitutions O (new_initialized O seed first_id) {| spec_items := pre; is_comma_used := c |} = Ok bs ->
  make_substitutions O (new_initialized O seed first_id) {| spec_items := pre ++ [(a, ECall id name (plain [(lid, v)]) raw)]; is_comma_used := c' |} = Panic PIdentNew.
Proof. exact raw_name_cased. Qed.
Print Assumptions C75_cased.

Theorem C75_composed : forall O seed first_id pre a id leaves raw bs c c' l x, refuses_raw_names O ->
  map (fun p => lookup_value bs (snd p)) leaves = map VIdent l -> In x l -> raw_name x ->
  NoDup (item_ids (pre ++ [(a, ECall id (txt "concat") (plain leaves) raw)])) -> ~ In a (map fst pre) ->
  make_substitutions O (new_initialized O seed first_id) {| spec_items := pre; is_comma_used := c |} = Ok bs ->
  make_substitutions O (new_initialized O seed first_id) {| spec_items := pre ++ [(a, ECall id (txt "concat") (plain leaves) raw)]; is_comma_used := c' |} = Panic PIdentNew.
Proof. exact raw_name_composed. Qed.
Print Assumptions C75_composed.

Example C75_hypotheses : refuses_raw_names rust /\ raw_name (txt "r#type").
Proof. split; [exact rust_refuses|]. right. left. reflexivity. Qed.

(** The other conversions take the [r] for a word of its own. *)
Theorem C75_spellings : forall x,
  to_snake_case rust (txt "r#" ++ x) = txt "r" ++ match words x with [] => [] | _ => txt "_" ++ to_snake_case rust x end /\
  to_pascal_case rust (txt "r#" ++ x) = txt "R" ++ to_pascal_case rust x /\ to_camel_case rust (txt "r#" ++ x) = txt "r" ++ to_pascal_case rust x.
Proof. exact raw_name_spellings. Qed.
Print Assumptions C75_spellings.

(** [normalize] and [normalize2] make an underscore of the number sign, and drop one at the end
    as always. *)
Theorem C75_normalized : forall O x,
  is_alphanumeric O underscore = false -> is_numeric O underscore = false ->
  is_alphanumeric O 114%N = true -> is_numeric O 114%N = false -> is_alphanumeric O number_sign = false ->
  Forall (fun c => is_alphanumeric O c = true \/ c = underscore) x -> x <> [] ->
  fn_normalize O (txt "r#" ++ x) =
  match drop_last_separator (is_alphanumeric O) x with [] => txt "r" | y => txt "r_" ++ y end.
Proof. exact raw_name_normalized. Qed.
Print Assumptions C75_normalized.

(** [concat] with other kinds of arguments does not panic: the text is read as an identifier if
    the first is one, and otherwise the tokens are put together. *)
Theorem C75_mixed : forall O seed first_id pre a id leaves raw bs c c' vs x v,
  map (fun p => lookup_value bs (snd p)) leaves = vs -> In (VIdent x) vs -> In v vs -> (forall y, v <> VIdent y) ->
  NoDup (item_ids (pre ++ [(a, ECall id (txt "concat") (plain leaves) raw)])) -> ~ In a (map fst pre) ->
  make_substitutions O (new_initialized O seed first_id) {| spec_items := pre; is_comma_used := c |} = Ok bs ->
  make_substitutions O (new_initialized O seed first_id) {| spec_items := pre ++ [(a, ECall id (txt "concat") (plain leaves) raw)]; is_comma_used := c' |} =
  match vs with
  | VIdent _ :: _ => match parse_str_ident O (List.concat (map (text_of O) vs)) with
                     | Some y => Ok (bs ++ [(a, VIdent y)])
                     | None => Err EvalError
                     end
  | _ => Ok (bs ++ [(a, VTokens (List.concat (map to_tokens vs)))])
  end.
Proof. exact raw_name_mixed. Qed.
Print Assumptions C75_mixed.

(** [snake_case(r#type)] is [r_type], [pascal_case(r#type)] is [RType], [normalize2(r#type)] is
    [r_type]; but [concat(r#ty, 1)] is [r#ty1], for the text is read as an identifier when an
    argument is not one.  [concat(x, 1, r#type)] is an error. *)
Example C75_example :
  let run l := make_substitutions rust (new_initialized rust 1 0) (spec_of [(txt "a", l)]) in
  let name x := EValue 3 (VIdent (txt x)) in
  run (ECall 1 (txt "snake_case") [name "r#type"%string] None) = Ok [(txt "a", VIdent (txt "r_type"))] /\
  run (ECall 1 (txt "pascal_case") [name "r#type"%string] None) = Ok [(txt "a", VIdent (txt "RType"))] /\
  run (ECall 1 (txt "normalize2") [name "r#type"%string] None) = Ok [(txt "a", VIdent (txt "r_type"))] /\
  run (ECall 1 (txt "concat") [name "r#ty"%string; EValue 4 (VLitInt (txt "1") (txt "1"))] None) = Ok [(txt "a", VIdent (txt "r#ty1"))] /\
  run (ECall 1 (txt "concat") [name "x"%string; EValue 4 (VLitInt (txt "1") (txt "1")); EValue 5 (VIdent (txt "r#type"))] None) = Err EvalError /\
  run (ECall 1 (txt "concat") [EValue 4 (VLitInt (txt "1") (txt "1")); name "r#ty"%string] None) = Ok [(txt "a", VTokens [TLit (LInt (txt "1") (txt "1")); TIdent (txt "r#ty")])] /\
  run (ECall 1 (txt "normalize2") [name "r#a__"%string] None) = Ok [(txt "a", VIdent (txt "r_a_"))] /\
  run (ECall 1 (txt "to_ident") [EValue 4 (VLitStr (txt "r#type") [])] None) = Ok [(txt "a", VIdent (txt "r#type"))].
Proof. repeat split; vm_compute; reflexivity. Qed.

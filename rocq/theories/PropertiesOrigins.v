(** C80: where the identifiers of the generated code come from.  [names] (the identifiers of
    some tokens at every depth), [keeps_names], [composed], [warning_words] and [plain_values]
    are in SpecOrigins. *)
From Coq Require Import String.
From Verif Require Import Base Token Types Values Ast Env Item Deprecation Interpreter Parse Macro SpecParse
  SpecItem SpecDeprecation SpecMacro SpecOrigins OriginProofs RustOrigins
  Concrete ConcreteSpecs ConcreteRuns ConcreteParse RustGrammar RustLexer RustInstance.
Open Scope list_scope.

(** Every identifier was in the source, is one that [Ident::new] or [parse_str] accepted, or is
    a word of a deprecation attribute; the last only if a warning was raised. *)
Theorem C80_origins : forall O P Y uses i u ast ts, faithful O (reparse Y) -> covers Y -> keeps_names O P -> nth_error uses i = Some u ->
  p_ast (inv_parsed (invocation_for O P u)) = Ok (Some ast) ->
  nth_error (expand_uses O P Y uses) i = Some (Code ts) ->
  forall x, In x (names ts) ->
    In x (source_names (u_source u)) \/ composed O x \/ (raised (invocation_for O P u) <> [] /\ In x warning_words).
Proof. exact use_origins. Qed.
Print Assumptions C80_origins.

(** So whatever holds of these three kinds of identifiers holds of all the generated ones. *)
Theorem C80_invariant : forall O P Y uses i u ast ts (Q : str -> Prop), faithful O (reparse Y) -> covers Y -> keeps_names O P -> nth_error uses i = Some u ->
  p_ast (inv_parsed (invocation_for O P u)) = Ok (Some ast) ->
  nth_error (expand_uses O P Y uses) i = Some (Code ts) ->
  (forall x, In x (source_names (u_source u)) -> Q x) -> (forall x, composed O x -> Q x) -> (forall x, In x warning_words -> Q x) ->
  forall x, In x (names ts) -> Q x.
Proof. exact use_valid. Qed.
Print Assumptions C80_invariant.

(** Without calls and warnings there are no new identifiers at all. *)
Theorem C80_no_calls : forall O P Y uses i u ast ts, faithful O (reparse Y) -> covers Y -> keeps_names O P -> nth_error uses i = Some u ->
  p_ast (inv_parsed (invocation_for O P u)) = Ok (Some ast) ->
  plain_values ast -> raised (invocation_for O P u) = [] ->
  nth_error (expand_uses O P Y uses) i = Some (Code ts) -> incl (names ts) (source_names (u_source u)).
Proof. exact use_no_calls. Qed.
Print Assumptions C80_no_calls.

(** Both instances, also the one with the grammar of Rust, keep identifiers. *)
Theorem C80_instances : keeps_names ascii ascii_parsers /\ keeps_names rust rust_parsers.
Proof. exact (conj ascii_keeps_names rust_keeps_names). Qed.
Print Assumptions C80_instances.

(** One use of each kind: [xy] and [X] come from calls, the rest from the source; the old name
    of the macro and the semicolon add the words of a warning; plain values add nothing. *)
Example C80_example :
  let called := use_of (Compose [i "a"; p1 "="; i "concat"; paren [i "x"; p1 ","; i "y"]; p1 ","; brace (fn_named "a" ++ fn_named "z")]) in
  let warned := use_of (ComposeIdents [i "a"; p1 "="; i "upper"; paren [i "x"]; p1 ";"; brace (fn_named "a")]) in
  let plain := use_of (Compose [i "for"; i "a"; i "in"; bracket [i "x"; p1 ","; i "y"]; brace (fn_named "a")]) in
  map (fun o => match o with Code ts => Some (names ts) | _ => None end) (expand_uses ascii ascii_parsers syntax0 [called; warned; plain]) =
    [Some (map txt ["fn"; "xy"; "fn"; "z"]%string);
     Some (map txt ["deprecated"; "since"; "note"; "fn"; "X"]%string);
     Some (map txt ["fn"; "x"; "fn"; "y"]%string)] /\
  map (fun u => existsb (str_eqb (txt "xy")) (source_names (u_source u))) [called; warned; plain] = [false; false; false] /\
  ident_ok ascii (txt "xy") = true /\
  map (fun u => List.length (raised (invocation_for ascii ascii_parsers u))) [called; warned; plain] = [0; 1; 0] /\
  match p_ast (inv_parsed (invocation_for ascii ascii_parsers plain)) with
  | Ok (Some ast) => plain_values ast /\ ast_aliases ast = [txt "a"]
  | _ => False
  end.
Proof.
  intros called warned plain. split; [vm_compute; reflexivity|]. split; [vm_compute; reflexivity|]. split; [vm_compute; reflexivity|].
  split; [vm_compute; reflexivity|].
  assert (E : exists ast, p_ast (inv_parsed (invocation_for ascii ascii_parsers plain)) = Ok (Some ast) /\ ast_aliases ast = [txt "a"] /\
    forallb (fun e => match e with EValue _ _ => true | _ => false end) (ast_exprs ast) = true).
  { eexists. split; [vm_compute; reflexivity|]. split; vm_compute; reflexivity. }
  destruct E as (ast & -> & E1 & E2). split; [|exact E1]. intros e He. rewrite forallb_forall in E2. specialize (E2 e He).
  destruct e; [eauto|discriminate].
Qed.

(** Aliases that are keywords of an item make no difference: the keyword is one of the source. *)
Example C80_keywords :
  let u := use_of (Compose (lex "union = a, { union U { x: union } }")) in
  map (fun o => match o with Code ts => Some (names ts) | _ => None end) (expand_uses rust rust_parsers rust_syntax [u]) =
    [Some (map txt ["union"; "U"; "x"; "a"]%string)].
Proof. vm_compute. reflexivity. Qed.

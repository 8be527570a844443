(** C60: the texts of the errors. *)
From Coq Require Import String.
From Verif Require Import Base Token Types Values Ast Env FormatString Messages Failures SpecElab SpecScope ElabProofs Concrete ConcreteSpecs
  SpanTokens SpanWalker SpecSpans SpanValues SpanEval SpecSpanEval SpanEvalProofs SpanInstance FailureProofs.
Open Scope list_scope.

(** C60: what is said of definitions that fail, and where: a redefinition names the alias; a
    call that fits no overload shows all overloads and the definition; a concatenation shows
    texts that make no identifier; a conversion names the type of the tokens and why they
    are not of it.  No other failure occurs: no error of substitution, no internal error, and
    no failing conversion but those of the functions [to_*]. *)
Theorem C60_definitions : forall O SO seed n, spanless O SO -> inherited SO -> forall items er s,
  NoDup (item_ids (erase_spec items)) ->
  smake_substitutions O SO (new_initialized O seed n) items = SErr er s ->
  error_report O SO (new_initialized O seed n) items er s.
Proof. exact smake_substitutions_report. Qed.
Print Assumptions C60_definitions.

(** C60: the texts of errors of resolution are those of C49. *)
Theorem C60_resolution : forall O SO seed n, spanless O SO -> inherited SO -> forall items er s,
  NoDup (item_ids (erase_spec items)) ->
  smake_substitutions O SO (new_initialized O seed n) items = SErr er s ->
  exists pre name e post, items = pre ++ (name, e) :: post /\
    forall m, resolve_message O (new_initialized O seed n) (erase_expr e) (class er) = Some m -> message er = m.
Proof. exact report_known. Qed.
Print Assumptions C60_resolution.

(** C60: a message starts with the kind of the error. *)
Theorem C60_kind : forall f, exists rest, message f = kind_name (class f) ++ txt ": " ++ rest.
Proof. exact kind_prefix. Qed.
Print Assumptions C60_kind.

(** C60: so the kind can be read from the message. *)
Theorem C60_kind_recoverable : forall f g, message f = message g -> kind_name (class f) = kind_name (class g).
Proof. exact kind_recoverable. Qed.
Print Assumptions C60_kind_recoverable.

(** C60: and the name redefined. *)
Theorem C60_redefined : forall x y, message (FRedefined x) = message (FRedefined y) -> x = y.
Proof. exact redefined_recoverable. Qed.
Print Assumptions C60_redefined.

(** C60: and the function that does not exist. *)
Theorem C60_undefined : forall x y, message (FUndefined x) = message (FUndefined y) -> x = y.
Proof. exact undefined_recoverable. Qed.
Print Assumptions C60_undefined.

(** The errors of C58_example with their texts, and a string that is no identifier. *)
Example C60_example :
  let make items := match smake_substitutions ascii (dressed ascii) env0 items with SErr er s => Some (message er, s) | _ => None end in
  make [(txt "a", sid 1 "x" 1); (txt "a", sid 2 "y" 4)] =
    Some (txt "RedefinedNameError: name a has already been defined", 4%N) /\
  make [(txt "a", scall 1 "normalize" 2 [sid 2 "x" 3; scall 3 "lower" 4 [sint 4 "1" 5]])] =
    Some (txt "SignatureError: function normalize(raw) -> ident has been called with incompatible arguments: normalize(x, lower(1))", 2%N) /\
  make [(txt "a", scall 1 "f" 2 [])] =
    Some (txt "UndefinedFunctionError: function ""f(...)"" is undefined", 2%N) /\
  make [(txt "a", scall 1 "upper" 2 [scall 2 "concat" 3 [sid 3 "x" 4; sstr 4 "-" 5]])] =
    Some (txt "EvalError: Failed to produce a valid identifier from concatenated arguments: x, ""-""", 3%N) /\
  make [(txt "a", scall 1 "to_path" 2 [sint 2 "1" 3])] =
    Some (txt "TypeError: Unable to cast Tokens to Path: unexpected token", 3%N) /\
  make [(txt "a", scall 1 "to_ident" 2 [sstr 2 "-" 3])] =
    Some (txt "TypeError: Unable to cast LitStr to Ident: expected identifier", 0%N).
Proof. cbv zeta. repeat split; vm_compute; reflexivity. Qed.

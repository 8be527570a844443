(** C49: which definition an error is about.  C50: what its text says. *)
From Coq Require Import String.
From Verif Require Import Base Token Types Values Ast Env Resolve Eval SpecElab SpecCalls Messages SpecMessages MessageProofs MessageCalls Concrete ConcreteSpecs.
Open Scope list_scope.

(** Every error of name or overload resolution is about the first definition that deserves
    one, and names the function called outermost there: errors inside arguments never get
    out. *)
Theorem C49_blame : forall O seed first items c er, NoDup (item_ids items) ->
  make_substitutions O (new_initialized O seed first) {| spec_items := items; is_comma_used := c |} = Err er -> is_refusal er = true ->
  exists pre a e post, items = pre ++ (a, e) :: post /\
    (forall c', ~ refused (make_substitutions O (new_initialized O seed first) {| spec_items := pre; is_comma_used := c' |})) /\
    at_fault (has_func (new_initialized O seed first)) (map fst pre) a e er.
Proof. exact blamed. Qed.
Print Assumptions C49_blame.

(** Adding definitions after the one that is refused changes nothing, whatever they are... *)
Theorem C49_refusals_first : forall O seed first pre post c c' er, NoDup (item_ids (pre ++ post)) ->
  make_substitutions O (new_initialized O seed first) {| spec_items := pre; is_comma_used := c |} = Err er -> is_refusal er = true ->
  make_substitutions O (new_initialized O seed first) {| spec_items := pre ++ post; is_comma_used := c' |} = Err er.
Proof. exact refusals_first. Qed.
Print Assumptions C49_refusals_first.

(** ... but an error or panic of evaluation, wherever it happens, is seen only if no
    definition at all is refused. *)
Theorem C49_evaluation_last : forall O seed first pre post c c', NoDup (item_ids (pre ++ post)) ->
  ~ refused (make_substitutions O (new_initialized O seed first) {| spec_items := pre ++ post; is_comma_used := c' |}) ->
  ~ refused (make_substitutions O (new_initialized O seed first) {| spec_items := pre; is_comma_used := c |}).
Proof. exact evaluated_last. Qed.
Print Assumptions C49_evaluation_last.

(** [a = to_ident("1+"), b = upper(1)]: the first fails to evaluate but the second is
    reported; [c = upper(concat(lower(1), x))]: nested errors are reported for [upper];
    [b = upper(missing(x))], were it a call: also [upper]. *)
Example C49_blame_example :
  let a := (txt "a", ECall 0 (txt "to_ident") [EValue 1 (VLitStr (txt "1+") [])] None) in
  let b := (txt "b", ECall 2 (txt "upper") [EValue 3 (VLitInt (txt "1") (txt "1"))] None) in
  let c := (txt "c", ECall 4 (txt "upper") [ECall 5 (txt "missing") [] None] None) in
  make_substitutions ascii env0 (spec_of [a]) = Err TypeError /\
  make_substitutions ascii env0 (spec_of [a; b]) = Err (SignatureError (txt "upper")) /\
  make_substitutions ascii env0 (spec_of [a; b; a]) = Err (SignatureError (txt "upper")) /\
  make_substitutions ascii env0 (spec_of [a; a]) = Err (RedefinedNameError (txt "a")) /\
  make_substitutions ascii env0 (spec_of [c]) = Err (SignatureError (txt "upper")).
Proof. repeat split; vm_compute; reflexivity. Qed.

(** The texts of types are different for different types. *)
Theorem C50_type_texts : forall t t', ty_display t = ty_display t' -> t = t'.
Proof. exact display_inj. Qed.
Print Assumptions C50_type_texts.

(** The text of a signature determines name, parameters and result, for any function whose
    name contains no parenthesis... *)
Theorem C50_signatures : forall f f', ~ In 40%N (f_name f) -> ~ In 40%N (f_name f') -> signature f = signature f' -> shown f = shown f'.
Proof. exact signature_shown. Qed.
Print Assumptions C50_signatures.

(** ... and the list of overloads in a message determines all overloads, in order. *)
Theorem C50_overloads : forall env env' n n' fs fs', get_func_variants env n = Some fs -> get_func_variants env' n' = Some fs' ->
  (forall f, In f (fs ++ fs') -> ~ In 40%N (f_name f) /\ ~ In 124%N (f_name f)) ->
  pretty_func_sig env n = pretty_func_sig env' n' -> map shown fs = map shown fs'.
Proof. exact pretty_inj. Qed.
Print Assumptions C50_overloads.

(** Every built-in function has its own name and meets the assertions of [Func::new]. *)
Theorem C50_table : forall O seed first n fs f, get_func_variants (new_initialized O seed first) n = Some fs -> In f fs ->
  f_name f = n /\ well_formed_params (f_arg_types f) = true.
Proof. exact table_well_formed. Qed.
Print Assumptions C50_table.

Example C50_text_example :
  pretty_func_sig env0 (txt "concat") = Some (txt "concat(ident...) -> ident | concat(ident, tokens...) -> ident | concat(str...) -> str | concat(int...) -> int | concat(tokens...) -> tokens") /\
  resolve_message ascii env0 (ECall 0 (txt "upper") [EValue 1 (VLitInt (txt "1") (txt "1")); EValue 2 (VIdent (txt "x"))] None) (SignatureError (txt "upper")) =
  Some (txt "SignatureError: function upper(str) -> str | upper(ident) -> ident has been called with incompatible arguments: upper(1, x)").
Proof. split; vm_compute; reflexivity. Qed.

(** The text of a call does not determine the call: strings are shown without escapes. *)
Theorem C50_quoted_call_refuted : exists e e', expr_display ascii e = expr_display ascii e' /\
  match e, e' with ECall _ _ args _, ECall _ _ args' _ => List.length args <> List.length args' | _, _ => False end.
Proof. exact quoting_ambiguous. Qed.
Print Assumptions C50_quoted_call_refuted.

(** It does when in everything shown parentheses match and strings end (which strings with
    quotes in them do not): two calls with the same text have the same name and show the same
    arguments.  Arguments that are calls are shown as calls are, so that this can be applied to
    them in turn. *)
Theorem C50_calls : forall O id n args raw id' n' args' raw',
  tidy O (ECall id n args raw) -> tidy O (ECall id' n' args' raw') ->
  expr_display O (ECall id n args raw) = expr_display O (ECall id' n' args' raw') ->
  n = n' /\ arg_texts O args raw = arg_texts O args' raw'.
Proof. exact call_texts. Qed.
Print Assumptions C50_calls.

(** The text of an argument is such a text again. *)
Theorem C50_shown : forall O e, tidy O e -> expr_display O e <> [] /\ closed false (expr_display O e).
Proof. exact tidy_display. Qed.
Print Assumptions C50_shown.

(** [f("a, (b", g(x, 1))] *)
Example C50_calls_example :
  let e := ECall 0 (txt "f") [EValue 1 (VLitStr (txt "a, (b") []); ECall 2 (txt "g") [EValue 3 (VIdent (txt "x")); EValue 4 (VLitInt (txt "1") (txt "1"))] None] None in
  tidy ascii e /\ expr_display ascii e = txt "f(""a, (b"", g(x, 1))".
Proof.
  assert (W : forall s, forallb (fun c => negb (existsb (N.eqb c) [34; 40; 41; 44]%N)) s = true -> Forall (fun c => ~ mark c) s).
  { intros s H. apply Forall_forall. intros c Hc [->|[->|[->| ->]]]; rewrite forallb_forall in H; apply H in Hc; discriminate. }
  split; [|reflexivity].
  assert (L : forall s, s <> [] -> Forall (fun c => ~ mark c) s -> tidy_text s) by (intros s H1 H2; split; [exact H1|apply closed_word, H2]).
  split; [apply W; reflexivity|]. split; [|split; [|exact I]].
  - split; [discriminate|]. apply (closed_quote _ (txt "a, (b") []); [cbn; intuition discriminate|apply closed_nil].
  - split; [apply W; reflexivity|]. split; [apply L; [discriminate|apply W; reflexivity]|]. split; [apply L; [discriminate|apply W; reflexivity]|exact I].
Qed.

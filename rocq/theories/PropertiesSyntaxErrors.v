(** C63: what is said of inputs that are rejected, and where. *)
From Coq Require Import String.
From Verif Require Import Base Token Types Values Ast Item Interpreter Parse Macro SpecParse SpecGrammar RustLexer RustInstance
  SpanTokens SpanValues SpanInstance SpanParse SpanMacro SpecSpanMacro SpecSyntaxErrors SpanDress SpanDressProofs SpanRust GrammarProofs SyntaxErrorProofs.
Open Scope string_scope.
Open Scope N_scope.
Open Scope list_scope.

(** C63: the messages that the relations give for an input are the messages it is rejected
    with, whatever was expanded before. *)
Theorem C63_said : forall O SO P SP SY, spanless_parsers P SP ->
  forall uses, Forall2 (fun u o => forall ms, input_error P SP (known O) (su_source u) ms -> o = SSyntaxError ms)
    uses (sexpand_uses O SO P SP SY uses).
Proof. exact errors_said. Qed.
Print Assumptions C63_said.

(** C63: there are no other syntax errors, but for tokens that are left unread inside a group,
    and of these one is reported. *)
Theorem C63_nothing_else : forall O SO P SP SY, spanless_parsers P SP ->
  forall uses, Forall2 (fun u o => forall ms, o = SSyntaxError ms ->
      input_error P SP (known O) (su_source u) ms \/ input_unread P (known O) (su_source u) /\ exists m, ms = [m])
    uses (sexpand_uses O SO P SP SY uses).
Proof. exact only_errors_said. Qed.
Print Assumptions C63_nothing_else.

Theorem C63_unread : forall O SO P SP SY, spanless_parsers P SP ->
  forall uses, Forall2 (fun u o => input_unread P (known O) (su_source u) -> exists m, o = SSyntaxError [m])
    uses (sexpand_uses O SO P SP SY uses).
Proof. exact unread_said. Qed.
Print Assumptions C63_unread.

(** C63: a macro that yields no code yields a [compile_error!], provided that syn has something
    to say of what is no block. *)
Theorem C63_never_silent : forall O SO P SP SY, spanless_parsers P SP ->
  forall uses, (forall ts, block_error SP ts <> []) ->
  Forall2 (fun u o => forall ts, emitted o = Some ts -> o = SCode ts \/ exists m r, ts = spelled m ++ r)
    uses (sexpand_uses O SO P SP SY uses).
Proof. exact never_silent. Qed.
Print Assumptions C63_never_silent.

(** The Rust instance meets the hypotheses. *)
Example C63_hypotheses : spanless_parsers rust_parsers (dressed_parsers rust_parsers) /\
  forall ts, block_error (dressed_parsers rust_parsers) ts <> [].
Proof. split; [apply dressed_spanless_parsers|discriminate]. Qed.

(** [a = x, b = upper(y); { }]: what the relation says, from its rules. *)
Example C63_mixed_rule :
  func_error rust_parsers (dressed_parsers rust_parsers) (known rust) (numbered_text 1 "a = x, b = upper(y); { }")
    [says 13%N (txt "Mixing "","" and "";"" as separators is not allowed")].
Proof.
  match goal with |- func_error _ _ _ ?t _ => let v := eval vm_compute in t in change t with v end.
  apply wrong_header. apply (wrong_definitions _ _ [] _ [] false).
  - apply no_loop. intros r H. discriminate.
  - eexists. eexists. split; reflexivity.
  - eapply (wrong_definition_later _ _ None true).
    + eapply (defined_intro _ _ _ _ _ _ _ _ 1); [reflexivity|reflexivity| |reflexivity]. apply reads_spec with (n := 0%N). vm_compute. reflexivity.
    + constructor.
    + left. reflexivity.
    + eexists. eexists. split; reflexivity.
    + match goal with |- definitions_error _ _ _ ?ts ?ms => change (definitions_error rust_parsers (known rust) (Some true) ts [mixed (skipn 5 ts)]) end.
      apply (mixed_separators _ _ false true) with (s := SPunct 59%N false 12%N); [|constructor|discriminate].
      eapply (defined_intro _ _ _ _ _ _ _ _ 2); [reflexivity|reflexivity| |reflexivity]. apply reads_spec with (n := 0%N). vm_compute. reflexivity.
Qed.

(** What is said of loops, ... *)
Example C63_loops : let said x := shown (placed (SCompose (numbered_text 1 x))) in
  said "for 1 in [p] { }" = [(txt "expected identifier", 2)] /\
  said "for fn in [p] { }" = [(txt "expected identifier, found keyword `fn`", 2)] /\
  said "for (x, 1) in [p] { }" =
    [(txt "Failed to parse loop alias (see errors below)", 2); (txt "expected identifier", 5); (txt "expected identifier", 2)] /\
  said "for (x y) in [p] { }" =
    [(txt "Failed to parse loop alias (see errors below)", 2); (txt "expected `,`", 4); (txt "expected identifier", 2)] /\
  said "for x of [p] { }" = [(txt "expected `in`", 3)] /\
  said "for x" = [(txt "unexpected end of input, expected `in`", call_site)] /\
  said "for x in p { }" = [(txt "expected square brackets", 4)] /\
  said "for x in [upper(p) q] { }" = [(txt "expected `,`", 10)] /\
  said "for x in [p] for" = [(txt "unexpected end of input, expected identifier", call_site)].
Proof. vm_compute. repeat split. Qed.
(** ... definitions, ... *)
Example C63_definitions : let said x := shown (placed (SCompose (numbered_text 1 x))) in
  said "a b" = [(txt "expected `=`", 2)] /\
  said "a" = [(txt "expected `=`", call_site)] /\
  said "a = upper(x) y, { }" =
    [(txt "Unable to parse any of the combined tokens (see the errors below)", 8); (txt "expected `,`", 8); (txt "expected `;`", 8)] /\
  said "a = x, b = upper(y); { }" = [(txt "Mixing "","" and "";"" as separators is not allowed", 13)] /\
  said "a = upper(x); b y" = [(txt "expected `=`", 10)].
Proof. vm_compute. repeat split. Qed.
(** ... and what is around them; of tokens left unread in a group, one. *)
Example C63_ends : let said x := shown (placed (SCompose (numbered_text 1 x))) in
  said "" = [(txt "unexpected end of input, expected curly braces", call_site)] /\
  said "a = x, fn" = [(txt "expected curly braces", 5)] /\
  said "a = x, { };" = [(txt "unexpected end of input, Mixing "","" and "";"" as separators is not allowed", call_site)] /\
  said "a = x, { } 1" = [(txt "unexpected token", 8)] /\
  said "a = x, { }, 1" = [(txt "unexpected token", 9)] /\
  map m_text (flat_map SpanMacro.said (placed (SCompose (numbered_text 1 "a = (x * 2), { }")))) = [txt "unexpected token"].
Proof. vm_compute. repeat split. Qed.
Example C63_attributes : let said x := shown (placed (SComposeItem (numbered_text 1 x) (numbered_text 100 "fn a() {}"))) in
  said "for x in [p]," = [(txt "Trailing separator after loops is not allowed in #[compose_item].", 8)] /\
  said "," = [(txt "unexpected token", 1)] /\
  said "a = x,, 1" = [(txt "unexpected token", 6)] /\
  said "a" = [(txt "expected `=`", call_site)].
Proof. vm_compute. repeat split. Qed.

(** C61-C62: the macros with spans, from the tokens given to the tokens returned. *)
From Coq Require Import String.
From Verif Require Import Base Token Types Values Ast Item Interpreter Parse Macro RustLexer RustInstance
  SpanTokens SpanValues SpanInstance SpanParse SpanMacro SpecSpanEval SpecSpanItem SpecSpanMacro SpanDeprecationProofs SpanParseProofs SpanMacroProofs SpanPlaces
  SpanDress SpanDressProofs SpanRust.
Open Scope list_scope.

(** ** C61: spans decide nothing *)
(** C61: without its spans, what the macros yield is what the macros without spans yield. *)
Theorem C61_without_spans : forall O SO P SP Y SY, spanless O SO -> spanless_parsers P SP -> spanless_syntax Y SY ->
  forall uses, map plain_output (sexpand_uses O SO P SP SY uses) = expand_uses O P Y (map plain_use uses).
Proof. exact uses_erase. Qed.
Print Assumptions C61_without_spans.

(** C61: inputs that differ in their spans only yield the same code up to spans, or errors of
    the same kind. *)
Theorem C61_same_tokens : forall O SO P SP Y SY, spanless O SO -> spanless_parsers P SP -> spanless_syntax Y SY ->
  forall uses uses', map plain_use uses = map plain_use uses' ->
  map plain_output (sexpand_uses O SO P SP SY uses) = map plain_output (sexpand_uses O SO P SP SY uses').
Proof. exact uses_same. Qed.
Print Assumptions C61_same_tokens.

(** The instance meets the hypotheses, whatever the plain parsers are. *)
Example C61_hypotheses : forall O P Y,
  spanless O (dressed O) /\ spanless_parsers P (dressed_parsers P) /\ spanless_syntax Y (dressed_syntax Y).
Proof. intros. split; [apply dressed_spanless|]. split; [apply dressed_spanless_parsers|apply dressed_spanless_syntax]. Qed.
(** [for x in [p, q], a = upper(x), { fn a() {} }], once with tokens at places of their own
    and once with all of them at the call site. *)
Example C61_example :
  let x := "for x in [p, q] a = upper(x), { fn a() {} }"%string in
  let outcome s := map plain_output (placed (SCompose s)) in
  outcome (numbered_text 1 x) = [Code (lex "fn P() {} fn Q() {}")] /\
  outcome (map placeless (lex x)) = [Code (lex "fn P() {} fn Q() {}")].
Proof. split; vm_compute; reflexivity. Qed.

(** ** C62: the compiler is given spans of the invocation *)
(** C62: every span of the code or of the [compile_error!]s that a use yields is in any set
    that has the spans of the tokens of that use and [call_site] and is closed under joining
    spans. *)
Theorem C62_provenance : forall O SO P SP SY, spanless O SO -> spanless_parsers P SP ->
  inherited SO -> inherited_parsers SO SP -> inherited_syntax SY ->
  forall uses, Forall2 (own_spans SO) uses (sexpand_uses O SO P SP SY uses).
Proof. exact uses_places. Qed.
Print Assumptions C62_provenance.

(** C62: where spans cannot be joined, it is the span of a token of that use or [call_site]. *)
Theorem C62_of_a_token : forall O SO P SP SY, spanless O SO -> spanless_parsers P SP ->
  inherited SO -> inherited_parsers SO SP -> inherited_syntax SY ->
  (forall a b s, join SO a b = Some s -> s = a \/ s = b) ->
  forall uses, Forall2 (fun u o => forall ts, emitted o = Some ts -> incl (spans ts) (call_site :: input_spans (su_source u)))
    uses (sexpand_uses O SO P SP SY uses).
Proof. exact uses_places_stable. Qed.
Print Assumptions C62_of_a_token.

(** The Rust instance meets the hypotheses. *)
Example C62_hypotheses :
  inherited (dressed rust) /\ inherited_parsers (dressed rust) (dressed_parsers rust_parsers) /\ inherited_syntax (dressed_syntax rust_syntax) /\
  forall a b s, join (dressed rust) a b = Some s -> s = a \/ s = b.
Proof.
  split; [exact rust_inherited|]. split; [exact rust_inherited_parsers|]. split; [apply dressed_inherited_syntax|].
  exact (dressed_joins rust).
Qed.
(** [a = concat(x, y), { fn a() { 1 } }]: the new name is at the call (3); [fn] (12) and [1]
    (18) are where they were; the delimiters have the spans of the groups. *)
Example C62_example :
  map emitted (placed (SCompose (numbered_text 1 "a = concat(x, y), { fn a() { 1 } }"))) =
  [Some [SIdent (txt "fn") 12; SIdent (txt "xy") 3;
         SGroup Paren [] {| ds_open := 16; ds_close := 16; ds_entire := 16 |};
         SGroup Brace [SLit (LInt (txt "1") (txt "1")) 18] {| ds_open := 20; ds_close := 20; ds_entire := 20 |}]]%N.
Proof. vm_compute. reflexivity. Qed.

(** The places in the compile tests. tests/compile/semicolon/mixed_separators.stderr: at the
    brace (25) after the semicolon. *)
Example C62_mixed_separators :
  shown (placed (SCompose (numbered_text 1
    "my_fn_1 = concat(foo, _, bar), my_fn_2 = concat(spam, _, eggs); { fn my_fn_1() -> u32 { 123 } fn my_fn_2() -> u32 { 321 } }"))) =
  [(txt "Mixing "","" and "";"" as separators is not allowed", 25%N)].
Proof. vm_compute. reflexivity. Qed.
(** tests/compile/compose_item/trailing_comma_after_loops.stderr: at the comma (10). *)
Example C62_trailing_comma :
  shown (placed (SComposeItem (numbered_text 1 "for name in [foo, bar],") (numbered_text 100 "fn name() {}"))) =
  [(txt "Trailing separator after loops is not allowed in #[compose_item].", 10%N)].
Proof. vm_compute. reflexivity. Qed.
(** tests/compile/error_reporting.stderr: at the alias (7) in the block. Syn's reason, here
    [expected identifier], is no part of the model. *)
Example C62_error_reporting : exists why,
  placed (SCompose (numbered_text 1 "my_fn = ""foo bar"", { fn my_fn() -> u32 { 42 } },")) =
  [SCompileError (Failures.FSubstitution (txt "my_fn") (txt """foo bar""") why) 7%N].
Proof. eexists. vm_compute. reflexivity. Qed.

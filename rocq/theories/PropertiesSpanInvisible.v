(** C86: spans together with invisible groups.  [sexpand_uses_through] is the model of the
    macros with spans on input with invisible groups; [sexpand_uses] is that for input without
    them, [expand_uses_through] the one without spans.  [source_visible] is in SpecInvisible,
    [spanless] and its like in SpecSpanEval and SpecSpanMacro, [own_spans] in SpecSpanMacro. *)
From Coq Require Import String.
From Verif Require Import Base Token Types Values Ast Item Interpreter Parse Macro RustLexer RustInstance InvisibleMacro SpecInvisible InvisibleInstance
  SpanTokens SpanValues SpanInstance SpanParse SpanMacro SpecSpanEval SpecSpanItem SpecSpanMacro SpanDeprecationProofs SpanParseProofs SpanMacroProofs SpanPlaces
  SpanDress SpanDressProofs SpanRust SpanInvisible SpanInvisibleMacro SpanInvisibleRun SpanInvisibleVisible SpanInvisibleInstance.
Open Scope list_scope.

(** C86: without the spans, what the macros yield is what the macros without spans yield for
    the same input with its invisible groups. *)
Theorem C86_without_spans : forall O SO P SP Y SY, spanless O SO -> spanless_parsers P SP -> spanless_syntax Y SY ->
  forall uses, map plain_output (sexpand_uses_through O SO P SP SY uses) = expand_uses_through O P Y (map plain_use uses).
Proof. exact through_uses_erase. Qed.
Print Assumptions C86_without_spans.

(** C86: inputs that differ in their spans only, those of invisible groups included, yield the
    same code up to spans, or errors of the same kind. *)
Theorem C86_same_tokens : forall O SO P SP Y SY, spanless O SO -> spanless_parsers P SP -> spanless_syntax Y SY ->
  forall uses uses', map plain_use uses = map plain_use uses' ->
  map plain_output (sexpand_uses_through O SO P SP SY uses) = map plain_output (sexpand_uses_through O SO P SP SY uses').
Proof. exact through_uses_same. Qed.
Print Assumptions C86_same_tokens.

(** C86: for input without invisible groups it is the model of C61-C65, spans, messages and
    all, whatever the other crates do. *)
Theorem C86_visible : forall O SO P SP SY uses, Forall (fun u => source_visible (erase_source (su_source u)) = true) uses ->
  sexpand_uses_through O SO P SP SY uses = sexpand_uses O SO P SP SY uses.
Proof. exact through_visible. Qed.
Print Assumptions C86_visible.

(** C86: every span of the code or of the [compile_error!]s that a use yields is in any set
    that has the spans of the tokens of that use, those of invisible groups included, and
    [call_site] and is closed under joining spans. *)
Theorem C86_provenance : forall O SO P SP SY, spanless O SO -> spanless_parsers P SP ->
  inherited SO -> inherited_parsers SO SP -> inherited_syntax SY ->
  forall uses, Forall2 (own_spans SO) uses (sexpand_uses_through O SO P SP SY uses).
Proof. exact through_places. Qed.
Print Assumptions C86_provenance.

(** C86: where spans cannot be joined, it is the span of a token of that use or [call_site]. *)
Theorem C86_of_a_token : forall O SO P SP SY, spanless O SO -> spanless_parsers P SP ->
  inherited SO -> inherited_parsers SO SP -> inherited_syntax SY ->
  (forall a b s, join SO a b = Some s -> s = a \/ s = b) ->
  forall uses, Forall2 (fun u o => forall ts, emitted o = Some ts -> incl (spans ts) (call_site :: input_spans (su_source u)))
    uses (sexpand_uses_through O SO P SP SY uses).
Proof. exact through_places_stable. Qed.
Print Assumptions C86_of_a_token.

(** The Rust instance that reads through invisible groups meets the hypotheses. *)
Example C86_hypotheses :
  let P := reading_through rust_parsers in let SP := sreading_through (dressed_parsers rust_parsers) in
  spanless rust (dressed rust) /\ spanless_parsers P SP /\ spanless_syntax rust_syntax (dressed_syntax rust_syntax) /\
  inherited (dressed rust) /\ inherited_parsers (dressed rust) SP /\ inherited_syntax (dressed_syntax rust_syntax) /\
  forall a b s, join (dressed rust) a b = Some s -> s = a \/ s = b.
Proof.
  split; [apply dressed_spanless|]. split; [apply through_spanless, dressed_spanless_parsers|]. split; [apply dressed_spanless_syntax|].
  split; [exact rust_inherited|]. split; [apply through_inherited, rust_inherited_parsers|]. split; [apply dressed_inherited_syntax|apply dressed_joins].
Qed.

(** [a = concat(«x», ««y»»), { fn «a»() {} }], the tokens and delimiters numbered from 1: the
    new name has the span of the call, 3. *)
Example C86_code :
  let ts := numbered_all (lex "a = concat" ++ [TGroup Paren ([h "x"] ++ lex "," ++ [hidden [h "y"]])] ++ lex "," ++
              [TGroup Brace (lex "fn" ++ [h "a"] ++ lex "() {}")]) 1 in
  source_visible (erase_source (SCompose ts)) = false /\
  placed_through (SCompose ts) = [SCode [SIdent (txt "fn") 21%N; SIdent (txt "xy") 3%N; SGroup Paren [] (single 28%N); SGroup Brace [] (single 31%N)]].
Proof. split; vm_compute; reflexivity. Qed.

(** Places of errors.  An error is reported where the parser stands, so at the opening of an
    invisible group: [a «x», {}], [«a» = «upper(1)», { fn a() {} }]; but a punctuation character
    that is not the one expected is reported itself: [a «+», {}]; and so is a token left at the
    end, [a = x, {} «» ««y»»], while empty invisible groups there are none. *)
Example C86_errors :
  let said ts := shown (placed_through (SCompose (numbered_all ts 1))) in
  said (lex "a" ++ [h "x"] ++ lex ", { }") = [(txt "expected `=`", 2%N)] /\
  said (lex "a" ++ [h "+"] ++ lex ", { }") = [(txt "expected `=`", 3%N)] /\
  map snd (said ([h "a"] ++ lex "=" ++ [h "upper(1)"] ++ lex ", { fn a() {} }")) = [6%N] /\
  said (lex "a = x, { }" ++ [hidden []; hidden [h "y"]]) = [(txt "unexpected token", 13%N)] /\
  said (lex "a = x, { }" ++ [hidden []; hidden [hidden []]]) = [].
Proof. repeat split; vm_compute; reflexivity. Qed.

(** Where a separator is looked for and is not there: two places for [a = upper(x) «» «+», {}],
    that where the parser stands and that of the plus sign, and one for [a = upper(x) «» «b», {}].
    Mixed separators are reported behind the second, whether in an invisible group or not. *)
Example C86_separators :
  let said ts := map snd (shown (placed_through (SCompose (numbered_all ts 1)))) in
  said (lex "a = upper(x)" ++ [hidden []; h "+"] ++ lex ", { }") = [8%N; 12%N; 12%N] /\
  said (lex "a = upper(x)" ++ [hidden []; h "b"] ++ lex ", { }") = [8%N; 8%N; 8%N] /\
  said (lex "a = upper(x); b = lower(y)" ++ [h ","] ++ lex "{ }") = [20%N] /\
  said (lex "for (x, y) in" ++ [TGroup Bracket (lex "(1, 2) " ++ [h "+"])] ++ lex "{ }") = [17%N] /\
  said (lex "for (x, y) in" ++ [TGroup Bracket (lex "(1, 2) " ++ [h "z"])] ++ lex "{ }") = [16%N] /\
  said (lex "for" ++ [h "(x, 1)"] ++ lex "in [(p, q)] { }") = [2%N; 6%N; 2%N].
Proof. repeat split; vm_compute; reflexivity. Qed.

(** What is reported of tuples in loops is where they begin, at the invisible group of
    [for (x, y) in [«(1, 2, 3)»] {}]. *)
Example C86_tuple :
  shown (placed_through (SCompose (numbered_all (lex "for (x, y) in" ++ [TGroup Bracket [hidden (lex "(1, 2, 3)")]] ++ lex "{ }") 1))) =
  [(txt "TypeError: Mismatched number of elements in the tuple", 10%N)].
Proof. vm_compute. reflexivity. Qed.

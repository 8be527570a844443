(** C88: what uses with invisible groups come to, with the spans: syntax errors, code, compile
    errors.  [sreadable], [sflat_use], [said_alike] and [same_sast] are in SpecSpanInvisible,
    [skept_code] in SpecSpanKeywords, [alike], [decorated] and [semicolons] in SpecSpanCode,
    [has_rounds] and [has_misfit] in SpecSpanUnroll, [macro_report] in SpecReports. *)
From Coq Require Import String.
From Verif Require Import Base Token Types Values Ast Env Item Deprecation Interpreter Parse Macro RustLexer RustInstance RustLaws SpecItem SpecMacro SpecDeprecation SpecParse
  InvisibleParse SpecInvisible InvisibleInstance Failures
  SpanTokens SpanWalker SpanValues SpanEval SpanItem SpanVisitor SpanDeprecation SpanParse SpanMacro SpecSpanEval SpecSpanItem SpecSpanMacro SpecSpanUnroll SpecSpanCode SpecSpanKeywords SpecReports
  SpanInstance SpanDress SpanDressProofs SpanDressPrint SpanRust SpanPlaces ReportProofs SpanInvisible SpanInvisibleMacro SpecSpanInvisible SpanInvisibleInstance SpanThrough SpanThroughRun.
Open Scope list_scope.

(** C88: a use is a syntax error exactly if it does not parse, and the messages are the
    parser's, whatever came of earlier uses. *)
Theorem C88_rejected : forall O SO P SP SY uses,
  Forall2 (fun u o => forall ms, o = SSyntaxError ms <-> sp_ast (sinv_parsed (sinvocation_through O P SP u)) = inr ms)
    uses (sexpand_uses_through O SO P SP SY uses).
Proof. exact through_rejected. Qed.
Print Assumptions C88_rejected.

(** C88: uses that can be read through their invisible groups are rejected exactly if they are
    without the groups, with the same messages; each at the same place, or at the opening of
    an invisible group. *)
Theorem C88_rejected_alike : forall O SO P SP SY uses, Forall (fun u => sreadable SP (su_source u)) uses ->
  Forall2 (fun u x => forall e, fst x = SSyntaxError e -> exists e', snd x = SSyntaxError e' /\ said_alike SP (su_source u) e e')
    uses (combine (sexpand_uses_through O SO P SP SY uses) (sexpand_uses O SO P SP SY (map sflat_use uses))) /\
  Forall2 (fun o o' => (exists e, o = SSyntaxError e) <-> exists e, o' = SSyntaxError e)
    (sexpand_uses_through O SO P SP SY uses) (sexpand_uses O SO P SP SY (map sflat_use uses)).
Proof. exact rejected_alike. Qed.
Print Assumptions C88_rejected_alike.

(** C88: and if they are not, what is read is the same but for invisible groups inside values
    and the beginnings of calls and tuples. *)
Theorem C88_read : forall O P SP u, sreadable SP (su_source u) -> forall a, sp_ast (sinv_parsed (sinvocation_through O P SP u)) = inl a ->
  exists b, sp_ast (sinv_parsed (sinvocation_for O P SP (sflat_use u))) = inl b /\ same_sast (source_part (su_source u)) a b.
Proof. exact through_read. Qed.
Print Assumptions C88_read.

(** C88: the code of a use is, of what was read, the block of each round with the tokens of the
    values in place of the aliases, token by token with the spans they were written with, the
    keywords of items as they are; semicolons have attributes put in at the call site. *)
Theorem C88_code : forall O SO P SP SY, spanless_parsers P SP -> sfaithful SO (snodes SY) -> scovers SY -> forall uses,
  Forall2 (fun u o => forall ast ts, o = SCode ts ->
    sp_ast (sinv_parsed (sinvocation_through O P SP u)) = inl ast ->
    exists rs codes mid, has_rounds ast rs /\
      Forall2 (fun items code => skept_code O SO (new_initialized O (su_seed u) (su_first_id u)) (sa_block ast) items = SOk code) rs codes /\
      alike mid (List.concat codes) /\
      ((semicolons ast /\ exists prefix, decorated (with_prefix prefix semicolon_warning) mid ts) \/ (~ semicolons ast /\ ts = mid)))
    uses (sexpand_uses_through O SO P SP SY uses).
Proof. exact through_code. Qed.
Print Assumptions C88_code.

(** C88: a value that does not fit the pattern of its loop is named where it begins. *)
Theorem C88_misfit : forall O SO P SP SY uses,
  Forall2 (fun u o => forall ast m s, sp_ast (sinv_parsed (sinvocation_through O P SP u)) = inl ast -> has_misfit SO ast m s ->
    o = SCompileError (FType m) s) uses (sexpand_uses_through O SO P SP SY uses).
Proof. exact through_misfit. Qed.
Print Assumptions C88_misfit.

(** C88: any compile error is such a misfit, or of the first round that fails, at one of its
    definitions or, if these have values, at an occurrence of an alias in the block. *)
Theorem C88_reports : forall O SO P SP SY, spanless_parsers P SP -> spanless O SO -> inherited SO -> inherited_names (snodes SY) ->
  forall uses, Forall2 (fun u o => forall f s, o = SCompileError f s ->
    exists ast t, sp_ast (sinv_parsed (sinvocation_through O P SP u)) = inl ast /\
      macro_report O SO SY (new_initialized O (su_seed u) (su_first_id u)) t ast f s) uses (sexpand_uses_through O SO P SP SY uses).
Proof. exact through_report. Qed.
Print Assumptions C88_reports.

(** The Rust instance that reads through invisible groups meets the hypotheses, for any use
    whose groups are neither empty nor hold commas. *)
Example C88_hypotheses :
  let P := reading_through rust_parsers in let SP := sreading_through (dressed_parsers rust_parsers) in
  spanless_parsers P SP /\ spanless rust (dressed rust) /\ inherited (dressed rust) /\ inherited_names (snodes (dressed_syntax rust_syntax)) /\
  sfaithful (dressed rust) (snodes (dressed_syntax rust_syntax)) /\ scovers (dressed_syntax rust_syntax) /\
  forall ts, all_fine (map erase ts) = true -> sreadable SP (SCompose ts).
Proof.
  split; [apply through_spanless, dressed_spanless_parsers|]. split; [apply dressed_spanless|]. split; [exact rust_inherited|]. split; [apply dressed_inherited_names|].
  split; [exact (dressed_faithful rust rust_syntax rust_faithful)|]. split; [exact (dressed_covers rust_syntax rust_covers)|].
  intros ts H. split; [exact H|]. intros l _. apply sinstance_transparent, rust_within.
Qed.

(** [for «x» in [«p», q] «a» = «concat(x, «_y»)», { pub «struct» «a»; }]: the code without the
    groups and with them differs in the span of the names, that of the call: 22 and 21. *)
Example C88_example :
  let ts := numbered_all (lex "for" ++ [h "x"] ++ lex "in" ++ [TGroup Bracket ([h "p"] ++ lex ", q")] ++
              [h "a"] ++ lex "=" ++ [hidden (lex "concat" ++ [TGroup Paren (lex "x ," ++ [h "_y"])])] ++ lex "," ++
              [TGroup Brace (lex "pub" ++ [h "struct"; h "a"] ++ lex ";")]) 1 in
  let code s := [SIdent (txt "pub") 36; SIdent (txt "struct") 38; SIdent (txt "p_y") s; SPunct 59 false 45;
                 SIdent (txt "pub") 36; SIdent (txt "struct") 38; SIdent (txt "q_y") s; SPunct 59 false 45]%N in
  all_fine (map erase ts) = true /\
  placed_through (SCompose ts) = [SCode (code 21%N)] /\ placed (SCompose (sflats ts)) = [SCode (code 22%N)].
Proof. repeat split; vm_compute; reflexivity. Qed.

(** A compile error and a misfit: [a = «upper(«1»)», {}] and [for (x, y) in [«z»] {}]. *)
Example C88_errors :
  let both ts := let ts := numbered_all ts 1 in (map snd (shown (placed_through (SCompose ts))), map snd (shown (placed (SCompose (sflats ts))))) in
  both (lex "a =" ++ [hidden (lex "upper" ++ [TGroup Paren [h "1"]])] ++ lex ", { fn a() {} }") = ([3%N], [4%N]) /\
  both (lex "for (x, y) in" ++ [TGroup Bracket [h "z"]] ++ lex "{ }") = ([11%N], [11%N]) /\
  both (lex "for (x, y) in" ++ [TGroup Bracket [h "(z)"]] ++ lex "{ }") = ([10%N], [11%N]).
Proof. repeat split; vm_compute; reflexivity. Qed.

(** C64-C65: loops with spans, and what is said of input that is read but fails. *)
From Coq Require Import String.
From Verif Require Import Base Token Types Values Ast Env Item Deprecation Interpreter Parse Macro SpecProduct SpecTuple RustLexer RustInstance Failures
  SpanTokens SpanWalker SpanValues SpanEval SpanInstance SpanItem SpanVisitor SpanParse SpanExpand SpanMacro SpecSpanEval SpecSpanMacro SpecSpanUnroll SpecReports
  SpanDress SpanDressProofs SpanRust SpanUnrollProofs ReportProofs.
Open Scope string_scope.
Open Scope N_scope.
Open Scope list_scope.

(** ** C64: loops *)
(** C64: an input with loops does what its rounds do, as inputs without loops: the same tokens
    with the same spans, and of errors the first, at the same place. *)
Theorem C64_rounds : forall O SO SY env t ast rs, has_rounds ast rs ->
  sexecute O SO SY env t ast =
  sin_sequence (map (fun items => sexecute O SO SY env t (sround_ast (sa_block ast) items)) rs).
Proof. exact sexecute_rounds. Qed.
Print Assumptions C64_rounds.

(** C64: unless a value does not fit the pattern of its loop; then nothing is generated, and
    the first such value is named. *)
Theorem C64_misfit : forall O SO P SP SY uses,
  Forall2 (fun u o => forall ast m s, sp_ast (sinv_parsed (sinvocation_for O P SP u)) = inl ast -> has_misfit SO ast m s ->
    o = SCompileError (FType m) s) uses (sexpand_uses O SO P SP SY uses).
Proof. exact uses_misfit. Qed.
Print Assumptions C64_misfit.

(** C64: it is one or the other. *)
Theorem C64_either : forall SO (B : Type) (ast : sraw_ast B),
  (exists rs, has_rounds ast rs) \/ exists m s, has_misfit SO ast m s.
Proof. exact @rounds_or. Qed.
Print Assumptions C64_either.
Theorem C64_not_both : forall SO (B : Type) (ast : sraw_ast B) rs m s, has_rounds ast rs -> has_misfit SO ast m s -> False.
Proof. exact @not_both. Qed.
Print Assumptions C64_not_both.

(** Tuples and values that do not fit, from the rules; of two misfits in one round, that of the
    outer loop. *)
Example C64_rules : forall a b x y,
  let pair := [TVValue a; TVValue b] in
  fits (LATuple pair) (SLSTuple 3 [TVValue x; TVValue y]) [(a, x); (b, y)] /\
  misfits (dressed rust) (LASimple a) (SLSTuple 3 [TVValue x]) (txt "Mismatched alias and value types") 3 /\
  misfits (dressed rust) (LATuple pair) (SLSTuple 3 [TVValue x]) (txt "Mismatched number of elements in the tuple") 3 /\
  misfits (dressed rust) (LATuple [TVValue a; TVTuple pair]) (SLSTuple 3 [TVTuple [TVValue x; TVValue y]; TVValue x])
    (txt "Shape of the value tuple doesn't match the shape of the alias tuple") 3 /\
  round_misfits (dressed rust) [{| sl_pattern := LASimple a; sl_values := [] |}; {| sl_pattern := LATuple pair; sl_values := [] |}]
    [SLSTuple 3 [TVValue x]; SLSTuple 9 [TVValue x]] (txt "Mismatched alias and value types") 3.
Proof.
  intros a b x y. cbv zeta. repeat split.
  - exact (fits_tuple [TVValue a; TVValue b] 3 [TVValue x; TVValue y] eq_refl).
  - apply tuple_for_alias.
  - apply other_number. discriminate.
  - apply other_shape; [reflexivity|discriminate].
  - apply misfits_here, tuple_for_alias.
Qed.
(** What is said of them. *)
Example C64_said : let said x := shown (placed (SCompose (numbered_text 1 x))) in
  said "for (a, b) in [(x, y), z] { fn a() {} }" = [(txt "TypeError: Mismatched alias and value types", 17)] /\
  said "for (a, b) in [(x, y), (z, (w, v))] { fn a() {} }" = [(txt "TypeError: Mismatched number of elements in the tuple", 17)] /\
  said "for (a, (b, c)) in [((x, y), z)] { fn a() {} }" =
    [(txt "TypeError: Shape of the value tuple doesn't match the shape of the alias tuple", 15)] /\
  said "for a in [x, (y, z)] { fn a() {} }" = [(txt "TypeError: Mismatched alias and value types", 7)] /\
  said "for a in [1] for (b, c) in [(p, q), r] { fn a() {} }" = [(txt "TypeError: Mismatched alias and value types", 24)].
Proof. vm_compute. repeat split. Qed.

(** ** C65: compile errors *)
(** C65: a compile error is a misfit, or else the first round that fails, at one of its
    definitions or, if these have values, at an occurrence of an alias in the block. *)
Theorem C65_reports : forall O SO P SP SY, spanless O SO -> spanless_parsers P SP -> inherited SO -> inherited_names (snodes SY) ->
  forall uses, Forall2 (fun u o => forall f s, o = SCompileError f s ->
    exists ast t, sp_ast (sinv_parsed (sinvocation_for O P SP u)) = inl ast /\
      macro_report O SO SY (new_initialized O (su_seed u) (su_first_id u)) t ast f s) uses (sexpand_uses O SO P SP SY uses).
Proof. exact uses_report. Qed.
Print Assumptions C65_reports.

(** C65: so the failure of a substitution names an alias of the round and shows its value. *)
Theorem C65_substitution : forall O SO SY, inherited_names (snodes SY) -> forall t block bs f s,
  ssubstitute O SO SY t block bs = SErr f s -> substitution_report O SO SY bs block f s.
Proof. exact substitute_report. Qed.
Print Assumptions C65_substitution.

(** The Rust instance meets the hypotheses. *)
Example C65_hypotheses : spanless rust (dressed rust) /\ spanless_parsers rust_parsers (dressed_parsers rust_parsers) /\
  inherited (dressed rust) /\ inherited_names (snodes (dressed_syntax rust_syntax)).
Proof.
  split; [apply dressed_spanless|]. split; [apply dressed_spanless_parsers|]. split; [exact rust_inherited|apply dressed_inherited_names].
Qed.
(** The second round fails, at the alias in the block; a definition that fails does so before
    any substitution, here at the value of the loop that it casts; no error in a round behind a failed one. *)
Example C65_said :
  (exists why, placed (SCompose (numbered_text 1 "for a in [x, 1] { fn f() {} fn a() {} }")) =
    [SCompileError (FSubstitution (txt "a") (txt "1") why) 20]) /\
  shown (placed (SCompose (numbered_text 1 "for a in [1, x] b = to_ident(a), { fn a() {} }"))) =
    [(txt "TypeError: Unable to cast Tokens to Ident: unexpected token", 5)] /\
  (exists why, placed (SCompose (numbered_text 1 "for a in [1, x] for c in [p, upper()] { fn a() {} }")) =
    [SCompileError (FSubstitution (txt "a") (txt "1") why) 24]).
Proof. split; [eexists; vm_compute; reflexivity|]. split; [vm_compute; reflexivity|eexists; vm_compute; reflexivity]. Qed.

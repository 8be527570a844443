(** C56-C58: the spans of the code generated and of the errors. *)
From Coq Require Import String.
From Verif Require Import Base Token Types Values Ast Env Eval SubstituteIdents SpecSubst SpecElab SpecScope Concrete ConcreteSpecs Failures
  SpanTokens SpanWalker SpecSpans SpanProofs SpanValues SpanEval SpecSpanEval SpanEvalProofs SpanInstance.
Open Scope list_scope.

(** ** C56: spans in substitution *)
(** C56: substitution succeeds with the substituted stream, whose tokens are the spanned
    specification's, exactly if the node parses after every replacement. *)
Theorem C56_result : forall O lookup salias (N : Type) (parse : list stt -> option N) (why : list stt -> str) ts n,
  ssubstitute_idents O lookup salias parse why ts = SOk n <->
  parse (ssubstituted O lookup salias ts) = Some n /\
  forall e, In e (ssubstitution_stages O lookup salias ts) -> parse (snd e) <> None.
Proof. exact @span_success. Qed.
Print Assumptions C56_result.

(** C56: an error is reported at the last alias replaced before the node stopped parsing; it
    shows the name and the text of that alias, and why the node no longer parses. *)
Theorem C56_error : forall O lookup salias (N : Type) (parse : list stt -> option N) (why : list stt -> str) ts er p,
  ssubstitute_idents O lookup salias parse why ts = SErr er p <->
  exists before name s after x,
    ssubstitution_stages O lookup salias ts = before ++ (name, s) :: after /\
    (forall e, In e before -> parse (snd e) <> None) /\ parse s = None /\
    er = FSubstitution x (alias_text O salias x) (why s) /\ last_place None (map fst (before ++ [(name, s)])) = Some (x, p).
Proof. exact @span_error. Qed.
Print Assumptions C56_error.

(** C56: so it is reported at an occurrence of the alias it names. *)
Theorem C56_error_at_alias : forall O lookup salias (N : Type) (parse : list stt -> option N) (why : list stt -> str) ts er p,
  ssubstitute_idents O lookup salias parse why ts = SErr er p ->
  exists x, class er = SubstitutionError x /\ In (Some (x, p)) (occurrences salias (literal_of O lookup) ts).
Proof. exact @span_error_at. Qed.
Print Assumptions C56_error_at_alias.

(** C56: the spans do not influence what is substituted. *)
Theorem C56_without_spans : forall O lookup salias, same_aliases lookup salias ->
  forall (N M : Type) (sparse : list stt -> option N) (why : list stt -> str) (parse : list tt -> option M) (f : N -> M),
  (forall ts, option_map f (sparse ts) = parse (map erase ts)) ->
  forall ts, forget f (ssubstitute_idents O lookup salias sparse why ts) = substitute_idents O lookup parse (map erase ts).
Proof. exact erase_substitute. Qed.
Print Assumptions C56_without_spans.

(** C56: every span of the result is of the node or of an alias's value. *)
Theorem C56_provenance : forall salias new_lit ts s, In s (spans (sreplaced_stream salias new_lit ts)) ->
  In s (spans ts) \/ exists x v, salias x = Some v /\ In s (spans v).
Proof. exact spans_from. Qed.
Print Assumptions C56_provenance.

(** C56: without aliases every token keeps its span but the delimiters of groups, which get
    the span of the group. *)
Theorem C56_untouched : forall O ts,
  (forall l, literal_of O (fun _ => None) l = None \/ literal_of O (fun _ => None) l = Some l) ->
  ssubstituted O (fun _ => None) (fun _ => None) ts = map collapsed ts.
Proof. exact spans_unchanged. Qed.
Print Assumptions C56_untouched.

(** C56: a node without aliases does not come back as it was. *)
Theorem C56_delimiters_refuted : exists ts r,
  ssubstitute_idents ascii (fun _ => None) (fun _ => None) Some (fun _ => []) ts = SOk r /\ map erase r = map erase ts /\ r <> ts.
Proof.
  exists [sgroup Paren [si "x" 2] 1 3 4], [sgroup Paren [si "x" 2] 4 4 4]. split; [vm_compute; reflexivity|]. split; [reflexivity|discriminate].
Qed.
Print Assumptions C56_delimiters_refuted.

(** [f(a, a)] with [a = x :: y] where [a] is defined at 20..22, read as anything, and read as
    something in which no [:] stands in front of [a]. *)
Example C56_example :
  let v := [si "x" 20; sp ":" 21; si "y" 22] in
  let lookup := aliases [("a"%string, VTokens (map erase v))] in
  let salias x := if str_eqb x (txt "a") then Some v else None in
  let ts := [si "f" 1; sgroup Paren [si "a" 3; sp "," 4; si "a" 5] 2 6 7] in
  let one_colon (ts : list stt) := if Nat.leb (List.length (flat_map spans1 ts)) 9 then Some ts else None in
  let why (_ : list stt) := txt "too long" in
  same_aliases lookup salias /\
  ssubstitute_idents ascii lookup salias Some why ts =
    SOk [si "f" 1; sgroup Paren (v ++ [sp "," 4] ++ v) 7 7 7] /\
  ssubstitute_idents ascii lookup salias one_colon why ts = SErr (FSubstitution (txt "a") (to_string ascii (map erase v)) (txt "too long")) 5%N.
Proof.
  cbv zeta. split; [|split; vm_compute; reflexivity]. intros x. unfold tokens_of, aliases. cbn [find fst].
  destruct (str_eqb x (txt "a")); reflexivity.
Qed.

(** ** C57: spans of the values *)
(** C57: every built-in function has one row in the table of sources, and its results have
    the spans of that source. *)
Theorem C57_functions : forall O SO seed n name fs f src,
  spanless O SO -> get_func_variants (new_initialized O seed n) name = Some fs -> In f fs ->
  (In (f_name f, f_arg_types f, src) span_table <-> span_source f = Some src) /\
  (span_source f <> None) /\
  (span_source f = Some src -> forall seed at_ vs r, simpl_of O SO f seed at_ vs = SOk r -> value_spans r = source_spans SO src at_ vs).
Proof. exact function_spans. Qed.
Print Assumptions C57_functions.

(** C57: the spans of a converted value. *)
Theorem C57_casts : forall O SO v t r, stry_cast O SO v t = SOk r -> value_spans r = cast_spans SO v t.
Proof. exact cast_rule. Qed.
Print Assumptions C57_casts.

(** C57: the definitions mean what they elaborate to, with the spans of their own tokens and
    of those of the aliases they mention; failures are reported at the definition. *)
Theorem C57_evaluation : forall O SO seed n items,
  NoDup (item_ids (erase_spec items)) ->
  smake_substitutions O SO (new_initialized O seed n) items = sbindings O SO (new_initialized O seed n) items.
Proof. intros O SO seed n. exact (smake_substitutions_spec O SO (new_initialized O seed n)). Qed.
Print Assumptions C57_evaluation.

(** C57: the spans do not influence the values. *)
Theorem C57_without_spans : forall O SO seed n, spanless O SO -> forall items c,
  NoDup (item_ids (erase_spec items)) ->
  forget erase_bindings (smake_substitutions O SO (new_initialized O seed n) items) =
  make_substitutions O (new_initialized O seed n) {| spec_items := erase_spec items; is_comma_used := c |}.
Proof. exact smake_substitutions_erase. Qed.
Print Assumptions C57_without_spans.

(** C57: every span of a value is one of its definition, of an earlier one, or none. *)
Theorem C57_provenance : forall O SO seed n, spanless O SO -> inherited SO -> forall items bs pre x v post,
  NoDup (item_ids (erase_spec items)) ->
  smake_substitutions O SO (new_initialized O seed n) items = SOk bs -> bs = pre ++ (x, v) :: post ->
  incl (value_spans v) (call_site :: places (firstn (S (List.length pre)) items)).
Proof. exact spans_of_bindings. Qed.
Print Assumptions C57_provenance.

(** C57: the values are those substitution inserts. *)
Theorem C57_substitutions : forall bs,
  same_aliases (fun x => assoc_str x (erase_bindings bs)) (fun x => option_map sto_tokens (assoc_str x bs)).
Proof. exact bindings_aliases. Qed.
Print Assumptions C57_substitutions.

(** C57: names made from a string or from a name and a number have no place in the input,
    unlike names made from names. *)
Theorem C57_placeless_refuted : exists items bs,
  smake_substitutions ascii (dressed ascii) env0 items = SOk bs /\ ~ In call_site (places items) /\
  exists x y z, assoc_str (txt "a") bs = Some (SVIdent x call_site) /\ assoc_str (txt "b") bs = Some (SVIdent y call_site) /\
    assoc_str (txt "c") bs = Some (SVIdent z 9%N).
Proof.
  exists [(txt "a", scall 1 "concat" 1 [sid 2 "x" 2; sint 3 "1" 3]);
          (txt "b", scall 4 "to_ident" 4 [sstr 5 "y" 5]);
          (txt "c", scall 8 "concat" 9 [sid 9 "x" 6; sid 10 "y" 7])].
  eexists. split; [vm_compute; reflexivity|]. split; [vm_compute; intuition discriminate|]. do 3 eexists. repeat split; reflexivity.
Qed.
Print Assumptions C57_placeless_refuted.

(** [a = upper(x), b = concat(a, y), c = a] *)
Example C57_example :
  let items := [(txt "a", scall 1 "upper" 1 [sid 2 "x" 2]);
                (txt "b", scall 3 "concat" 3 [sid 4 "a" 4; sid 5 "y" 5]);
                (txt "c", sid 6 "a" 6)] in
  spanless ascii (dressed ascii) /\ inherited (dressed ascii) /\ NoDup (item_ids (erase_spec items)) /\
  smake_substitutions ascii (dressed ascii) env0 items =
    SOk [(txt "a", SVIdent (txt "X") 2%N); (txt "b", SVIdent (txt "Xy") 3%N); (txt "c", SVIdent (txt "X") 2%N)].
Proof.
  cbv zeta. split; [apply dressed_spanless|]. split; [exact ascii_inherited|]. split; [|vm_compute; reflexivity].
  repeat constructor; cbn; intuition discriminate.
Qed.

(** ** C58: places of the errors in definitions *)
(** C58: which error of a definition can be reported where. *)
Theorem C58_places : forall O SO seed n, spanless O SO -> inherited SO -> forall items er s,
  NoDup (item_ids (erase_spec items)) ->
  smake_substitutions O SO (new_initialized O seed n) items = SErr er s -> error_place SO items (class er) s.
Proof. exact smake_substitutions_error. Qed.
Print Assumptions C58_places.

(** A name defined twice (reported at the second value, 4); a call that fits no overload in an
    argument (reported at the outer call, 2); an unknown function; an identifier that cannot be
    made (at the inner call, 3); a number that is no path (at the number). *)
Example C58_example :
  let make items := match smake_substitutions ascii (dressed ascii) env0 items with SErr er s => Some (class er, s) | _ => None end in
  make [(txt "a", sid 1 "x" 1); (txt "a", sid 2 "y" 4)] = Some (RedefinedNameError (txt "a"), 4%N) /\
  make [(txt "a", scall 1 "upper" 2 [scall 2 "lower" 3 [sint 3 "1" 4]])] = Some (SignatureError (txt "upper"), 2%N) /\
  make [(txt "a", scall 1 "f" 2 [])] = Some (UndefinedFunctionError (txt "f"), 2%N) /\
  make [(txt "a", scall 1 "upper" 2 [scall 2 "concat" 3 [sid 3 "x" 4; sstr 4 "-" 5]])] = Some (EvalError, 3%N) /\
  make [(txt "a", scall 1 "to_path" 2 [sint 2 "1" 3])] = Some (TypeError, 3%N).
Proof. repeat split; vm_compute; reflexivity. Qed.

(** C96: [normalize2] is an evaluated variant of [normalize].  [prints_leaves] is in SpecShown,
    [taken_as_written] in SpecNormalizeCalls. *)
From Coq Require Import String.
From Verif Require Import Base Token Types Values Ast Env Eval Interpreter Parse Macro ConcreteParse RustLexer RustGrammar RustInstance
  SpecElab SpecScope SpecPrograms SpecShown SpecNormalizeCalls ShownProofs NormalizeCallProofs.
Open Scope list_scope.

(** C96: [normalize2(raw(ts))] may be written for [normalize(ts)] in any definition, whatever
    [ts] is and whatever the other definitions are. *)
Theorem C96_raw : forall O seed first_id pre a post id1 raw1 id2 args2 rid2 id args rid ts c c',
  let evaluated := (a, ECall id1 (txt "normalize2") [ECall id2 (txt "raw") args2 (Some (rid2, ts))] raw1) in
  let unevaluated := (a, ECall id (txt "normalize") args (Some (rid, ts))) in
  NoDup (item_ids (pre ++ evaluated :: post)) -> NoDup (item_ids (pre ++ unevaluated :: post)) ->
  make_substitutions O (new_initialized O seed first_id) {| spec_items := pre ++ evaluated :: post; is_comma_used := c |} =
  make_substitutions O (new_initialized O seed first_id) {| spec_items := pre ++ unevaluated :: post; is_comma_used := c' |}.
Proof. exact normalize_of_raw. Qed.
Print Assumptions C96_raw.

(** C96: on values that are no aliases the two are the same, too.  Partial: strings and
    integers are left out. *)
Theorem C96_values_partial : forall O seed first_id pre a post id1 raw1 lid v id args rid c c', prints_leaves O -> taken_as_written v ->
  (forall x, v = VIdent x -> ~ In x (map fst pre)) ->
  let evaluated := (a, ECall id1 (txt "normalize2") [EValue lid v] raw1) in
  let unevaluated := (a, ECall id (txt "normalize") args (Some (rid, to_tokens v))) in
  NoDup (item_ids (pre ++ evaluated :: post)) -> NoDup (item_ids (pre ++ unevaluated :: post)) ->
  make_substitutions O (new_initialized O seed first_id) {| spec_items := pre ++ evaluated :: post; is_comma_used := c |} =
  make_substitutions O (new_initialized O seed first_id) {| spec_items := pre ++ unevaluated :: post; is_comma_used := c' |}.
Proof. exact normalize_of_value. Qed.
Print Assumptions C96_values_partial.

(** C96: of a literal [normalize2] makes what [normalize] makes of any tokens that come to the
    same as what the literal says. *)
Theorem C96_literals : forall O seed first_id pre a post id1 raw1 lid v text id args rid ts c c',
  says v text -> fn_normalize O text = fn_normalize O (to_string O ts) ->
  let evaluated := (a, ECall id1 (txt "normalize2") [EValue lid v] raw1) in
  let unevaluated := (a, ECall id (txt "normalize") args (Some (rid, ts))) in
  NoDup (item_ids (pre ++ evaluated :: post)) -> NoDup (item_ids (pre ++ unevaluated :: post)) ->
  make_substitutions O (new_initialized O seed first_id) {| spec_items := pre ++ evaluated :: post; is_comma_used := c |} =
  make_substitutions O (new_initialized O seed first_id) {| spec_items := pre ++ unevaluated :: post; is_comma_used := c' |}.
Proof. exact normalize_of_literal. Qed.
Print Assumptions C96_literals.

(** ["get user"], which its own tokens come to. *)
Example C96_literals_example :
  says (VLitStr (txt "get user") []) (txt "get user") /\
  fn_normalize rust (txt "get user") = fn_normalize rust (to_string rust (to_tokens (VLitStr (txt "get user") []))).
Proof. split; [constructor|vm_compute; reflexivity]. Qed.

(** C96: of an alias [normalize2] makes what [normalize] makes of the code that the alias
    stands for. *)
Theorem C96_alias : forall O seed first_id pre a b v id1 raw1 lid id args rid bs c c' c'', prints_leaves O -> taken_as_written v -> ~ In a (map fst pre) ->
  make_substitutions O (new_initialized O seed first_id) {| spec_items := pre; is_comma_used := c |} = Ok bs -> assoc_str b bs = Some v ->
  let evaluated := (a, ECall id1 (txt "normalize2") [EValue lid (VIdent b)] raw1) in
  let unevaluated := (a, ECall id (txt "normalize") args (Some (rid, to_tokens v))) in
  NoDup (item_ids (pre ++ [evaluated])) -> NoDup (item_ids (pre ++ [unevaluated])) ->
  make_substitutions O (new_initialized O seed first_id) {| spec_items := pre ++ [evaluated]; is_comma_used := c' |} =
  make_substitutions O (new_initialized O seed first_id) {| spec_items := pre ++ [unevaluated]; is_comma_used := c'' |}.
Proof. exact normalize_of_alias. Qed.
Print Assumptions C96_alias.

(** C96: [normalize] looks at no alias: what it makes of tokens is the same after all
    definitions. *)
Theorem C96_unevaluated : forall O ts, exists r, forall seed first_id pre a id args rid bs c c',
  NoDup (item_ids (pre ++ [(a, ECall id (txt "normalize") args (Some (rid, ts)))])) -> ~ In a (map fst pre) ->
  make_substitutions O (new_initialized O seed first_id) {| spec_items := pre; is_comma_used := c |} = Ok bs ->
  make_substitutions O (new_initialized O seed first_id) {| spec_items := pre ++ [(a, ECall id (txt "normalize") args (Some (rid, ts)))]; is_comma_used := c' |} =
  let! v := r in Ok (bs ++ [(a, v)]).
Proof.
  intros O ts. eexists. intros. eapply normalize_call; eassumption.
Qed.
Print Assumptions C96_unevaluated.

(** C96: so the example of adr/0001, [normalize] of a loop variable, makes one name for all
    rounds, where [normalize2] makes one for each. *)
Theorem C96_loop_variable : exists u u',
  u = use_of (Compose (lex "for t in [u32, Option<u8>] f = concat(my, _, normalize(t)), { fn f() -> t { g() } }")) /\
  u' = use_of (Compose (lex "for t in [u32, Option<u8>] f = concat(my, _, normalize2(t)), { fn f() -> t { g() } }")) /\
  expand_uses rust rust_parsers rust_syntax [u] = code "fn my_t() -> u32 { g() } fn my_t() -> Option<u8> { g() }" /\
  expand_uses rust rust_parsers rust_syntax [u'] = code "fn my_u32() -> u32 { g() } fn my_Option_u8() -> Option<u8> { g() }".
Proof. eexists _, _. split; [reflexivity|]. split; [reflexivity|]. split; vm_compute; reflexivity. Qed.
Print Assumptions C96_loop_variable.

(** C96: strings and integers are normalized differently by the two: [normalize2] takes the
    text of the string and the digits of the integer, [normalize] how they are written. *)
Theorem C96_strings_refuted : exists u u',
  u = use_of (Compose (lex "a = normalize2(""get_""), b = normalize2(1u8), { fn a() {} fn b() {} }")) /\
  u' = use_of (Compose (lex "a = normalize(""get_""), b = normalize(1u8), { fn a() {} fn b() {} }")) /\
  expand_uses rust rust_parsers rust_syntax [u] = code "fn get() {} fn _1() {}" /\
  expand_uses rust rust_parsers rust_syntax [u'] = code "fn get_() {} fn _1u8() {}".
Proof. eexists _, _. split; [reflexivity|]. split; [reflexivity|]. split; vm_compute; reflexivity. Qed.
Print Assumptions C96_strings_refuted.

(** C96: not every value becomes a valid identifier: [normalize] can make an underscore or a
    keyword, which cannot name a function. *)
Theorem C96_any_value_refuted : exists u u',
  u = use_of (Compose (lex "a = normalize(+), { fn a() {} }")) /\ u' = use_of (Compose (lex "a = normalize(&mut), { fn a() {} }")) /\
  (forall ts, expand_uses rust rust_parsers rust_syntax [u] <> [Code ts]) /\ (forall ts, expand_uses rust rust_parsers rust_syntax [u'] <> [Code ts]).
Proof. eexists _, _. split; [reflexivity|]. split; [reflexivity|]. split; intros ts; vm_compute; discriminate. Qed.
Print Assumptions C96_any_value_refuted.

(** [b = Vec<u8>, a = normalize2(b)], [a = normalize2(Vec<u8>)], [a = normalize2(raw(Vec<u8>))]
    and [a = normalize(Vec<u8>)], through the parser. *)
Example C96_example :
  let use s := use_of (Compose (lex s)) in
  prints_leaves rust /\
  expand_uses rust rust_parsers rust_syntax
    [use "b = Vec<u8>, a = normalize2(b), { fn a() {} }"%string; use "a = normalize2(Vec<u8>), { fn a() {} }"%string;
     use "a = normalize2(raw(Vec<u8>)), { fn a() {} }"%string; use "a = normalize(Vec<u8>), { fn a() {} }"%string] =
  code "fn Vec_u8() {}" ++ code "fn Vec_u8() {}" ++ code "fn Vec_u8() {}" ++ code "fn Vec_u8() {}".
Proof. intros use. split; [exact rust_prints|]. vm_compute. reflexivity. Qed.

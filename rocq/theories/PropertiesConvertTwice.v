(** C111: conversions one after the other.  [target], [rereads], [prints_read] and [converts_twice]
    are in SpecConvertTwice, [cast_name] in SpecCalls, [call_meaning] in SpecFunctions, [yields] in
    SpecEitherOrder. *)
From Coq Require Import String.
From Verif Require Import Base Token Types Values Ast Env Item Deprecation Interpreter Parse Macro ConcreteParse RustLexer RustGrammar RustInstance RustLaws
  SpecMacro SpecPrograms SpecParse SpecElab SpecSubst SpecItem SpecDeprecation SpecRepro SpecCalls SpecFunctions SpecInvisible SpecNested SpecEitherOrder SpecConvertTwice
  ConvertTwiceProofs RustConvertTwice.
Open Scope list_scope.

(** To convert again does nothing. *)
Theorem C111_again : forall O seed t raw raw' v w, rereads O -> target t -> call_meaning O seed (cast_name t) raw [v] = Ok w -> call_meaning O seed (cast_name t) raw' [w] = Ok w.
Proof. exact cast_again. Qed.
Print Assumptions C111_again.

(** A conversion to a path, a type, an expression or tokens before another conversion may be left
    out. *)
Theorem C111_through : forall O seed t raw raw' t' v w, prints_read O -> transparent_target t -> target t' -> all_visible (to_tokens v) = true ->
  call_meaning O seed (cast_name t) raw [v] = Ok w -> call_meaning O seed (cast_name t') raw' [w] = call_meaning O seed (cast_name t') raw' [v].
Proof. exact cast_through. Qed.
Print Assumptions C111_through.

(** From a name to a string and back. *)
Theorem C111_back : forall O seed raw raw' x s, rereads O -> parse_ident O [TIdent x] = Some x -> parse_str_ident O x = Some x -> parse_lit_str O [TLit (LStr x s)] = Some (x, s) ->
  call_meaning O seed (cast_name TyLitStr) raw [VIdent x] = Ok (VLitStr x []) /\ call_meaning O seed (cast_name TyIdent) raw' [VLitStr x s] = Ok (VIdent x).
Proof. exact name_and_string. Qed.
Print Assumptions C111_back.

(** The hypotheses, for a type, a name and strings. *)
Example C111_values :
  rereads rust /\ prints_read rust /\ target TyType /\ transparent_target TyType /\ target TyTokens /\
  all_visible (to_tokens (VTokens (lex "Vec<[u8; 4]>"))) = true /\
  call_meaning rust 7 (cast_name TyType) None [VTokens (lex "Vec<[u8; 4]>")] = Ok (VType (lex "Vec<[u8; 4]>")) /\
  call_meaning rust 7 (cast_name TyIdent) None [VLitStr (txt " x ") []] = Ok (VIdent (txt "x")) /\
  parse_ident rust [TIdent (txt "ab_1")] = Some (txt "ab_1") /\ parse_str_ident rust (txt "ab_1") = Some (txt "ab_1") /\ parse_lit_str rust [TLit (LStr (txt "ab_1") [])] = Some (txt "ab_1", []).
Proof.
  split; [exact rust_rereads|]. split; [exact rust_prints_read|]. unfold target, transparent_target. cbn [In]. repeat split; try (vm_compute; reflexivity); intuition.
Qed.

(** In a use: an alias converted again has the same value in every round. *)
Theorem C111_use : forall O P Y seed ast b t v d ts uses i c, faithful O (reparse Y) -> covers Y -> (forall x, In x item_keywords -> ~ In x (ast_aliases ast)) ->
  rereads O -> target t -> converts_twice ast b t v d t -> yields O P Y ast seed ts uses i c ->
  exists bss, c = flat_map (fun bs => substituted O (fun x => assoc_str x bs) ts) bss /\ forall bs, In bs bss -> assoc_str d bs = assoc_str b bs /\ assoc_str b bs <> None.
Proof. exact use_again. Qed.
Print Assumptions C111_use.

(** All hypotheses together. *)
Example C111_example :
  let ts := lex "fn f(x: B) -> D { g(C) }" in
  let c := lex "fn f(x: u8) -> u8 { g(k) } fn f(x: Vec<u8>) -> Vec<u8> { g(k) }" in
  let uses := [use_of (Compose (lex "for T in [u8, Vec<u8>] B = to_type(T), C = to_ident(""k""), D = to_type(B)," ++ [TGroup Brace ts]))] in
  exists ast v,
    faithful rust (reparse rust_syntax) /\ covers rust_syntax /\ (forall x, In x item_keywords -> ~ In x (ast_aliases ast)) /\
    rereads rust /\ target TyType /\ converts_twice ast (txt "B") TyType v (txt "D") TyType /\ yields rust rust_parsers rust_syntax ast 7 ts uses 0 c.
Proof.
  intros ts c uses.
  destruct (p_ast (inv_parsed (invocation_for rust rust_parsers (use_of (Compose (lex "for T in [u8, Vec<u8>] B = to_type(T), C = to_ident(""k""), D = to_type(B)," ++ [TGroup Brace ts])))))) as [[ast|]|e|m] eqn:E; try (vm_compute in E; discriminate E).
  exists (erase_ast ast), (VIdent (txt "T")). vm_compute in E. injection E as <-.
  split; [exact rust_faithful|]. split; [exact rust_covers|]. split; [intros x Hx Hin; vm_compute in Hx, Hin; intuition congruence|].
  split; [exact rust_rereads|]. split; [unfold target; cbn [In]; intuition|].
  split; [eexists [], _, _, _, [_], _, _, _, _; vm_compute; reflexivity|].
  eexists _, _. split; [reflexivity|]. split; [vm_compute; reflexivity|]. vm_compute. repeat split; left; reflexivity.
Qed.

(** A string need not come back from a name: spaces are lost.  Nor do integers and strings convert
    to each other. *)
Theorem C111_strings_refuted : exists u u' u'' c,
  u = use_of (Compose (lex "a = to_ident("" x ""), b = to_str(a), { fn f() { g(b) } }")) /\ c = Code (lex "fn f() { g(""x"") }") /\
  u' = use_of (Compose (lex "a = to_int(""1""), { fn f() { g(a) } }")) /\ u'' = use_of (Compose (lex "a = to_str(1), { fn f() { g(a) } }")) /\
  firstn 1 (expand_uses rust rust_parsers rust_syntax [u; u'; u'']) = [c] /\
  Forall (fun o => match o with CompileError _ => True | _ => False end) (skipn 1 (expand_uses rust rust_parsers rust_syntax [u; u'; u''])).
Proof. do 4 eexists. do 4 (split; [reflexivity|]). split; [vm_compute; reflexivity|]. vm_compute. repeat constructor. Qed.
Print Assumptions C111_strings_refuted.

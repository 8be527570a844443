(** C84: what definitions and loops hold, with its spans (SpecSpanGrammar). *)
From Coq Require Import String.
From Verif Require Import Base Token Types Values Ast Item Parse RustLexer RustInstance Macro SpecGrammar SpanTokens SpanWalker SpanValues SpanEval SpanItem SpanParse
  SpecSpanItem SpecSpanMacro SpecSpanGrammar SpanGrammarProofs SpanGrammarExact SpanDress SpanDressProofs SpanRust.
Open Scope list_scope.

(** C84: what [compose!] and [compose_idents!] read is written in their input, each name,
    value and tuple with the spans of the tokens it stands at. *)
Theorem C84_function_input : forall P SP has_func n ts ast,
  sp_ast (sparse_func_macro P SP has_func n ts) = inl ast -> function_written P SP has_func ts ast.
Proof. exact function_is. Qed.
Print Assumptions C84_function_input.

(** C84: so is what [#[compose_item]] reads. *)
Theorem C84_attribute_input : forall P SP has_func n ts item ast,
  sp_ast (sparse_attr_macro P SP has_func n ts item) = inl ast -> attribute_written P SP has_func ts item ast.
Proof. exact attribute_is. Qed.
Print Assumptions C84_attribute_input.

(** C84: with the grammar of C59 for the same tokens without spans, this says exactly which inputs
    [compose!] and [compose_idents!] accept, and what they read, ids aside. *)
Theorem C84_exactly : forall P SP has_func, spanless_parsers P SP -> forall n ts a,
  (func_input P has_func (map erase ts) (plain_ast (map erase_stmt) a) /\ function_written P SP has_func ts a) <->
  exists ast, sp_ast (sparse_func_macro P SP has_func n ts) = inl ast /\ unnumbered_ast ast = a.
Proof. exact function_exactly. Qed.
Print Assumptions C84_exactly.

(** C84: likewise for [#[compose_item]]. *)
Theorem C84_exactly_attribute : forall P SP has_func, spanless_parsers P SP -> forall n ts item a,
  (attr_input P has_func (map erase ts) (map erase item) (plain_ast (map erase_stmt) a) /\ attribute_written P SP has_func ts item a) <->
  exists ast, sp_ast (sparse_attr_macro P SP has_func n ts item) = inl ast /\ unnumbered_ast ast = a.
Proof. exact attribute_exactly. Qed.
Print Assumptions C84_exactly_attribute.

(** C84: so the places of an input and the grammar leave one reading. *)
Theorem C84_one_reading : forall P SP has_func,
  (forall ts a b, function_written P SP has_func ts a -> function_written P SP has_func ts b ->
     plain_ast (map erase_stmt) a = plain_ast (map erase_stmt) b -> a = b) /\
  (forall ts item a b, attribute_written P SP has_func ts item a -> attribute_written P SP has_func ts item b ->
     plain_ast (map erase_stmt) a = plain_ast (map erase_stmt) b -> a = b).
Proof. exact (fun P SP hf => conj (function_once P SP hf) (attribute_once P SP hf)). Qed.
Print Assumptions C84_one_reading.

(** The tokens are numbered from 1; a group is given the number of its opening delimiter, then
    the tokens inside, then the closing delimiter.  In [for (p, q) in [(x, "s")]] the tuple is at
    10, [x] at 11 and ["s"] at 13; in [a = concat(p, 1, _)] the call is at 20 and the arguments are
    at 22, 24 and 26. *)
Example C84_example :
  sp_ast (sparse_func_macro rust_parsers (dressed_parsers rust_parsers) (known rust) 100
            (numbered_text 1 "for (p, q) in [(x, ""s"")] a = concat(p, 1, _), { }")) =
  inl {| sa_loops := Some [{| sl_pattern := LATuple [TVValue (txt "p"); TVValue (txt "q")];
                              sl_values := [SLSTuple 10%N [TVValue (SEValue 100 (SVIdent (txt "x") 11%N));
                                                           TVValue (SEValue 101 (SVLitStr (txt "s") [] 13%N))]] |}];
         sa_spec := Some {| ss_items := [(txt "a", SECall 106 (txt "concat") 20%N
                              [SEValue 102 (SVIdent (txt "p") 22%N); SEValue 103 (SVLitInt (txt "1") (txt "1") 24%N);
                               SEValue 104 (SVIdent (txt "_") 26%N)]
                              (Some (105%N, [SIdent (txt "p") 22%N; SPunct 44%N false 23%N; SLit (LInt (txt "1") (txt "1")) 24%N;
                                             SPunct 44%N false 25%N; SIdent (txt "_") 26%N])))];
                            ss_comma := Some true |};
         sa_block := [] |}.
Proof. vm_compute. reflexivity. Qed.
(** So the theorem speaks about it, and about an attribute. *)
Example C84_written :
  (exists a, function_written rust_parsers (dressed_parsers rust_parsers) (known rust)
     (numbered_text 1 "for (p, q) in [(x, ""s"")] a = concat(p, 1, _), { }") a) /\
  exists a, attribute_written rust_parsers (dressed_parsers rust_parsers) (known rust)
     (numbered_text 1 "a = upper(x); b = lower(Y);") (numbered_text 40 "fn f() {}") a.
Proof. split; eexists; [apply (function_is _ _ _ 100%N); exact C84_example|]. apply (attribute_is _ _ _ 100%N). vm_compute. reflexivity. Qed.
(** And the exact theorem: the reading above, ids aside, is the only one. *)
Example C84_exact_example :
  (exists a, func_input rust_parsers (known rust) (map erase (numbered_text 1 "for (p, q) in [(x, ""s"")] a = concat(p, 1, _), { }")) (plain_ast (map erase_stmt) a) /\
     function_written rust_parsers (dressed_parsers rust_parsers) (known rust) (numbered_text 1 "for (p, q) in [(x, ""s"")] a = concat(p, 1, _), { }") a) /\
  (exists a, attr_input rust_parsers (known rust) (map erase (numbered_text 1 "a = upper(x); b = lower(Y);")) (map erase (numbered_text 40 "fn f() {}")) (plain_ast (map erase_stmt) a) /\
     attribute_written rust_parsers (dressed_parsers rust_parsers) (known rust) (numbered_text 1 "a = upper(x); b = lower(Y);") (numbered_text 40 "fn f() {}") a) /\
  ~ exists a, func_input rust_parsers (known rust) (map erase (numbered_text 1 "a = upper(x); b = x, { }")) (plain_ast (map erase_stmt) a) /\
     function_written rust_parsers (dressed_parsers rust_parsers) (known rust) (numbered_text 1 "a = upper(x); b = x, { }") a.
Proof.
  split; [|split].
  - eexists. apply (C84_exactly _ _ _ (dressed_spanless_parsers rust_parsers) 100%N). eexists. split; [exact C84_example|reflexivity].
  - eexists. apply (C84_exactly_attribute _ _ _ (dressed_spanless_parsers rust_parsers) 100%N). eexists. split; [vm_compute; reflexivity|reflexivity].
  - intros (a & H). apply (C84_exactly _ _ _ (dressed_spanless_parsers rust_parsers) 100%N) in H as (ast & E & _). vm_compute in E. discriminate E.
Qed.

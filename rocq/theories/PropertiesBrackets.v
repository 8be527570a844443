(** C98: brackets around a value, which once meant concatenation.  [printing] is in SpecParse,
    [ints_unbracketed], [begins_with], [declares], [reserves_fn], [fn_is_named], [declares_fn],
    [definitions_of] and [defined_as] are in SpecBrackets, [loops_at] is in SpecGrammar. *)
From Coq Require Import String.
From Verif Require Import Base Token Types Values Ast Env Eval Expand Item Interpreter Parse Macro ConcreteParse RustLexer RustGrammar RustInstance RustLaws RustSignature
  SpecElab SpecParse SpecItem SpecGrammar GrammarProofs SpecBrackets BracketProofs.
Open Scope list_scope.

(** C98: what begins with a bracket is read as a value; no function in it is called, and it
    is no identifier. *)
Theorem C98_no_call : forall P has_func n ts r n' e k u, expr_at P has_func n (TGroup Bracket ts :: r) = (n', (e, k, u)) ->
  exists id v, e = EValue id v /\ forall x, v <> VIdent x.
Proof. exact bracket_value. Qed.
Print Assumptions C98_no_call.

(** C98: the value is the code that begins with the bracket. *)
Theorem C98_array : forall P has_func n ts r n' e k, printing P -> ints_unbracketed P ->
  expr_at P has_func n (TGroup Bracket ts :: r) = (n', (e, k, false)) ->
  exists id v, e = EValue id v /\ begins_with (TGroup Bracket ts) v.
Proof. exact bracket_begins. Qed.
Print Assumptions C98_array.

(** C98: the alias stands for it, whatever the other definitions are. *)
Theorem C98_bound : forall O env a id v, (forall x, v <> VIdent x) -> forall spec bs,
  NoDup (item_ids (spec_items spec)) -> make_substitutions O env spec = Ok bs -> In (a, EValue id v) (spec_items spec) -> assoc_str a bs = Some v.
Proof. exact value_bound. Qed.
Print Assumptions C98_bound.

(** C98: so it cannot name anything: a use that declares a struct, an enum, a union, a trait
    or a module of that name yields no code, unless its loops have no rounds. *)
Theorem C98_no_name : forall O P Y uses i u ast spec a id v it ts, (forall l x, parse_ident O l = Some x -> l = [TIdent x]) ->
  nth_error uses i = Some u -> p_ast (inv_parsed (invocation_for O P u)) = Ok (Some ast) ->
  ast_spec ast = Some spec -> In (a, EValue id v) (spec_items spec) -> (forall x, v <> VIdent x) -> (forall x, to_tokens v <> [TIdent x]) ->
  In (SItem it) (ast_block ast) -> declares a it ->
  nth_error (expand_uses O P Y uses) i = Some (Code ts) -> expand ast = Ok [] /\ ts = [].
Proof. exact bracket_declared. Qed.
Print Assumptions C98_no_name.

(** C98: nor can it name a function, whatever stands before [fn] and after the name. *)
Theorem C98_no_function : forall O P Y uses i u ast spec a id v l r it ts, reserves_fn P -> fn_is_named Y ->
  nth_error uses i = Some u -> p_ast (inv_parsed (invocation_for O P u)) = Ok (Some ast) ->
  ast_spec ast = Some spec -> In (a, EValue id v) (spec_items spec) -> (forall x, v <> VIdent x) -> to_tokens v = TGroup Bracket l :: r ->
  In (SItem it) (ast_block ast) -> declares_fn a it ->
  nth_error (expand_uses O P Y uses) i = Some (Code ts) -> expand ast = Ok [] /\ ts = [].
Proof. exact bracket_fn. Qed.
Print Assumptions C98_no_function.

(** C98: from the source: wherever the brackets are written among the definitions of a use,
    after whatever loops, it yields no code if it declares an item or a function of that
    name, unless its loops have no rounds. *)
Theorem C98_source : forall O P Y uses i u ast loops w ts1 x l r it ts, printing P -> ints_unbracketed P ->
  (forall k y, parse_ident O k = Some y -> k = [TIdent y]) -> reserves_fn P -> fn_is_named Y ->
  nth_error uses i = Some u -> p_ast (inv_parsed (invocation_for O P u)) = Ok (Some ast) ->
  loops_at P (known O) (definitions_of (u_source u)) loops w ts1 -> defined_as P (known O) x (TGroup Bracket l :: r) ts1 ->
  In (SItem it) (ast_block ast) -> declares x it \/ declares_fn x it ->
  nth_error (expand_uses O P Y uses) i = Some (Code ts) -> expand ast = Ok [] /\ ts = [].
Proof. exact bracket_refused. Qed.
Print Assumptions C98_source.

(** That the form is no longer supported does not mean that it is refused: definitions like those
    of the README are accepted, and [MY_CONST] is an array with a call of [upper]. *)
Theorem C98_refused_refuted : exists u,
  expand_uses rust rust_parsers rust_syntax [u] = [Code (lex "static X: [T; 1] = [upper(baz)]; struct my_struct; static Y: [T; 2] = [foo, bar];")] /\
  u = use_of (Compose (lex "my_fn = [foo, bar], MY_CONST = [upper(baz)], { static X: [T; 1] = MY_CONST; struct my_struct; static Y: [T; 2] = my_fn; },")).
Proof. eexists. split; [|reflexivity]. vm_compute. reflexivity. Qed.
Print Assumptions C98_refused_refuted.

(** The same with a struct of the alias's name. *)
Example C98_example :
  let u := use_of (Compose (lex "MyStruct = [Foo, Bar], { struct MyStruct; },")) in
  printing rust_parsers /\ ints_unbracketed rust_parsers /\ (forall l x, parse_ident rust l = Some x -> l = [TIdent x]) /\
  expand_uses rust rust_parsers rust_syntax [u] = [CompileError (SubstitutionError (txt "MyStruct"))] /\
  match p_ast (inv_parsed (invocation_for rust rust_parsers u)) with
  | Ok (Some ast) => match ast_spec ast, ast_block ast with
                     | Some spec, [SItem it] => match spec_items spec with
                                                | [(a, EValue _ v)] => a = txt "MyStruct" /\ begins_with (TGroup Bracket (lex "Foo, Bar")) v /\ declares a it
                                                | _ => False
                                                end
                     | _, _ => False
                     end
  | _ => False
  end.
Proof.
  intros u. split; [exact rust_printing|]. split; [intros ts r; reflexivity|]. split; [exact (faithful_ident _ _ rust_faithful)|].
  split; [vm_compute; reflexivity|]. vm_compute. repeat constructor.
Qed.

(** The function of the README, with every qualifier. *)
Example C98_function_example :
  let u := use_of (Compose (lex "my_fn = [foo, bar], { pub const async unsafe extern ""C"" fn my_fn(x: u32) -> u32 { x } },")) in
  reserves_fn rust_parsers /\ fn_is_named rust_syntax /\
  expand_uses rust rust_parsers rust_syntax [u] = [CompileError (SubstitutionError (txt "my_fn"))] /\
  match p_ast (inv_parsed (invocation_for rust rust_parsers u)) with
  | Ok (Some ast) => match ast_spec ast, ast_block ast with
                     | Some spec, [SItem it] => match spec_items spec with
                                                | [(a, EValue _ v)] => a = txt "my_fn" /\ to_tokens v = [TGroup Bracket (lex "foo, bar")] /\ declares_fn a it
                                                | _ => False
                                                end
                     | _, _ => False
                     end
  | _ => False
  end.
Proof.
  intros u. split; [exact rust_reserves_fn|]. split; [exact rust_fn_is_named|].
  split; [vm_compute; reflexivity|]. vm_compute. split; [reflexivity|]. split; [reflexivity|].
  refine (declares_fn_ _ _ _ [_; _; _; _; _] _ _ _). repeat (constructor; [first [right; eexists; reflexivity|left; eexists; split; [|reflexivity]; vm_compute; tauto]|]). constructor.
Qed.

(** In the second definition of an attribute. *)
Example C98_source_example :
  let u := use_of (ComposeItem (lex "x = foo, my_fn = [x, bar]") (lex "fn my_fn() {}")) in
  loops_at rust_parsers (known rust) (definitions_of (u_source u)) [] false (lex "x = foo, my_fn = [x, bar]") /\
  defined_as rust_parsers (known rust) (txt "my_fn") (lex "[x, bar]") (lex "x = foo, my_fn = [x, bar]") /\
  expand_uses rust rust_parsers rust_syntax [u] = [CompileError (SubstitutionError (txt "my_fn"))].
Proof.
  intros u. split; [constructor; vm_compute; discriminate|]. split; [|vm_compute; reflexivity].
  refine (defined_later _ _ _ _ _ (txt "x", EValue 0 (VIdent (txt "foo"))) false (TPunct 44%N false) (lex "my_fn = [x, bar]") _ _).
  - refine (definition_at_ rust_parsers _ (txt "x") false (lex "foo, my_fn = [x, bar]") _ 1 false eq_refl _).
    apply (reads_exactly _ _ 0%N). eexists _, _. split; vm_compute; reflexivity.
  - exact (defined_here rust_parsers _ (txt "my_fn") (lex "[x, bar]") false eq_refl).
Qed.

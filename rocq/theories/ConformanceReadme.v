(** The reference tables of /repo/README.md on the model: every row's example, and whether its
    value is the row's result.  [value_is call result] expands
    [compose!(x = call, { m! { x } })] and compares with [m! { result }]. *)
From Coq Require Import String.
From Verif Require Import Base Token Types Values Item Interpreter Macro Deprecation RustLexer RustText RustInstance.
Open Scope list_scope.

Definition use_of (call : string) : list output :=
  expanded (Compose (lex ("x = " ++ call ++ ", { m! { x } }"))).
Definition value_is (call result : string) : Prop :=
  use_of call = code ("m! { " ++ result ++ " }").
(** README.md 504-519 *)
Example case_row_1 : value_is "upper(""foo"")" """FOO""".
Proof. vm_compute. reflexivity. Qed.
Example case_row_2 : value_is "upper(foo)" "FOO".
Proof. vm_compute. reflexivity. Qed.
Example case_row_3 : value_is "lower(""FOO"")" """foo""".
Proof. vm_compute. reflexivity. Qed.
Example case_row_4 : value_is "lower(FOO)" "foo".
Proof. vm_compute. reflexivity. Qed.
Example case_row_5 : value_is "snake_case(""FooBar"")" """foo_bar""".
Proof. vm_compute. reflexivity. Qed.
Example case_row_6 : value_is "snake_case(FooBar)" "foo_bar".
Proof. vm_compute. reflexivity. Qed.
Example case_row_7 : value_is "camel_case(""foo_bar"")" """fooBar""".
Proof. vm_compute. reflexivity. Qed.
Example case_row_8 : value_is "camel_case(foo_bar)" "fooBar".
Proof. vm_compute. reflexivity. Qed.
Example case_row_9 : value_is "pascal_case(""foo_bar"")" """FooBar""".
Proof. vm_compute. reflexivity. Qed.
Example case_row_10 : value_is "pascal_case(foo_bar)" "FooBar".
Proof. vm_compute. reflexivity. Qed.
(** README.md 521-539 *)
Example token_row_1 : value_is "normalize(&'static str)" "static_str".
Proof. vm_compute. reflexivity. Qed.
Example token_row_2 : value_is "normalize2(FooBar)" "FooBar".
Proof. vm_compute. reflexivity. Qed.
Example token_row_3 : value_is "normalize2(""&'static str"")" "static_str".
Proof. vm_compute. reflexivity. Qed.
Example token_row_4 : value_is "normalize2(123)" "_123".
Proof. vm_compute. reflexivity. Qed.
Example token_row_5 : value_is "normalize2(Foo::Bar)" "Foo_Bar".
Proof. vm_compute. reflexivity. Qed.
Example token_row_6 : value_is "normalize2(&'static str)" "static_str".
Proof. vm_compute. reflexivity. Qed.
Example token_row_7 : value_is "normalize2(1 + 2)" "_1_2".
Proof. vm_compute. reflexivity. Qed.
Example token_row_8 : value_is "normalize2(raw(Result<u32, String>))" "Result_u32_String".
Proof. vm_compute. reflexivity. Qed.
Example token_row_9 : value_is "concat(foo, _, bar)" "foo_bar".
Proof. vm_compute. reflexivity. Qed.
Example token_row_10 : value_is "concat(prefix, _, 123)" "prefix_123".
Proof. vm_compute. reflexivity. Qed.
Example token_row_11 : value_is "concat(""foo"", ""_"", ""bar"")" """foo_bar""".
Proof. vm_compute. reflexivity. Qed.
Example token_row_12 : value_is "concat(1, 2, 3)" "123".
Proof. vm_compute. reflexivity. Qed.
Example token_row_13 : value_is "concat(Result<, raw(u32,), String, >)" "Result<u32, String>".
Proof. vm_compute. reflexivity. Qed.
(** README.md 551-564, except the rows of [to_path] and [to_type] *)
Example cast_row_1 : value_is "raw(Result<u32, Error>)" "Result<u32, Error>".
Proof. vm_compute. reflexivity. Qed.
Example cast_row_2 : value_is "to_ident(lower(""FOO""))" "foo".
Proof. vm_compute. reflexivity. Qed.
Example cast_row_3 : value_is "to_expr(concat(1, +, 2))" "1 + 2".
Proof. vm_compute. reflexivity. Qed.
Example cast_row_4 : value_is "to_str(foo)" """foo""".
Proof. vm_compute. reflexivity. Qed.
Example cast_row_5 : value_is "to_int(concat(4, 2))" "42".
Proof. vm_compute. reflexivity. Qed.
Example cast_row_6 : value_is "to_tokens(foo)" "foo".
Proof. vm_compute. reflexivity. Qed.
(** Those two are errors (C14): [concat(ident, tokens...)] is the chosen overload. *)
Example to_path_row : use_of "to_path(concat(std, ::, vec))" = [CompileError EvalError].
Proof. vm_compute. reflexivity. Qed.
Example to_type_row : use_of "to_type(concat(Vec, <, u32, >))" = [CompileError EvalError].
Proof. vm_compute. reflexivity. Qed.
(** What does give these results. *)
Example to_path_other : value_is "to_path(raw(std::vec))" "std::vec".
Proof. vm_compute. reflexivity. Qed.
Example to_type_other : value_is "to_type(concat(Vec<, u32, >))" "Vec<u32>".
Proof. vm_compute. reflexivity. Qed.
(** README.md 541-549: the numbers there are made up; those of seed 1 are these. *)
Example hash_row_1 : value_is "hash(""input"")" """7903761883308571045""".
Proof. vm_compute. reflexivity. Qed.
Example hash_row_2 : value_is "hash(input)" "__7903761883308571045".
Proof. vm_compute. reflexivity. Qed.
Example hash_row_3 : value_is "hash(foo + bar)" "__6107859719471618983".
Proof. vm_compute. reflexivity. Qed.
(** README.md 449-466 *)
Example alias_row_1 : value_is "foo" "foo".
Proof. vm_compute. reflexivity. Qed.
Example alias_row_2 : value_is "concat(foo, _, bar)" "foo_bar".
Proof. vm_compute. reflexivity. Qed.
Example alias_row_3 : value_is "upper(snake_case(fooBarBaz))" "FOO_BAR_BAZ".
Proof. vm_compute. reflexivity. Qed.
Example alias_row_4 : value_is "concat(Result<, raw(u32,), String>)" "Result<u32, String>".
Proof. vm_compute. reflexivity. Qed.
Example alias_row_5 : value_is "concat(my, _, fn, _, normalize(My::Enum))" "my_fn_My_Enum".
Proof. vm_compute. reflexivity. Qed.
(** README.md 477-490: the types of the examples.  [raw] is no type of a value. *)
Example type_row_1 : parsed_value "foo, y" = value_of TyIdent "foo" ", y".
Proof. vm_compute. reflexivity. Qed.
(** README: "type"; the repository's own test (parse/value.rs 141-146) says path. *)
Example type_row_2 : parsed_value "Result<u32, Error>, y" = value_of TyPath "Result<u32, Error>" ", y".
Proof. vm_compute. reflexivity. Qed.
Example type_row_3 : parsed_value "foo::bar, y" = value_of TyPath "foo::bar" ", y".
Proof. vm_compute. reflexivity. Qed.
Example type_row_4 : parsed_value "2 + 2, y" = value_of TyExpr "2 + 2" ", y".
Proof. vm_compute. reflexivity. Qed.
Example type_row_5 : parsed_value "if c { 1 } else { 0 }, y" = value_of TyExpr "if c { 1 } else { 0 }" ", y".
Proof. vm_compute. reflexivity. Qed.
Example type_row_6 : parsed_value """foo"", y" = value_of TyLitStr """foo""" ", y".
Proof. vm_compute. reflexivity. Qed.
Example type_row_7 : parsed_value "123, y" = value_of TyLitInt "123" ", y".
Proof. vm_compute. reflexivity. Qed.
Example type_row_8 : parsed_value "mod foo { fn bar() -> u32 { 0 } }, y" = value_of TyTokens "mod foo { fn bar() -> u32 { 0 } }" ", y".
Proof. vm_compute. reflexivity. Qed.

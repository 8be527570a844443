(** The repository's interpreter tests, on the model.  Generated by tools/conformance.py. *)
From Coq Require Import String.
From Verif Require Import Base RustInstance.
Open Scope list_scope.

(** ** src/interpreter/tests/aliases.rs *)
(** 9-15 *)
Example aliases_value_expr :
  run_case "alias = foo"
    "{ fn alias() -> u32 { 1 } }"
  = statements "{ fn foo() -> u32 { 1 } }".
Proof. vm_compute. reflexivity. Qed.
(** 17-23 *)
Example aliases_call_expr :
  run_case "alias = concat(foo, _, bar)"
    "{ fn alias() -> u32 { 1 } }"
  = statements "{ fn foo_bar() -> u32 { 1 } }".
Proof. vm_compute. reflexivity. Qed.
(** 25-31 *)
Example aliases_multiple_aliases :
  run_case "alias1 = foo, alias2 = concat(foo, _, bar)"
    "{ fn alias1() -> u32 { alias2 } }"
  = statements "{ fn foo() -> u32 { foo_bar } }".
Proof. vm_compute. reflexivity. Qed.
(** 33-39 *)
Example aliases_alias_reuse :
  run_case "alias1 = foo, alias2 = concat(alias1, _, bar)"
    "{ fn alias1() -> u32 { alias2 } }"
  = statements "{ fn foo() -> u32 { foo_bar } }".
Proof. vm_compute. reflexivity. Qed.
(** 41-47 *)
Example aliases_duplicate_aliases :
  failure (run_case "alias = foo, alias = bar"
    "{ fn alias() -> u32 { alias2 } }")
  = Some "RedefinedNameError"%string.
Proof. vm_compute. reflexivity. Qed.
(** 57-63 *)
Example aliases_reuse_coercion :
  run_case "s = ""foo bar"", alias = s"
    "{ fn my_fn() -> &str { alias } }"
  = statements "{ fn my_fn() -> &str { ""foo bar"" } }".
Proof. vm_compute. reflexivity. Qed.

(** ** src/interpreter/tests/calls.rs *)
(** 8-22 *)
Example calls_simple_call :
  run_case "alias = upper(foo)"
    "{ fn alias() -> u32 { 1 } }"
  = statements "{ fn FOO() -> u32 { 1 } }".
Proof. vm_compute. reflexivity. Qed.
(** 24-38 *)
Example calls_nested_calls :
  run_case "alias = lower(normalize(Foo::Bar))"
    "{ fn alias() -> u32 { 1 } }"
  = statements "{ fn foo_bar() -> u32 { 1 } }".
Proof. vm_compute. reflexivity. Qed.
(** 40-54 *)
Example calls_mixed_args :
  run_case "alias = concat(foo, _, normalize(bar::baz))"
    "{ fn alias() -> u32 { 1 } }"
  = statements "{ fn foo_bar_baz() -> u32 { 1 } }".
Proof. vm_compute. reflexivity. Qed.
(** 56-66 *)
Example calls_wrong_num_args :
  failure (run_case "alias = lower(foo, bar)"
    "{ fn alias() -> u32 { 1 } }")
  = Some "SignatureError"%string.
Proof. vm_compute. reflexivity. Qed.
(** 68-78 *)
Example calls_missing_args :
  failure (run_case "alias = lower()"
    "{ fn alias() -> u32 { 1 } }")
  = Some "SignatureError"%string.
Proof. vm_compute. reflexivity. Qed.

(** ** src/interpreter/tests/loops.rs *)
(** 8-34 *)
Example loops_simple_loop :
  run_case "for suffix in [foo, bar] my_static = suffix, my_fn = concat(my, _, suffix)"
    "{ static my_static: u32 = 42; fn my_fn() -> u32 { 42 } }"
  = statements "{ static foo: u32 = 42; fn my_foo() -> u32 { 42 } static bar: u32 = 42; fn my_bar() -> u32 { 42 } }".
Proof. vm_compute. reflexivity. Qed.
(** 37-54 *)
Example loops_nested_cartesian :
  run_case "for a in [x, y] for b in [1, 2] fn_name = concat(a, _, b)"
    "{ fn fn_name() -> u32 { 0 } }"
  = statements "{ fn x_1() -> u32 { 0 } fn x_2() -> u32 { 0 } fn y_1() -> u32 { 0 } fn y_2() -> u32 { 0 } }".
Proof. vm_compute. reflexivity. Qed.
(** 57-78 *)
Example loops_triple_nested_cartesian :
  run_case "for a in [x, y] for b in [1, 2] for c in [A, B] fn_name = concat(a, _, b, _, c)"
    "{ fn fn_name() -> u32 { 0 } }"
  = statements "{ fn x_1_A() -> u32 { 0 } fn x_1_B() -> u32 { 0 } fn x_2_A() -> u32 { 0 } fn x_2_B() -> u32 { 0 } fn y_1_A() -> u32 { 0 } fn y_1_B() -> u32 { 0 } fn y_2_A() -> u32 { 0 } fn y_2_B() -> u32 { 0 } }".
Proof. vm_compute. reflexivity. Qed.
(** 81-94 *)
Example loops_tuple_destructuring :
  run_case "for (name, type_, value) in [(foo, &'static str, ""foo""), (bar, Option<u32>, None)] fn_name = concat(make_, name)"
    "{ fn fn_name() -> type_ { value } }"
  = statements "{ fn make_foo() -> &'static str { ""foo"" } fn make_bar() -> Option<u32> { None } }".
Proof. vm_compute. reflexivity. Qed.
(** 97-112 *)
Example loops_nested_tuple_destructuring :
  run_case "for (name, (return_type, param_type)) in [ (fn1, (Result<&'static str, String>, Vec::<i32>)), (fn2, (Option<(i32, i32)>, std::collections::HashMap<u8, u16>)) ]"
    "{ fn name(arg: param_type) -> return_type { panic!() } }"
  = statements "{ fn fn1(arg: Vec::<i32>) -> Result<&'static str, String> { panic!() } fn fn2(arg: std::collections::HashMap<u8, u16>) -> Option<(i32, i32)> { panic!() } }".
Proof. vm_compute. reflexivity. Qed.
(** 115-131 *)
Example loops_alias_reuse_in_user_spec :
  run_case "for suffix in [FOO, BAR] lower_suffix = lower(suffix), fn_name = concat(make_, lower_suffix)"
    "{ fn fn_name() -> u32 { 0 } }"
  = statements "{ fn make_foo() -> u32 { 0 } fn make_bar() -> u32 { 0 } }".
Proof. vm_compute. reflexivity. Qed.
(** 134-146 *)
Example loops_empty_source_list :
  run_case "for suffix in [] fn_name = concat(my_, suffix)"
    "{ fn fn_name() -> u32 { 0 } }"
  = statements "{ }".
Proof. vm_compute. reflexivity. Qed.
(** 149-166 *)
Example loops_string_formatting :
  run_case "for name in [foo, bar] fn_name = concat(test_, name)"
    "{ #[doc = ""Docstring for % fn_name %""] fn fn_name() -> u32 { 0 } }"
  = statements "{ #[doc = ""Docstring for test_foo""] fn test_foo() -> u32 { 0 } #[doc = ""Docstring for test_bar""] fn test_bar() -> u32 { 0 } }".
Proof. vm_compute. reflexivity. Qed.
(** 169-180 *)
Example loops_only_loops_no_user_spec :
  run_case "for name in [alpha, beta]"
    "{ fn name() -> u32 { 0 } }"
  = statements "{ fn alpha() -> u32 { 0 } fn beta() -> u32 { 0 } }".
Proof. vm_compute. reflexivity. Qed.

(** ** src/interpreter/tests/non_terminals.rs *)
(** 8-18 *)
Example non_terminals_function_name :
  run_case "alias = foo"
    "{ fn alias() {} }"
  = statements "{ fn foo() {} }".
Proof. vm_compute. reflexivity. Qed.
(** 20-34 *)
Example non_terminals_module_name :
  run_case "alias = foo"
    "{ mod alias { pub fn my_fn() {} } }"
  = statements "{ mod foo { pub fn my_fn() {} } }".
Proof. vm_compute. reflexivity. Qed.
(** 36-50 *)
Example non_terminals_function_in_module :
  run_case "alias = foo"
    "{ mod my_mod { fn alias() {} } }"
  = statements "{ mod my_mod { fn foo() {} } }".
Proof. vm_compute. reflexivity. Qed.
(** 52-62 *)
Example non_terminals_generic_param_type :
  run_case "alias = Type"
    "{ fn my_fn<alias>(x: alias) {} }"
  = statements "{ fn my_fn<Type>(x: Type) {} }".
Proof. vm_compute. reflexivity. Qed.
(** 64-78 *)
Example non_terminals_const_generic_param :
  run_case "alias = N"
    "{ fn my_array<const alias: usize>() { let _: [u8; alias]; } }"
  = statements "{ fn my_array<const N: usize>() { let _: [u8; N]; } }".
Proof. vm_compute. reflexivity. Qed.
(** 80-90 *)
Example non_terminals_struct_name :
  run_case "alias = Foo"
    "{ struct alias; }"
  = statements "{ struct Foo; }".
Proof. vm_compute. reflexivity. Qed.
(** 92-106 *)
Example non_terminals_enum_variant_name :
  run_case "alias = Variant"
    "{ enum E { alias, } }"
  = statements "{ enum E { Variant, } }".
Proof. vm_compute. reflexivity. Qed.
(** 108-118 *)
Example non_terminals_trait_name :
  run_case "alias = MyTrait"
    "{ trait alias {} }"
  = statements "{ trait MyTrait {} }".
Proof. vm_compute. reflexivity. Qed.
(** 120-130 *)
Example non_terminals_path_segment_in_use :
  run_case "alias = Bar"
    "{ use foo::alias::baz; }"
  = statements "{ use foo::Bar::baz; }".
Proof. vm_compute. reflexivity. Qed.
(** 132-150 *)
Example non_terminals_where_clause_trait :
  run_case "alias = Iterator"
    "{ fn my_fn<T>() where T: alias<Item = u8>, { } }"
  = statements "{ fn my_fn<T>() where T: Iterator<Item = u8>, { } }".
Proof. vm_compute. reflexivity. Qed.
(** 152-162 *)
Example non_terminals_lifetime_param_and_ref :
  run_case "alias = a"
    "{ fn my_fn<'alias>(x: &'alias u8) {} }"
  = statements "{ fn my_fn<'a>(x: &'a u8) {} }".
Proof. vm_compute. reflexivity. Qed.
(** 164-178 *)
Example non_terminals_const_generic_expr_in_type :
  run_case "alias = N"
    "{ fn my_fn<const alias: usize>() { let _: [u8; alias + 1]; } }"
  = statements "{ fn my_fn<const N: usize>() { let _: [u8; N + 1]; } }".
Proof. vm_compute. reflexivity. Qed.
(** 180-198 *)
Example non_terminals_where_clause_assoc_type_name :
  run_case "alias = Item"
    "{ fn my_fn<T>() where T: Iterator<alias = u8>, { } }"
  = statements "{ fn my_fn<T>() where T: Iterator<Item = u8>, { } }".
Proof. vm_compute. reflexivity. Qed.

(** ** src/interpreter/tests/string_formatting.rs *)
(** 8-22 *)
Example string_formatting_basic :
  run_case "my_alias = concat(foo, _, bar)"
    "{ static MY_STRING: &str = ""Hello, % my_alias %!""; static MY_STRING_NO_WHITESPACE: &str = ""Hello, %my_alias%!""; static MY_STRING_IRREGULAR_WHITESPACE: &str = ""Hello, % my_alias  %!""; }"
  = statements "{ static MY_STRING: &str = ""Hello, foo_bar!""; static MY_STRING_NO_WHITESPACE: &str = ""Hello, foo_bar!""; static MY_STRING_IRREGULAR_WHITESPACE: &str = ""Hello, foo_bar!""; }".
Proof. vm_compute. reflexivity. Qed.
(** 24-40 *)
Example string_formatting_doc_attr :
  run_case "my_fn = concat(foo, _, bar)"
    "{ #[doc = ""My doc comment for % my_fn %""] fn my_fn() -> u32 { 42 } }"
  = statements "{ #[doc = ""My doc comment for foo_bar""] fn foo_bar() -> u32 { 42 } }".
Proof. vm_compute. reflexivity. Qed.
(** 42-52 *)
Example string_formatting_escape_percent :
  run_case "my_alias = concat(foo, _, bar)"
    "{ static MY_STRING: &str = ""Hello, % my_alias % %%""; }"
  = statements "{ static MY_STRING: &str = ""Hello, foo_bar %""; }".
Proof. vm_compute. reflexivity. Qed.
(** 54-64 *)
Example string_formatting_undefined_alias :
  run_case "my_other_alias = foo"
    "{ static MY_STRING: &str = ""Hello, % my_alias %!""; }"
  = statements "{ static MY_STRING: &str = ""Hello, % my_alias %!""; }".
Proof. vm_compute. reflexivity. Qed.
(** 66-76 *)
Example string_formatting_unterminated_placeholder :
  run_case "my_alias = concat(foo, _, bar)"
    "{ static MY_STRING: &str = ""Hello, % my_alias""; }"
  = statements "{ static MY_STRING: &str = ""Hello, % my_alias""; }".
Proof. vm_compute. reflexivity. Qed.
(** 78-88 *)
Example string_formatting_percent_non_placeholder :
  run_case "my_alias = concat(foo, _, bar)"
    "{ static MY_STRING: &str = ""Value: %x""; }"
  = statements "{ static MY_STRING: &str = ""Value: %x""; }".
Proof. vm_compute. reflexivity. Qed.

(** ** src/interpreter/tests/types.rs *)
(** 8-14 *)
Example types_ident :
  run_case "alias = foo"
    "{ fn alias() -> u32 { 1 } }"
  = statements "{ fn foo() -> u32 { 1 } }".
Proof. vm_compute. reflexivity. Qed.
(** 15-21 *)
Example types_raw_keyword :
  run_case "alias = r#type"
    "{ fn alias() -> u32 { 1 } }"
  = statements "{ fn r#type() -> u32 { 1 } }".
Proof. vm_compute. reflexivity. Qed.
(** 22-28 *)
Example types_ident_with_digits :
  run_case "alias = foo123"
    "{ fn alias() {} }"
  = statements "{ fn foo123() {} }".
Proof. vm_compute. reflexivity. Qed.
(** 29-35 *)
Example types_underscore :
  run_case "alias = _"
    "{ fn f() { let alias = 1; } }"
  = statements "{ fn f() { let _ = 1; } }".
Proof. vm_compute. reflexivity. Qed.
(** 38-44 *)
Example types_path_simple :
  run_case "alias = foo::bar"
    "{ fn f(_: alias) {} }"
  = statements "{ fn f(_: foo::bar) {} }".
Proof. vm_compute. reflexivity. Qed.
(** 45-51 *)
Example types_path_with_generic_args :
  run_case "alias = Result<i32, String>"
    "{ fn f(_: alias) {} }"
  = statements "{ fn f(_: Result<i32, String>) {} }".
Proof. vm_compute. reflexivity. Qed.
(** 52-58 *)
Example types_path_with_lifetime_generic_param :
  run_case "alias = std::slice::Iter<'a, T>"
    "{ fn f<'a, T>(_: alias) {} }"
  = statements "{ fn f<'a, T>(_: std::slice::Iter<'a, T>) {} }".
Proof. vm_compute. reflexivity. Qed.
(** 61-67 *)
Example types_type_array :
  run_case "alias = [u8; 32]"
    "{ fn f(_: alias) {} }"
  = statements "{ fn f(_: [u8; 32]) {} }".
Proof. vm_compute. reflexivity. Qed.
(** 68-74 *)
Example types_type_fn :
  run_case "alias = fn(i32) -> i32"
    "{ fn f(_: alias) {} }"
  = statements "{ fn f(_: fn(i32) -> i32) {} }".
Proof. vm_compute. reflexivity. Qed.
(** 75-81 *)
Example types_type_dyn_bounds :
  run_case "alias = dyn Iterator<Item = u8> + Send + 'static"
    "{ fn f(_: alias) {} }"
  = statements "{ fn f(_: dyn Iterator<Item = u8> + Send + 'static) {} }".
Proof. vm_compute. reflexivity. Qed.
(** 84-90 *)
Example types_expr_binary :
  run_case "alias = 2 + 2"
    "{ fn f() { let _ = alias; } }"
  = statements "{ fn f() { let _ = 2 + 2; } }".
Proof. vm_compute. reflexivity. Qed.
(** 91-97 *)
Example types_expr_block :
  run_case "alias = { let x = 1; x + 1 }"
    "{ fn f() { let _ = alias; } }"
  = statements "{ fn f() { let _ = { let x = 1; x + 1 }; } }".
Proof. vm_compute. reflexivity. Qed.
(** 98-104 *)
Example types_expr_call :
  run_case "alias = foo(1, 2)"
    "{ fn f() { let _ = alias; } }"
  = statements "{ fn f() { let _ = foo(1, 2); } }".
Proof. vm_compute. reflexivity. Qed.
(** 107-113 *)
Example types_litint_dec :
  run_case "alias = 123"
    "{ fn f() { let _ = alias; } }"
  = statements "{ fn f() { let _ = 123; } }".
Proof. vm_compute. reflexivity. Qed.
(** 114-120 *)
Example types_litint_underscore :
  run_case "alias = 1_000_000"
    "{ fn f() { let _ = alias; } }"
  = statements "{ fn f() { let _ = 1_000_000; } }".
Proof. vm_compute. reflexivity. Qed.
(** 123-129 *)
Example types_litstr_simple :
  run_case "alias = ""hello"""
    "{ fn f() { let _ = alias; } }"
  = statements "{ fn f() { let _ = ""hello""; } }".
Proof. vm_compute. reflexivity. Qed.
(** 130-136 *)
Example types_litstr_raw_hashes :
  run_case "alias = r#""he""llo""#"
    "{ fn f() { let _ = alias; } }"
  = statements "{ fn f() { let _ = r#""he""llo""#; } }".
Proof. vm_compute. reflexivity. Qed.
(** 139-145 *)
Example types_tokens_item_injection :
  run_case "alias = #[derive(Default)] struct X;"
    "{ alias }"
  = statements "{ #[derive(Default)] struct X; }".
Proof. vm_compute. reflexivity. Qed.
(** 146-152 *)
Example types_tokens_let_stmt :
  run_case "alias = let x = 1;"
    "{ fn f() { alias } }"
  = statements "{ fn f() { let x = 1; } }".
Proof. vm_compute. reflexivity. Qed.

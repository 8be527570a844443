(** The repository's tests of the functions, on the model.  Generated by tools/conformance.py. *)
From Coq Require Import String.
From Verif Require Import Base RustInstance.
Open Scope list_scope.

(** ** src/interpreter/tests/funcs/camel_case.rs *)
(** 8-18 *)
Example camel_case_ident :
  run_case "alias = camel_case(foo_bar_baz)"
    "{ fn alias() -> u32 { 1 } }"
  = statements "{ fn fooBarBaz() -> u32 { 1 } }".
Proof. vm_compute. reflexivity. Qed.
(** 19-29 *)
Example camel_case_str :
  run_case "alias = camel_case(""foo_bar"")"
    "{ fn my_fn() -> &str { alias } }"
  = statements "{ fn my_fn() -> &str { ""fooBar"" } }".
Proof. vm_compute. reflexivity. Qed.
(** 30-38 *)
Example camel_case_path_failure :
  failure (run_case "alias = camel_case(foo::bar)"
    "{ fn my_fn() -> &str { alias } }")
  = Some "SignatureError"%string.
Proof. vm_compute. reflexivity. Qed.
(** 39-47 *)
Example camel_case_expr_failure :
  failure (run_case "alias = camel_case(|| 42)"
    "{ fn my_fn() -> &str { alias } }")
  = Some "SignatureError"%string.
Proof. vm_compute. reflexivity. Qed.
(** 48-56 *)
Example camel_case_int_failure :
  failure (run_case "alias = camel_case(42)"
    "{ fn my_fn() -> &str { alias } }")
  = Some "SignatureError"%string.
Proof. vm_compute. reflexivity. Qed.
(** 57-65 *)
Example camel_case_tokens_failure :
  failure (run_case "alias = camel_case(let x = 1;)"
    "{ fn my_fn() -> &str { alias } }")
  = Some "SignatureError"%string.
Proof. vm_compute. reflexivity. Qed.

(** ** src/interpreter/tests/funcs/concat.rs *)
(** 8-22 *)
Example concat_idents :
  run_case "alias = concat(foo, Bar, Baz)"
    "{ fn alias() -> u32 { 42 } }"
  = statements "{ fn fooBarBaz() -> u32 { 42 } }".
Proof. vm_compute. reflexivity. Qed.
(** 23-37 *)
Example concat_idents_and_tokens :
  run_case "alias = concat(foo, _, 1, _, bar)"
    "{ fn alias() -> u32 { 42 } }"
  = statements "{ fn foo_1_bar() -> u32 { 42 } }".
Proof. vm_compute. reflexivity. Qed.
(** 38-48 *)
Example concat_idents_and_tokens_failure :
  failure (run_case "alias = concat(foo, _, 1, _, &'static str)"
    "{ fn alias() -> u32 { 42 } }")
  = Some "EvalError"%string.
Proof. vm_compute. reflexivity. Qed.
(** 49-63 *)
Example concat_strs :
  run_case "alias = concat(""foo"", ""bar"", ""baz"")"
    "{ fn my_fn() -> &str { alias } }"
  = statements "{ fn my_fn() -> &str { ""foobarbaz"" } }".
Proof. vm_compute. reflexivity. Qed.
(** 64-78 *)
Example concat_ints :
  run_case "alias = concat(1, 2, 3)"
    "{ fn my_fn() -> u32 { alias } }"
  = statements "{ fn my_fn() -> u32 { 123 } }".
Proof. vm_compute. reflexivity. Qed.
(** 79-94 *)
Example concat_tokens :
  run_case "alias = concat(Result<, raw(u32,), String, >)"
    "{ fn my_fn() -> alias { Ok(42) } }"
  = statements "{ fn my_fn() -> Result<u32, String> { Ok(42) } }".
Proof. vm_compute. reflexivity. Qed.

(** ** src/interpreter/tests/funcs/hash.rs *)
(** 7-18 *)
Example hash_ident :
  run_case "alias = hash(FooBar)"
    "{ fn alias() -> u32 { 1 } }"
  = statements "{ fn __1864179433826574950() -> u32 { 1 } }".
Proof. vm_compute. reflexivity. Qed.
(** 19-29 *)
Example hash_str :
  run_case "alias = hash(""foo"")"
    "{ fn my_fn() -> &str { alias } }"
  = statements "{ fn my_fn() -> &str { ""10172337927241793445"" } }".
Proof. vm_compute. reflexivity. Qed.
(** 30-40 *)
Example hash_tokens :
  run_case "alias = hash(let x = 1;)"
    "{ fn alias() -> u32 { 1 } }"
  = statements "{ fn __18050448427594546802() -> u32 { 1 } }".
Proof. vm_compute. reflexivity. Qed.

(** ** src/interpreter/tests/funcs/lower.rs *)
(** 8-18 *)
Example lower_ident :
  run_case "alias = lower(FooBar)"
    "{ fn alias() -> u32 { 1 } }"
  = statements "{ fn foobar() -> u32 { 1 } }".
Proof. vm_compute. reflexivity. Qed.
(** 19-29 *)
Example lower_str :
  run_case "alias = lower(""FoO"")"
    "{ fn my_fn() -> &str { alias } }"
  = statements "{ fn my_fn() -> &str { ""foo"" } }".
Proof. vm_compute. reflexivity. Qed.
(** 30-38 *)
Example lower_path_failure :
  failure (run_case "alias = lower(foo::bar)"
    "{ fn my_fn() -> &str { alias } }")
  = Some "SignatureError"%string.
Proof. vm_compute. reflexivity. Qed.
(** 39-47 *)
Example lower_expr_failure :
  failure (run_case "alias = lower(|| 42)"
    "{ fn my_fn() -> &str { alias } }")
  = Some "SignatureError"%string.
Proof. vm_compute. reflexivity. Qed.
(** 48-56 *)
Example lower_int_failure :
  failure (run_case "alias = lower(42)"
    "{ fn my_fn() -> &str { alias } }")
  = Some "SignatureError"%string.
Proof. vm_compute. reflexivity. Qed.
(** 57-65 *)
Example lower_tokens_failure :
  failure (run_case "alias = lower(let x = 1;)"
    "{ fn my_fn() -> &str { alias } }")
  = Some "SignatureError"%string.
Proof. vm_compute. reflexivity. Qed.

(** ** src/interpreter/tests/funcs/normalize.rs *)
(** 7-17 *)
Example normalize_lifetime :
  run_case "alias = normalize(&'static str)"
    "{ fn alias() -> u32 { 6 } }"
  = statements "{ fn static_str() -> u32 { 6 } }".
Proof. vm_compute. reflexivity. Qed.
(** 18-28 *)
Example normalize_generic_type :
  run_case "alias = normalize(Result<T, E>)"
    "{ fn my_fn() { let alias = 7; } }"
  = statements "{ fn my_fn() { let Result_T_E = 7; } }".
Proof. vm_compute. reflexivity. Qed.
(** 29-39 *)
Example normalize_path :
  run_case "alias = normalize(Foo::Bar)"
    "{ fn my_fn() { let alias = 7; } }"
  = statements "{ fn my_fn() { let Foo_Bar = 7; } }".
Proof. vm_compute. reflexivity. Qed.
(** 40-50 *)
Example normalize_path_turbofish :
  run_case "alias = normalize(HashMap::<String, i32>)"
    "{ fn my_fn() { let alias = 7; } }"
  = statements "{ fn my_fn() { let HashMap_String_i32 = 7; } }".
Proof. vm_compute. reflexivity. Qed.
(** 51-61 *)
Example normalize_path_tuple :
  run_case "alias = normalize(HashMap::<(u64, u64), i32>)"
    "{ fn my_fn() { let alias = 7; } }"
  = statements "{ fn my_fn() { let HashMap_u64_u64_i32 = 7; } }".
Proof. vm_compute. reflexivity. Qed.
(** 62-72 *)
Example normalize_valid_function_call :
  run_case "alias = normalize(lower(FOO))"
    "{ fn my_fn() { let alias = 7; } }"
  = statements "{ fn my_fn() { let lower_FOO = 7; } }".
Proof. vm_compute. reflexivity. Qed.

(** ** src/interpreter/tests/funcs/normalize2.rs *)
(** 8-14 *)
Example normalize2_ident :
  run_case "alias = normalize2(foo)"
    "{ fn alias() -> u32 { 6 } }"
  = statements "{ fn foo() -> u32 { 6 } }".
Proof. vm_compute. reflexivity. Qed.
(** 16-22 *)
Example normalize2_string :
  run_case "alias = normalize2(""foo bar"")"
    "{ fn alias() -> u32 { 6 } }"
  = statements "{ fn foo_bar() -> u32 { 6 } }".
Proof. vm_compute. reflexivity. Qed.
(** 24-30 *)
Example normalize2_int :
  run_case "alias = normalize2(123)"
    "{ fn alias() -> u32 { 6 } }"
  = statements "{ fn _123() -> u32 { 6 } }".
Proof. vm_compute. reflexivity. Qed.
(** 32-38 *)
Example normalize2_path :
  run_case "alias = normalize2(Foo::Bar)"
    "{ fn alias() -> u32 { 6 } }"
  = statements "{ fn Foo_Bar() -> u32 { 6 } }".
Proof. vm_compute. reflexivity. Qed.
(** 40-46 *)
Example normalize2_type_ :
  run_case "alias = normalize2(&'static str)"
    "{ fn alias() -> u32 { 6 } }"
  = statements "{ fn static_str() -> u32 { 6 } }".
Proof. vm_compute. reflexivity. Qed.
(** 48-54 *)
Example normalize2_expr :
  run_case "alias = normalize2(1 + 2)"
    "{ fn alias() -> u32 { 6 } }"
  = statements "{ fn _1_2() -> u32 { 6 } }".
Proof. vm_compute. reflexivity. Qed.
(** 56-62 *)
Example normalize2_tokens_via_raw :
  run_case "alias = normalize2(raw(Result<u32, String>))"
    "{ fn alias() -> u32 { 6 } }"
  = statements "{ fn Result_u32_String() -> u32 { 6 } }".
Proof. vm_compute. reflexivity. Qed.

(** ** src/interpreter/tests/funcs/pascal_case.rs *)
(** 8-18 *)
Example pascal_case_ident :
  run_case "alias = pascal_case(foo_bar_baz)"
    "{ fn alias() -> u32 { 1 } }"
  = statements "{ fn FooBarBaz() -> u32 { 1 } }".
Proof. vm_compute. reflexivity. Qed.
(** 19-29 *)
Example pascal_case_str :
  run_case "alias = pascal_case(""foo_bar"")"
    "{ fn my_fn() -> &str { alias } }"
  = statements "{ fn my_fn() -> &str { ""FooBar"" } }".
Proof. vm_compute. reflexivity. Qed.
(** 30-38 *)
Example pascal_case_path_failure :
  failure (run_case "alias = pascal_case(foo::bar)"
    "{ fn my_fn() -> &str { alias } }")
  = Some "SignatureError"%string.
Proof. vm_compute. reflexivity. Qed.
(** 39-47 *)
Example pascal_case_expr_failure :
  failure (run_case "alias = pascal_case(|| 42)"
    "{ fn my_fn() -> &str { alias } }")
  = Some "SignatureError"%string.
Proof. vm_compute. reflexivity. Qed.
(** 48-56 *)
Example pascal_case_int_failure :
  failure (run_case "alias = pascal_case(42)"
    "{ fn my_fn() -> &str { alias } }")
  = Some "SignatureError"%string.
Proof. vm_compute. reflexivity. Qed.
(** 57-65 *)
Example pascal_case_tokens_failure :
  failure (run_case "alias = pascal_case(let x = 1;)"
    "{ fn my_fn() -> &str { alias } }")
  = Some "SignatureError"%string.
Proof. vm_compute. reflexivity. Qed.

(** ** src/interpreter/tests/funcs/raw.rs *)
(** 8-18 *)
Example raw_trailing_comma :
  run_case "alias = raw(u64,)"
    "{ fn my_fn() -> (alias) { (1,) } }"
  = statements "{ fn my_fn() -> (u64,) { (1,) } }".
Proof. vm_compute. reflexivity. Qed.
(** 20-30 *)
Example raw_module :
  run_case "alias = raw(mod foo { fn bar() -> u32 { 0 } })"
    "{ alias }"
  = statements "{ mod foo { fn bar() -> u32 { 0 } } }".
Proof. vm_compute. reflexivity. Qed.

(** ** src/interpreter/tests/funcs/snake_case.rs *)
(** 8-18 *)
Example snake_case_ident :
  run_case "alias = snake_case(FooBarBaz)"
    "{ fn alias() -> u32 { 1 } }"
  = statements "{ fn foo_bar_baz() -> u32 { 1 } }".
Proof. vm_compute. reflexivity. Qed.
(** 19-29 *)
Example snake_case_str :
  run_case "alias = snake_case(""FooBar"")"
    "{ fn my_fn() -> &str { alias } }"
  = statements "{ fn my_fn() -> &str { ""foo_bar"" } }".
Proof. vm_compute. reflexivity. Qed.
(** 30-38 *)
Example snake_case_path_failure :
  failure (run_case "alias = snake_case(foo::bar)"
    "{ fn my_fn() -> &str { alias } }")
  = Some "SignatureError"%string.
Proof. vm_compute. reflexivity. Qed.
(** 39-47 *)
Example snake_case_expr_failure :
  failure (run_case "alias = snake_case(|| 42)"
    "{ fn my_fn() -> &str { alias } }")
  = Some "SignatureError"%string.
Proof. vm_compute. reflexivity. Qed.
(** 48-56 *)
Example snake_case_int_failure :
  failure (run_case "alias = snake_case(42)"
    "{ fn my_fn() -> &str { alias } }")
  = Some "SignatureError"%string.
Proof. vm_compute. reflexivity. Qed.
(** 57-65 *)
Example snake_case_tokens_failure :
  failure (run_case "alias = snake_case(let x = 1;)"
    "{ fn my_fn() -> &str { alias } }")
  = Some "SignatureError"%string.
Proof. vm_compute. reflexivity. Qed.

(** ** src/interpreter/tests/funcs/to_expr.rs *)
(** 8-18 *)
Example to_expr_ident :
  run_case "alias = to_expr(foo)"
    "{ fn f() { let _ = alias; } }"
  = statements "{ fn f() { let _ = foo; } }".
Proof. vm_compute. reflexivity. Qed.
(** 19-29 *)
Example to_expr_path :
  run_case "alias = to_expr(foo::bar)"
    "{ fn f() { let _ = alias; } }"
  = statements "{ fn f() { let _ = foo::bar; } }".
Proof. vm_compute. reflexivity. Qed.
(** 30-40 *)
Example to_expr_expr :
  run_case "alias = to_expr(1 + 2)"
    "{ fn f() { let _ = alias; } }"
  = statements "{ fn f() { let _ = 1 + 2; } }".
Proof. vm_compute. reflexivity. Qed.
(** 41-51 *)
Example to_expr_int :
  run_case "alias = to_expr(42)"
    "{ fn f() { let _ = alias; } }"
  = statements "{ fn f() { let _ = 42; } }".
Proof. vm_compute. reflexivity. Qed.
(** 52-62 *)
Example to_expr_str :
  run_case "alias = to_expr(""foo"")"
    "{ fn f() { let _ = alias; } }"
  = statements "{ fn f() { let _ = ""foo""; } }".
Proof. vm_compute. reflexivity. Qed.
(** 63-71 *)
Example to_expr_tokens_failure :
  failure (run_case "alias = to_expr(let x = 1;)"
    "{ fn my_fn() -> &str { alias } }")
  = Some "TypeError"%string.
Proof. vm_compute. reflexivity. Qed.
(** 72-82 *)
Example to_expr_valid_function_call :
  run_case "alias = to_expr(lower(FOO))"
    "{ fn my_fn() { alias } }"
  = statements "{ fn my_fn() { foo } }".
Proof. vm_compute. reflexivity. Qed.

(** ** src/interpreter/tests/funcs/to_ident.rs *)
(** 8-18 *)
Example to_ident_ident :
  run_case "alias = to_ident(fooBar)"
    "{ fn alias() -> u32 { 1 } }"
  = statements "{ fn fooBar() -> u32 { 1 } }".
Proof. vm_compute. reflexivity. Qed.
(** 19-29 *)
Example to_ident_str :
  run_case "alias = to_ident(""fooBar"")"
    "{ fn alias() -> u32 { 1 } }"
  = statements "{ fn fooBar() -> u32 { 1 } }".
Proof. vm_compute. reflexivity. Qed.
(** 30-38 *)
Example to_ident_path_failure :
  failure (run_case "alias = to_ident(foo::bar)"
    "{ fn my_fn() -> &str { alias } }")
  = Some "TypeError"%string.
Proof. vm_compute. reflexivity. Qed.
(** 39-47 *)
Example to_ident_expr_failure :
  failure (run_case "alias = to_ident(|| 42)"
    "{ fn my_fn() -> &str { alias } }")
  = Some "TypeError"%string.
Proof. vm_compute. reflexivity. Qed.
(** 48-56 *)
Example to_ident_int_failure :
  failure (run_case "alias = to_ident(42)"
    "{ fn my_fn() -> &str { alias } }")
  = Some "TypeError"%string.
Proof. vm_compute. reflexivity. Qed.
(** 57-65 *)
Example to_ident_str_failure :
  failure (run_case "alias = to_ident(""&foo"")"
    "{ fn my_fn() -> &str { alias } }")
  = Some "TypeError"%string.
Proof. vm_compute. reflexivity. Qed.
(** 66-74 *)
Example to_ident_tokens_failure :
  failure (run_case "alias = to_ident(let x = 1;)"
    "{ fn my_fn() -> &str { alias } }")
  = Some "TypeError"%string.
Proof. vm_compute. reflexivity. Qed.
(** 75-85 *)
Example to_ident_valid_function_call_failure :
  run_case "alias = to_ident(lower(FOO))"
    "{ fn my_fn() { alias } }"
  = statements "{ fn my_fn() { foo } }".
Proof. vm_compute. reflexivity. Qed.

(** ** src/interpreter/tests/funcs/to_int.rs *)
(** 8-18 *)
Example to_int_int :
  run_case "alias = to_int(42)"
    "{ fn f() { let _ = alias; } }"
  = statements "{ fn f() { let _ = 42; } }".
Proof. vm_compute. reflexivity. Qed.
(** 19-27 *)
Example to_int_ident_failure :
  failure (run_case "alias = to_int(fooBar)"
    "{ fn my_fn() -> &str { alias } }")
  = Some "TypeError"%string.
Proof. vm_compute. reflexivity. Qed.
(** 28-36 *)
Example to_int_path_failure :
  failure (run_case "alias = to_int(foo::bar)"
    "{ fn my_fn() -> &str { alias } }")
  = Some "TypeError"%string.
Proof. vm_compute. reflexivity. Qed.
(** 37-45 *)
Example to_int_expr_failure :
  failure (run_case "alias = to_int(|| 42)"
    "{ fn my_fn() -> &str { alias } }")
  = Some "TypeError"%string.
Proof. vm_compute. reflexivity. Qed.
(** 46-54 *)
Example to_int_str_failure :
  failure (run_case "alias = to_int(""42"")"
    "{ fn my_fn() -> &str { alias } }")
  = Some "TypeError"%string.
Proof. vm_compute. reflexivity. Qed.
(** 55-63 *)
Example to_int_tokens_failure :
  failure (run_case "alias = to_int(let x = 1;)"
    "{ fn my_fn() -> &str { alias } }")
  = Some "TypeError"%string.
Proof. vm_compute. reflexivity. Qed.

(** ** src/interpreter/tests/funcs/to_path.rs *)
(** 8-18 *)
Example to_path_ident :
  run_case "alias = to_path(foo)"
    "{ fn f(_: alias) {} }"
  = statements "{ fn f(_: foo) {} }".
Proof. vm_compute. reflexivity. Qed.
(** 19-29 *)
Example to_path_path :
  run_case "alias = to_path(foo::bar)"
    "{ fn f(_: alias) {} }"
  = statements "{ fn f(_: foo::bar) {} }".
Proof. vm_compute. reflexivity. Qed.
(** 30-38 *)
Example to_path_expr_failure :
  failure (run_case "alias = to_path(|| 42)"
    "{ fn my_fn() -> &str { alias } }")
  = Some "TypeError"%string.
Proof. vm_compute. reflexivity. Qed.
(** 39-47 *)
Example to_path_int_failure :
  failure (run_case "alias = to_path(42)"
    "{ fn my_fn() -> &str { alias } }")
  = Some "TypeError"%string.
Proof. vm_compute. reflexivity. Qed.
(** 48-56 *)
Example to_path_str_failure :
  failure (run_case "alias = to_path(""foo"")"
    "{ fn my_fn() -> &str { alias } }")
  = Some "TypeError"%string.
Proof. vm_compute. reflexivity. Qed.
(** 57-65 *)
Example to_path_tokens_failure :
  failure (run_case "alias = to_path(let x = 1;)"
    "{ fn my_fn() -> &str { alias } }")
  = Some "TypeError"%string.
Proof. vm_compute. reflexivity. Qed.
(** 66-76 *)
Example to_path_valid_function_call :
  run_case "alias = to_path(lower(FOO))"
    "{ fn my_fn() { alias } }"
  = statements "{ fn my_fn() { foo } }".
Proof. vm_compute. reflexivity. Qed.

(** ** src/interpreter/tests/funcs/to_str.rs *)
(** 8-18 *)
Example to_str_ident :
  run_case "alias = to_str(fooBar)"
    "{ fn my_fn() -> &str { alias } }"
  = statements "{ fn my_fn() -> &str { ""fooBar"" } }".
Proof. vm_compute. reflexivity. Qed.
(** 19-29 *)
Example to_str_str :
  run_case "alias = to_str(""foo"")"
    "{ fn my_fn() -> &str { alias } }"
  = statements "{ fn my_fn() -> &str { ""foo"" } }".
Proof. vm_compute. reflexivity. Qed.
(** 30-38 *)
Example to_str_path_failure :
  failure (run_case "alias = to_str(foo::bar)"
    "{ fn my_fn() -> &str { alias } }")
  = Some "TypeError"%string.
Proof. vm_compute. reflexivity. Qed.
(** 39-47 *)
Example to_str_expr_failure :
  failure (run_case "alias = to_str(|| 42)"
    "{ fn my_fn() -> &str { alias } }")
  = Some "TypeError"%string.
Proof. vm_compute. reflexivity. Qed.
(** 48-56 *)
Example to_str_int_failure :
  failure (run_case "alias = to_str(42)"
    "{ fn my_fn() -> &str { alias } }")
  = Some "TypeError"%string.
Proof. vm_compute. reflexivity. Qed.
(** 57-65 *)
Example to_str_tokens_failure :
  failure (run_case "alias = to_str(let x = 1;)"
    "{ fn my_fn() -> &str { alias } }")
  = Some "TypeError"%string.
Proof. vm_compute. reflexivity. Qed.

(** ** src/interpreter/tests/funcs/to_tokens.rs *)
(** 8-18 *)
Example to_tokens_trailing_comma :
  run_case "alias = to_tokens(u64,)"
    "{ fn my_fn() -> alias { 1 } }"
  = statements "{ fn my_fn() -> u64 { 1 } }".
Proof. vm_compute. reflexivity. Qed.
(** 20-30 *)
Example to_tokens_let_stmt :
  run_case "alias = to_tokens(let x = 1;)"
    "{ fn f() { alias } }"
  = statements "{ fn f() { let x = 1; } }".
Proof. vm_compute. reflexivity. Qed.
(** 32-42 *)
Example to_tokens_item :
  run_case "alias = to_tokens(#[derive(Default)] struct X;)"
    "{ alias }"
  = statements "{ #[derive(Default)] struct X; }".
Proof. vm_compute. reflexivity. Qed.
(** 44-54 *)
Example to_tokens_valid_function_call :
  run_case "alias = to_tokens(lower(FOO))"
    "{ alias }"
  = statements "{ foo }".
Proof. vm_compute. reflexivity. Qed.

(** ** src/interpreter/tests/funcs/to_type.rs *)
(** 8-18 *)
Example to_type_ident :
  run_case "alias = to_type(Foo)"
    "{ fn f(_: alias) {} }"
  = statements "{ fn f(_: Foo) {} }".
Proof. vm_compute. reflexivity. Qed.
(** 19-29 *)
Example to_type_path :
  run_case "alias = to_type(foo::bar)"
    "{ fn f(_: alias) {} }"
  = statements "{ fn f(_: foo::bar) {} }".
Proof. vm_compute. reflexivity. Qed.
(** 30-38 *)
Example to_type_expr_failure :
  failure (run_case "alias = to_type(|| 42)"
    "{ fn my_fn() -> &str { alias } }")
  = Some "TypeError"%string.
Proof. vm_compute. reflexivity. Qed.
(** 39-47 *)
Example to_type_int_failure :
  failure (run_case "alias = to_type(42)"
    "{ fn my_fn() -> &str { alias } }")
  = Some "TypeError"%string.
Proof. vm_compute. reflexivity. Qed.
(** 48-56 *)
Example to_type_str_failure :
  failure (run_case "alias = to_type(""foo"")"
    "{ fn my_fn() -> &str { alias } }")
  = Some "TypeError"%string.
Proof. vm_compute. reflexivity. Qed.
(** 57-65 *)
Example to_type_tokens_failure :
  failure (run_case "alias = to_type(let x = 1;)"
    "{ fn my_fn() -> &str { alias } }")
  = Some "TypeError"%string.
Proof. vm_compute. reflexivity. Qed.
(** 66-76 *)
Example to_type_valid_function_call :
  run_case "alias = to_type(lower(FOO))"
    "{ fn my_fn() { alias } }"
  = statements "{ fn my_fn() { foo } }".
Proof. vm_compute. reflexivity. Qed.

(** ** src/interpreter/tests/funcs/upper.rs *)
(** 8-18 *)
Example upper_ident :
  run_case "alias = upper(fooBar)"
    "{ fn alias() -> u32 { 1 } }"
  = statements "{ fn FOOBAR() -> u32 { 1 } }".
Proof. vm_compute. reflexivity. Qed.
(** 19-29 *)
Example upper_str :
  run_case "alias = upper(""foo"")"
    "{ fn my_fn() -> &str { alias } }"
  = statements "{ fn my_fn() -> &str { ""FOO"" } }".
Proof. vm_compute. reflexivity. Qed.
(** 30-38 *)
Example upper_path_failure :
  failure (run_case "alias = upper(foo::bar)"
    "{ fn my_fn() -> &str { alias } }")
  = Some "SignatureError"%string.
Proof. vm_compute. reflexivity. Qed.
(** 39-47 *)
Example upper_expr_failure :
  failure (run_case "alias = upper(|| 42)"
    "{ fn my_fn() -> &str { alias } }")
  = Some "SignatureError"%string.
Proof. vm_compute. reflexivity. Qed.
(** 48-56 *)
Example upper_int_failure :
  failure (run_case "alias = upper(42)"
    "{ fn my_fn() -> &str { alias } }")
  = Some "SignatureError"%string.
Proof. vm_compute. reflexivity. Qed.
(** 57-65 *)
Example upper_tokens_failure :
  failure (run_case "alias = upper(let x = 1;)"
    "{ fn my_fn() -> &str { alias } }")
  = Some "SignatureError"%string.
Proof. vm_compute. reflexivity. Qed.

(** The repository's compile tests (/repo/tests/compile) and documentation snippets
    (/repo/snippets) as uses of the macros on the model.  The right-hand sides are the code
    the assertions of these files ask for. *)
From Coq Require Import String.
From Verif Require Import Base Token Item Interpreter Macro Deprecation InvisibleMacro InvisibleInstance RustLexer RustInstance.
Open Scope list_scope.

(** ** tests/compile *)

(** trailing_comma.rs *)
Example trailing_comma :
  expanded (Compose (lex "my_fn = concat(foo, _, bar), { fn my_fn() -> u32 { 42 } },"))
  = code "fn foo_bar() -> u32 { 42 }".
Proof. vm_compute. reflexivity. Qed.

(** nested_compose.rs: two uses with different [tt]s put in by [macro_rules!]. *)
Example nested_compose :
  map (fun name => expanded (Compose (lex ("my_fn = concat(foo, _, " ++ name ++ "), { fn my_fn() -> u32 { 42 } }"))))
    ["baz"; "bar"]%string
  = [code "fn foo_baz() -> u32 { 42 }"; code "fn foo_bar() -> u32 { 42 }"].
Proof. vm_compute. reflexivity. Qed.

(** nested_type_token_compose.rs: [$t:ty] is in an invisible group. *)
Example nested_type_token_compose :
  map (fun t => let ty := TGroup NoDelim (lex t) in
         expand_uses_through rust (reading_through rust_parsers) rust_syntax
           [{| u_source := Compose (lex "my_fn = concat" ++ TGroup Paren (lex "foo, _," ++ [ty]) :: lex "," ++
                 [TGroup Brace (lex "fn my_fn() ->" ++ ty :: [TGroup Brace (lex "42 as" ++ [ty])])]);
               u_seed := 1; u_first_id := 100; u_next_id := 1000 |}])
    ["u8"; "u32"]%string
  = [code "fn foo_u8() -> u8 { 42 as u8 }"; code "fn foo_u32() -> u32 { 42 as u32 }"].
Proof. vm_compute. reflexivity. Qed.

Definition greeting : string :=
  "for (suffix, (interjection, noun)) in [ (BAR, (Hello, ""world"")), (baz, (""Hallo"", ""welt"")), ]
   my_fn = concat(foo, _, 1, _, lower(suffix)),
   greeting = concat(to_str(interjection), "", "", noun, ""!""), ".
Definition greeting_fn : string :=
  "#[doc = ""Greets: % greeting %""] fn my_fn() -> &'static str { greeting }".
Definition greeting_code : list output :=
  code "#[doc = ""Greets: Hello, world!""] fn foo_1_bar() -> &'static str { ""Hello, world!"" }
        #[doc = ""Greets: Hallo, welt!""] fn foo_1_baz() -> &'static str { ""Hallo, welt!"" }".
(** compose.rs *)
Example compose : expanded (Compose (lex (greeting ++ "{" ++ greeting_fn ++ "},"))) = greeting_code.
Proof. vm_compute. reflexivity. Qed.
(** concat_idents/basic.rs *)
Example compose_idents_basic : expanded (ComposeIdents (lex (greeting ++ "{" ++ greeting_fn ++ "},"))) = greeting_code.
Proof. vm_compute. reflexivity. Qed.
(** compose_item/basic.rs *)
Example compose_item_basic : expanded (ComposeItem (lex greeting) (lex greeting_fn)) = greeting_code.
Proof. vm_compute. reflexivity. Qed.
(** compose_item/trailing_comma_after_aliases.rs *)
Example trailing_comma_after_aliases :
  expanded (ComposeItem (lex "fn_name = concat(hello, _, world),") (lex "fn fn_name() -> u32 { 42 }"))
  = code "fn hello_world() -> u32 { 42 }".
Proof. vm_compute. reflexivity. Qed.
(** compose_item/trailing_comma_after_loops.rs and .stderr: a syntax error. *)
Example trailing_comma_after_loops :
  expanded (ComposeItem (lex "for name in [foo, bar],") (lex "fn name() {}")) = [SyntaxError].
Proof. vm_compute. reflexivity. Qed.
(** concat_idents/warning.rs: the warning is the compiler's, about the macro; the code has
    none. *)
Example compose_idents_warning :
  expanded (ComposeIdents (lex "name = foo, { fn name() {} },")) = code "fn foo() {}".
Proof. vm_compute. reflexivity. Qed.

Definition note_attr : string :=
  "#[deprecated(since = ""0.0.5"", note = ""compose!: Using semicolons as separators is deprecated, use commas instead"",)] ".
(** semicolon/semicolon_syntax.rs and semicolon_syntax_warning.stderr: [foo_bar] and [foo_baz]
    are deprecated, [spam_eggs] is not. *)
Example semicolon_syntax :
  expanded (Compose (lex "my_fn = concat(foo, _, bar); { fn my_fn() -> u32 { 1 } }"))
  = code (note_attr ++ "fn foo_bar() -> u32 { 1 }").
Proof. vm_compute. reflexivity. Qed.
Example semicolon_syntax_two :
  expanded (Compose (lex "my_fn_1 = concat(foo, _, baz); my_fn_2 = concat(spam, _, eggs); {
                            fn my_fn_1() -> u32 { 2 }  fn my_fn_2() -> u32 { 3 } }"))
  = code (note_attr ++ "fn foo_baz() -> u32 { 2 } fn spam_eggs() -> u32 { 3 }").
Proof. vm_compute. reflexivity. Qed.
(** semicolon/mixed_separators.rs *)
Example mixed_separators :
  expanded (Compose (lex "my_fn_1 = concat(foo, _, bar), my_fn_2 = concat(spam, _, eggs); {
                            fn my_fn_1() -> u32 { 123 }  fn my_fn_2() -> u32 { 321 } }"))
  = [SyntaxError].
Proof. vm_compute. reflexivity. Qed.
(** error_reporting.rs and .stderr *)
Example error_reporting :
  expanded (Compose (lex "my_fn = ""foo bar"", { fn my_fn() -> u32 { 42 } },"))
  = [CompileError (SubstitutionError (txt "my_fn"))].
Proof. vm_compute. reflexivity. Qed.
(** /repo/tests/build.rs *)
Example build :
  expanded (Compose (lex "test_fn = test, { fn test_fn() -> &'static str { ""success"" } }"))
  = code "fn test() -> &'static str { ""success"" }".
Proof. vm_compute. reflexivity. Qed.

(** ** snippets *)
Example snippet_alias_reuse :
  expanded (Compose (lex "base_alias = FOO, derived_alias = concat(BAR, _, base_alias), {
                            static base_alias: u32 = 1; static derived_alias: u32 = base_alias; },"))
  = code "static FOO: u32 = 1; static BAR_FOO: u32 = FOO;".
Proof. vm_compute. reflexivity. Qed.
Example snippet_basic :
  expanded (Compose (lex "my_fn_1 = concat(foo, _, bar), my_fn_2 = concat(spam, _, 1, _, eggs), {
                            fn my_fn_1() -> u32 { 42 } fn my_fn_2() -> u32 { 42 } },"))
  = code "fn foo_bar() -> u32 { 42 } fn spam_1_eggs() -> u32 { 42 }".
Proof. vm_compute. reflexivity. Qed.
Example snippet_casing :
  expanded (Compose (lex "MY_SNAKE_CASE_STATIC = snake_case(snakeCase),
                          MY_CAMEL_CASE_STATIC = camel_case(camel_case),
                          MY_PASCAL_CASE_STATIC = pascal_case(concat(pascal, _, case)),
                          { static MY_SNAKE_CASE_STATIC: u32 = 1; static MY_CAMEL_CASE_STATIC: u32 = 2;
                            static MY_PASCAL_CASE_STATIC: u32 = 3; },"))
  = code "static snake_case: u32 = 1; static camelCase: u32 = 2; static PascalCase: u32 = 3;".
Proof. vm_compute. reflexivity. Qed.
Example snippet_code_repetition :
  expanded (ComposeIdents (lex "for name in [foo, bar] { fn name() -> u32 { 1 } }"))
  = code "fn foo() -> u32 { 1 } fn bar() -> u32 { 1 }".
Proof. vm_compute. reflexivity. Qed.
Example snippet_compose_item :
  expanded (ComposeItem (lex "my_fn = concat(foo, _, bar),") (lex "pub fn my_fn() -> u32 { 42 }"))
  = code "pub fn foo_bar() -> u32 { 42 }".
Proof. vm_compute. reflexivity. Qed.
Example snippet_concat :
  expanded (Compose (lex "basic_fn = concat(foo, _, bar, _, baz),
                          upper_fn = upper(concat(hello, _, world)),
                          complex_fn = concat(to_ident(""prefix_""), normalize(&'static str), _, snake_case(CamelCase)),
                          { fn basic_fn() -> u32 { 1 } fn upper_fn() -> u32 { 2 } fn complex_fn() -> u32 { 3 } }"))
  = code "fn foo_bar_baz() -> u32 { 1 } fn HELLO_WORLD() -> u32 { 2 } fn prefix_static_str_camel_case() -> u32 { 3 }".
Proof. vm_compute. reflexivity. Qed.
Example snippet_functions :
  expanded (Compose (lex "my_const = concat(upper(foo), _, lower(BAR)), my_static = upper(lower(BAZ)),
                          { const my_const: u8 = 1; static my_static: &str = ""hello""; }"))
  = code "const FOO_bar: u8 = 1; static BAZ: &str = ""hello"";".
Proof. vm_compute. reflexivity. Qed.
(** hash.rs and hash_expansion.rs: the seeds of that expansion are 1 and 2. *)
Example snippet_hash :
  expand_uses rust rust_parsers rust_syntax
    (map (fun seed =>
            {| u_source := Compose (lex "MY_UNIQUE_STATIC = hash(1), MY_OTHER_UNIQUE_STATIC = hash(2), {
                              static MY_UNIQUE_STATIC: u32 = 42; static MY_OTHER_UNIQUE_STATIC: u32 = 42; }");
               u_seed := seed; u_first_id := 100; u_next_id := 1000 |}) [1; 2]%N)
  = code "static __5360156246018494022: u32 = 42; static __1421539829453635175: u32 = 42;"
    ++ code "static __17818851730065003648: u32 = 42; static __10611722954104835980: u32 = 42;".
Proof. vm_compute. reflexivity. Qed.
Example snippet_normalize :
  expanded (Compose (lex "MY_NORMALIZED_ALIAS = concat(my, _, normalize(&'static str)), {
                            static MY_NORMALIZED_ALIAS: &str = ""This alias is made from a normalized argument""; }"))
  = code "static my_static_str: &str = ""This alias is made from a normalized argument"";".
Proof. vm_compute. reflexivity. Qed.
Example snippet_normalize2 :
  expanded (Compose (lex "A = normalize2(Foo::Bar), B = normalize2(&'static str), C = normalize2(raw(Result<u32, String>)),
                          { fn A() -> u32 { 1 } fn B() -> u32 { 2 } fn C() -> u32 { 3 } }"))
  = code "fn Foo_Bar() -> u32 { 1 } fn static_str() -> u32 { 2 } fn Result_u32_String() -> u32 { 3 }".
Proof. vm_compute. reflexivity. Qed.
Example snippet_string_formatting :
  expanded (Compose (lex "my_fn = concat(foo, _, bar), MY_FORMATTED_STR = concat(FOO, _, BAR), {
                            static MY_FORMATTED_STR: &str = ""This is % MY_FORMATTED_STR %"";
                            #[doc = ""This is a docstring for % my_fn %""] fn my_fn() -> u32 { 321 } },"))
  = code "static FOO_BAR: &str = ""This is FOO_BAR""; #[doc = ""This is a docstring for foo_bar""] fn foo_bar() -> u32 { 321 }".
Proof. vm_compute. reflexivity. Qed.

(** The repository's tests of substitution, on the model.  Generated by tools/conformance.py. *)
From Coq Require Import String.
From Verif Require Import Base Token Values RustLexer RustInstance.
Open Scope list_scope.

(** ** src/substitution/alias_substitution_visitor.rs *)
(** 474-484 *)
Example alias_substitution_visitor_basic_substitution_substituting_single_token :
  visited [("foo", VIdent (txt "bar"))]%string
    "{ fn foo() -> u32 { 1 } }"
  = statements "{ fn bar() -> u32 { 1 } }".
Proof. vm_compute. reflexivity. Qed.
(** 485-497 *)
Example alias_substitution_visitor_basic_substitution_substituting_multiple_tokens :
  visited [("foo", VIdent (txt "baz"))]%string
    "{ let foo = 1; let bar = foo + 1; }"
  = statements "{ let baz = 1; let bar = baz + 1; }".
Proof. vm_compute. reflexivity. Qed.
(** 498-508 *)
Example alias_substitution_visitor_basic_substitution_substituting_with_multiple_tokens :
  visited [("T", VType (lex "Result<u32, String>"))]%string
    "{ fn foo() -> T { 1 } }"
  = statements "{ fn foo() -> Result<u32, String> { 1 } }".
Proof. vm_compute. reflexivity. Qed.
(** 509-519 *)
Example alias_substitution_visitor_basic_substitution_string_formatting :
  visited [("name", VIdent (txt "World"))]%string
    "{ fn foo() -> &str { ""Hello, % name %!"" } }"
  = statements "{ fn foo() -> &str { ""Hello, World!"" } }".
Proof. vm_compute. reflexivity. Qed.
(** 539-549 *)
Example alias_substitution_visitor_ast_recursive_substitution_fn_identifier_substitution :
  visited [("foo", VIdent (txt "bar"))]%string
    "{ fn foo() -> u32 { 42 } }"
  = statements "{ fn bar() -> u32 { 42 } }".
Proof. vm_compute. reflexivity. Qed.
(** 550-560 *)
Example alias_substitution_visitor_ast_recursive_substitution_fn_block_recursive_substitution :
  visited [("bar", VIdent (txt "baz"))]%string
    "{ fn foo() -> u32 { bar } }"
  = statements "{ fn foo() -> u32 { baz } }".
Proof. vm_compute. reflexivity. Qed.
(** 562-572 *)
Example alias_substitution_visitor_ast_recursive_substitution_struct_identifier_substitution :
  visited [("Foo", VIdent (txt "Bar"))]%string
    "{ struct Foo { a: u32 } }"
  = statements "{ struct Bar { a: u32 } }".
Proof. vm_compute. reflexivity. Qed.
(** 573-583 *)
Example alias_substitution_visitor_ast_recursive_substitution_struct_fields_recursive_type_substitution :
  visited [("T", VType (lex "Result<u32, String>"))]%string
    "{ struct S { a: T } }"
  = statements "{ struct S { a: Result<u32, String> } }".
Proof. vm_compute. reflexivity. Qed.
(** 584-594 *)
Example alias_substitution_visitor_ast_recursive_substitution_struct_field_identifier_substitution :
  visited [("foo", VIdent (txt "bar"))]%string
    "{ struct S { foo: u32 } }"
  = statements "{ struct S { bar: u32 } }".
Proof. vm_compute. reflexivity. Qed.
(** 596-606 *)
Example alias_substitution_visitor_ast_recursive_substitution_enum_identifier_substitution :
  visited [("Foo", VIdent (txt "Bar"))]%string
    "{ enum Foo { A } }"
  = statements "{ enum Bar { A } }".
Proof. vm_compute. reflexivity. Qed.
(** 607-617 *)
Example alias_substitution_visitor_ast_recursive_substitution_enum_variant_identifier_substitution :
  visited [("Foo", VIdent (txt "Bar"))]%string
    "{ enum E { Foo } }"
  = statements "{ enum E { Bar } }".
Proof. vm_compute. reflexivity. Qed.
(** 618-628 *)
Example alias_substitution_visitor_ast_recursive_substitution_enum_variant_discriminant_recursive_substitution :
  visited [("foo", VIdent (txt "bar"))]%string
    "{ enum E { A = foo } }"
  = statements "{ enum E { A = bar } }".
Proof. vm_compute. reflexivity. Qed.
(** 630-640 *)
Example alias_substitution_visitor_ast_recursive_substitution_union_identifier_substitution :
  visited [("U", VIdent (txt "V"))]%string
    "{ union U { a: u32 } }"
  = statements "{ union V { a: u32 } }".
Proof. vm_compute. reflexivity. Qed.
(** 641-651 *)
Example alias_substitution_visitor_ast_recursive_substitution_union_field_type_recursive_substitution :
  visited [("T", VType (lex "Result<u32, String>"))]%string
    "{ union U { a: T } }"
  = statements "{ union U { a: Result<u32, String> } }".
Proof. vm_compute. reflexivity. Qed.
(** 653-663 *)
Example alias_substitution_visitor_ast_recursive_substitution_trait_identifier_substitution :
  visited [("Foo", VIdent (txt "Bar"))]%string
    "{ trait Foo {} }"
  = statements "{ trait Bar {} }".
Proof. vm_compute. reflexivity. Qed.
(** 664-674 *)
Example alias_substitution_visitor_ast_recursive_substitution_trait_supertrait_recursive_substitution :
  visited [("Foo", VIdent (txt "Bar"))]%string
    "{ trait T: Foo {} }"
  = statements "{ trait T: Bar {} }".
Proof. vm_compute. reflexivity. Qed.
(** 675-689 *)
Example alias_substitution_visitor_ast_recursive_substitution_trait_fn_default_block_recursive_substitution :
  visited [("foo", VIdent (txt "bar"))]%string
    "{ trait T { fn f() { foo } } }"
  = statements "{ trait T { fn f() { bar } } }".
Proof. vm_compute. reflexivity. Qed.
(** 691-701 *)
Example alias_substitution_visitor_ast_recursive_substitution_impl_self_type_substitution :
  visited [("Foo", VIdent (txt "Bar"))]%string
    "{ impl Foo { fn g() -> u32 { 1 } } }"
  = statements "{ impl Bar { fn g() -> u32 { 1 } } }".
Proof. vm_compute. reflexivity. Qed.
(** 702-714 *)
Example alias_substitution_visitor_ast_recursive_substitution_impl_trait_path_substitution :
  visited [("Foo", VIdent (txt "Bar"))]%string
    "{ struct S; impl Foo for S {} }"
  = statements "{ struct S; impl Bar for S {} }".
Proof. vm_compute. reflexivity. Qed.
(** 715-725 *)
Example alias_substitution_visitor_ast_recursive_substitution_impl_associated_const_identifier_substitution :
  visited [("FOO", VIdent (txt "BAR"))]%string
    "{ impl S { const FOO: u32 = 1; } }"
  = statements "{ impl S { const BAR: u32 = 1; } }".
Proof. vm_compute. reflexivity. Qed.
(** 727-737 *)
Example alias_substitution_visitor_ast_recursive_substitution_module_identifier_substitution :
  visited [("foo", VIdent (txt "bar"))]%string
    "{ mod foo {} }"
  = statements "{ mod bar {} }".
Proof. vm_compute. reflexivity. Qed.
(** 738-748 *)
Example alias_substitution_visitor_ast_recursive_substitution_module_recursive_item_substitution :
  visited [("foo", VIdent (txt "bar"))]%string
    "{ mod m { fn foo() -> u32 { 1 } } }"
  = statements "{ mod m { fn bar() -> u32 { 1 } } }".
Proof. vm_compute. reflexivity. Qed.
(** 750-760 *)
Example alias_substitution_visitor_ast_recursive_substitution_foreign_mod_abi_string_formatting :
  visited [("abi", VIdent (txt "C"))]%string
    "{ extern ""% abi %"" {} }"
  = statements "{ extern ""C"" {} }".
Proof. vm_compute. reflexivity. Qed.
(** 761-771 *)
Example alias_substitution_visitor_ast_recursive_substitution_foreign_mod_recursive_item_substitution :
  visited [("foo", VIdent (txt "bar"))]%string
    "{ extern ""C"" { fn foo(); } }"
  = statements "{ extern ""C"" { fn bar(); } }".
Proof. vm_compute. reflexivity. Qed.
(** 773-789 *)
Example alias_substitution_visitor_ast_recursive_substitution_block_trailing_semicolon :
  visited [("baz", VIdent (txt "qux"))]%string
    "{ fn foo() { bar(); baz(); } }"
  = statements "{ fn foo() { bar(); qux(); } }".
Proof. vm_compute. reflexivity. Qed.
(** 790-806 *)
Example alias_substitution_visitor_ast_recursive_substitution_block_no_trailing_semicolon :
  visited [("baz", VIdent (txt "qux"))]%string
    "{ fn foo() { bar(); baz() } }"
  = statements "{ fn foo() { bar(); qux() } }".
Proof. vm_compute. reflexivity. Qed.
(** ** src/substitution/substitute_idents.rs *)
(** 132-142 *)
Example substitute_idents_substitution_substituting_single_token :
  substituted [("foo", VIdent (txt "bar"))]%string
    "{ fn foo() -> u32 { 1 } }"
  = statements "{ fn bar() -> u32 { 1 } }".
Proof. vm_compute. reflexivity. Qed.
(** 143-155 *)
Example substitute_idents_substitution_substituting_multiple_tokens :
  substituted [("foo", VIdent (txt "baz"))]%string
    "{ let foo = 1; let bar = foo + 1; }"
  = statements "{ let baz = 1; let bar = baz + 1; }".
Proof. vm_compute. reflexivity. Qed.
(** 156-166 *)
Example substitute_idents_substitution_substituting_with_multiple_tokens :
  substituted [("T", VType (lex "Result<u32, String>"))]%string
    "{ fn foo() -> T { 1 } }"
  = statements "{ fn foo() -> Result<u32, String> { 1 } }".
Proof. vm_compute. reflexivity. Qed.
(** 167-177 *)
Example substitute_idents_substitution_string_formatting :
  substituted [("name", VIdent (txt "World"))]%string
    "{ fn foo() -> &str { ""Hello, % name %!"" } }"
  = statements "{ fn foo() -> &str { ""Hello, World!"" } }".
Proof. vm_compute. reflexivity. Qed.

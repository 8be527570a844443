(** The repository's tests of value parsing, on the model.  Generated by tools/conformance.py. *)
From Coq Require Import String.
From Verif Require Import Base Types RustInstance.
Open Scope list_scope.

(** ** src/parse/value.rs *)
(** 129-129 *)
Example value_ident_simple :
  parsed_value "foo, 42"
  = value_of TyIdent "foo" ", 42".
Proof. vm_compute. reflexivity. Qed.
(** 130-130 *)
Example value_ident_type :
  parsed_value "u32, 42"
  = value_of TyIdent "u32" ", 42".
Proof. vm_compute. reflexivity. Qed.
(** 131-131 *)
Example value_ident_underscore :
  parsed_value "_, 42"
  = value_of TyIdent "_" ", 42".
Proof. vm_compute. reflexivity. Qed.
(** 132-132 *)
Example value_ident_camel_case :
  parsed_value "FooBar, 42"
  = value_of TyIdent "FooBar" ", 42".
Proof. vm_compute. reflexivity. Qed.
(** 133-133 *)
Example value_ident_with_digits :
  parsed_value "foo123, 42"
  = value_of TyIdent "foo123" ", 42".
Proof. vm_compute. reflexivity. Qed.
(** 134-134 *)
Example value_ident_leading_underscore :
  parsed_value "_foo, 42"
  = value_of TyIdent "_foo" ", 42".
Proof. vm_compute. reflexivity. Qed.
(** 135-135 *)
Example value_ident_double_underscore :
  parsed_value "__, 42"
  = value_of TyIdent "__" ", 42".
Proof. vm_compute. reflexivity. Qed.
(** 136-136 *)
Example value_ident_snake_mixed :
  parsed_value "foo_bar_123, 42"
  = value_of TyIdent "foo_bar_123" ", 42".
Proof. vm_compute. reflexivity. Qed.
(** 137-137 *)
Example value_ident_raw_keyword :
  parsed_value "r#type, 42"
  = value_of TyIdent "r#type" ", 42".
Proof. vm_compute. reflexivity. Qed.
(** 138-138 *)
Example value_ident_option_plain :
  parsed_value "Option, 42"
  = value_of TyIdent "Option" ", 42".
Proof. vm_compute. reflexivity. Qed.
(** 140-140 *)
Example value_path_simple :
  parsed_value "foo::bar, 42"
  = value_of TyPath "foo :: bar" ", 42".
Proof. vm_compute. reflexivity. Qed.
(** 141-146 *)
Example value_path_type_generic :
  parsed_value "Result<i32, String>, 42"
  = value_of TyPath "Result < i32 , String >" ", 42".
Proof. vm_compute. reflexivity. Qed.
(** 147-147 *)
Example value_path_type_generic_turbofish :
  parsed_value "Vec::<i32>, 42"
  = value_of TyPath "Vec :: < i32 >" ", 42".
Proof. vm_compute. reflexivity. Qed.
(** 148-153 *)
Example value_path_type_generic_lifetime :
  parsed_value "std::slice::Iter<'a, T>, 42"
  = value_of TyPath "std :: slice :: Iter < 'a , T >" ", 42".
Proof. vm_compute. reflexivity. Qed.
(** 154-159 *)
Example value_path_generic_nested :
  parsed_value "a::b::C<D<E<F>>, G<H>>, 42"
  = value_of TyPath "a :: b :: C < D < E < F > > , G < H > >" ", 42".
Proof. vm_compute. reflexivity. Qed.
(** 160-160 *)
Example value_path_root_crate :
  parsed_value "crate::foo, 42"
  = value_of TyPath "crate :: foo" ", 42".
Proof. vm_compute. reflexivity. Qed.
(** 161-166 *)
Example value_path_expr :
  parsed_value "Option::<i32>::None, 42"
  = value_of TyPath "Option :: < i32 > :: None" ", 42".
Proof. vm_compute. reflexivity. Qed.
(** 167-172 *)
Example value_path_raw_segments :
  parsed_value "r#type::r#match::r#dyn, 42"
  = value_of TyPath "r#type :: r#match :: r#dyn" ", 42".
Proof. vm_compute. reflexivity. Qed.
(** 174-174 *)
Example value_type_array :
  parsed_value "[u8; 32], 42"
  = value_of TyType "[u8 ; 32]" ", 42".
Proof. vm_compute. reflexivity. Qed.
(** 175-175 *)
Example value_type_array_const_expr :
  parsed_value "[u8; 1 + 2], 42"
  = value_of TyType "[u8 ; 1 + 2]" ", 42".
Proof. vm_compute. reflexivity. Qed.
(** 176-176 *)
Example value_type_never :
  parsed_value "!, 42"
  = value_of TyType "!" ", 42".
Proof. vm_compute. reflexivity. Qed.
(** 177-177 *)
Example value_type_tuple :
  parsed_value "(u32, u32), 42"
  = value_of TyType "(u32 , u32)" ", 42".
Proof. vm_compute. reflexivity. Qed.
(** 178-178 *)
Example value_type_unit :
  parsed_value "(), 42"
  = value_of TyType "()" ", 42".
Proof. vm_compute. reflexivity. Qed.
(** 179-179 *)
Example value_type_paren_wrapped :
  parsed_value "(T), 42"
  = value_of TyType "(T)" ", 42".
Proof. vm_compute. reflexivity. Qed.
(** 180-180 *)
Example value_type_macro_simple :
  parsed_value "ty!(u32), 42"
  = value_of TyType "ty ! (u32)" ", 42".
Proof. vm_compute. reflexivity. Qed.
(** 181-186 *)
Example value_type_macro_nested_args :
  parsed_value "ty!(Result<u8, E>), 42"
  = value_of TyType "ty ! (Result < u8 , E >)" ", 42".
Proof. vm_compute. reflexivity. Qed.
(** 187-187 *)
Example value_type_ref :
  parsed_value "&'a mut T, 42"
  = value_of TyType "& 'a mut T" ", 42".
Proof. vm_compute. reflexivity. Qed.
(** 188-188 *)
Example value_type_fn :
  parsed_value "fn(i32) -> i32, 42"
  = value_of TyType "fn (i32) -> i32" ", 42".
Proof. vm_compute. reflexivity. Qed.
(** 189-189 *)
Example value_type_fn_zero_args :
  parsed_value "fn(), 42"
  = value_of TyType "fn ()" ", 42".
Proof. vm_compute. reflexivity. Qed.
(** 190-195 *)
Example value_type_fn_hrtb :
  parsed_value "for<'a> fn(&'a str) -> &'a str, 42"
  = value_of TyType "for < 'a > fn (& 'a str) -> & 'a str" ", 42".
Proof. vm_compute. reflexivity. Qed.
(** 196-201 *)
Example value_type_fn_extern_c :
  parsed_value "extern ""C"" fn(i32) -> i32, 42"
  = value_of TyType "extern ""C"" fn (i32) -> i32" ", 42".
Proof. vm_compute. reflexivity. Qed.
(** 202-202 *)
Example value_type_dyn_simple :
  parsed_value "dyn Display, 42"
  = value_of TyType "dyn Display" ", 42".
Proof. vm_compute. reflexivity. Qed.
(** 203-208 *)
Example value_type_dyn_bounds :
  parsed_value "dyn Iterator<Item = u8> + Send + 'static, 42"
  = value_of TyType "dyn Iterator < Item = u8 > + Send + 'static" ", 42".
Proof. vm_compute. reflexivity. Qed.
(** 209-214 *)
Example value_type_dyn_hrtb_fn :
  parsed_value "dyn for<'a> Fn(&'a T) + Send, 42"
  = value_of TyType "dyn for < 'a > Fn (& 'a T) + Send" ", 42".
Proof. vm_compute. reflexivity. Qed.
(** 215-220 *)
Example value_type_impl_trait :
  parsed_value "impl Iterator<Item=u8>, 42"
  = value_of TyType "impl Iterator < Item = u8 >" ", 42".
Proof. vm_compute. reflexivity. Qed.
(** 221-226 *)
Example value_type_impl_multiple_bounds :
  parsed_value "impl Read + Write + 'a, 42"
  = value_of TyType "impl Read + Write + 'a" ", 42".
Proof. vm_compute. reflexivity. Qed.
(** 227-232 *)
Example value_type_qual_path_assoc :
  parsed_value "<T as Iterator>::Item, 42"
  = value_of TyType "< T as Iterator > :: Item" ", 42".
Proof. vm_compute. reflexivity. Qed.
(** 234-234 *)
Example value_expr_unary_not :
  parsed_value "!flag, 42"
  = value_of TyExpr "! flag" ", 42".
Proof. vm_compute. reflexivity. Qed.
(** 235-235 *)
Example value_expr_binary :
  parsed_value "2 + 2, 42"
  = value_of TyExpr "2 + 2" ", 42".
Proof. vm_compute. reflexivity. Qed.
(** 236-241 *)
Example value_expr_if_else :
  parsed_value "if cond { 1 } else { 0 }, 42"
  = value_of TyExpr "if cond { 1 } else { 0 }" ", 42".
Proof. vm_compute. reflexivity. Qed.
(** 242-247 *)
Example value_expr_if_let :
  parsed_value "if let Some(x) = opt { x } else { 0 }, 42"
  = value_of TyExpr "if let Some (x) = opt { x } else { 0 }" ", 42".
Proof. vm_compute. reflexivity. Qed.
(** 248-253 *)
Example value_expr_match :
  parsed_value "match x { 0 => 1, _ => 2 }, 42"
  = value_of TyExpr "match x { 0 => 1 , _ => 2 }" ", 42".
Proof. vm_compute. reflexivity. Qed.
(** 254-254 *)
Example value_expr_block :
  parsed_value "{ let x = 1; x }, 42"
  = value_of TyExpr "{ let x = 1 ; x }" ", 42".
Proof. vm_compute. reflexivity. Qed.
(** 255-255 *)
Example value_expr_async_block :
  parsed_value "async { 1 + 2 }, 42"
  = value_of TyExpr "async { 1 + 2 }" ", 42".
Proof. vm_compute. reflexivity. Qed.
(** 256-261 *)
Example value_expr_unsafe_block :
  parsed_value "unsafe { do_something() }, 42"
  = value_of TyExpr "unsafe { do_something () }" ", 42".
Proof. vm_compute. reflexivity. Qed.
(** 262-262 *)
Example value_expr_call_with_args :
  parsed_value "foo(1, 2), 42"
  = value_of TyExpr "foo (1 , 2)" ", 42".
Proof. vm_compute. reflexivity. Qed.
(** 263-263 *)
Example value_expr_method_call :
  parsed_value "obj.method(1, 2), 42"
  = value_of TyExpr "obj . method (1 , 2)" ", 42".
Proof. vm_compute. reflexivity. Qed.
(** 264-269 *)
Example value_expr_method_call_turbofish :
  parsed_value "obj.method::<T>(x), 42"
  = value_of TyExpr "obj . method :: < T > (x)" ", 42".
Proof. vm_compute. reflexivity. Qed.
(** 270-275 *)
Example value_expr_await_call :
  parsed_value "make_future().await, 42"
  = value_of TyExpr "make_future () . await" ", 42".
Proof. vm_compute. reflexivity. Qed.
(** 276-276 *)
Example value_expr_array_simple :
  parsed_value "[1, 2, 3], 42"
  = value_of TyExpr "[1 , 2 , 3]" ", 42".
Proof. vm_compute. reflexivity. Qed.
(** 277-277 *)
Example value_expr_array_repeat :
  parsed_value "[0; N], 42"
  = value_of TyExpr "[0 ; N]" ", 42".
Proof. vm_compute. reflexivity. Qed.
(** 278-278 *)
Example value_expr_array_index :
  parsed_value "arr[0], 42"
  = value_of TyExpr "arr [0]" ", 42".
Proof. vm_compute. reflexivity. Qed.
(** 279-279 *)
Example value_expr_tuple_struct_literal :
  parsed_value "Point(1, 2), 42"
  = value_of TyExpr "Point (1 , 2)" ", 42".
Proof. vm_compute. reflexivity. Qed.
(** 280-280 *)
Example value_expr_field_access :
  parsed_value "s.field, 42"
  = value_of TyExpr "s . field" ", 42".
Proof. vm_compute. reflexivity. Qed.
(** 281-281 *)
Example value_expr_closure :
  parsed_value "|| 42, 42"
  = value_of TyExpr "| | 42" ", 42".
Proof. vm_compute. reflexivity. Qed.
(** 282-282 *)
Example value_expr_return :
  parsed_value "return 5, 42"
  = value_of TyExpr "return 5" ", 42".
Proof. vm_compute. reflexivity. Qed.
(** 283-283 *)
Example value_expr_pathlike_1 :
  parsed_value "foo::<i32>(), 42"
  = value_of TyExpr "foo :: < i32 > ()" ", 42".
Proof. vm_compute. reflexivity. Qed.
(** 284-289 *)
Example value_expr_pathlike_2 :
  parsed_value "Option::<i32>::Some(1), 42"
  = value_of TyExpr "Option :: < i32 > :: Some (1)" ", 42".
Proof. vm_compute. reflexivity. Qed.
(** 290-295 *)
Example value_expr_macro_chained_method :
  parsed_value "vec![1, 2].len(), 42"
  = value_of TyExpr "vec ! [1 , 2] . len ()" ", 42".
Proof. vm_compute. reflexivity. Qed.
(** 296-301 *)
Example value_expr_path_call_turbofish :
  parsed_value "Option::<i32>::Some(1), 42"
  = value_of TyExpr "Option :: < i32 > :: Some (1)" ", 42".
Proof. vm_compute. reflexivity. Qed.
(** 302-302 *)
Example value_expr_trait_fn_call :
  parsed_value "Trait::method(x), 42"
  = value_of TyExpr "Trait :: method (x)" ", 42".
Proof. vm_compute. reflexivity. Qed.
(** 304-304 *)
Example value_litint_dec :
  parsed_value "123, 42"
  = value_of TyLitInt "123" ", 42".
Proof. vm_compute. reflexivity. Qed.
(** 305-305 *)
Example value_litint_underscore :
  parsed_value "1_000_000, 42"
  = value_of TyLitInt "1_000_000" ", 42".
Proof. vm_compute. reflexivity. Qed.
(** 306-306 *)
Example value_litint_hex :
  parsed_value "0xFF, 42"
  = value_of TyLitInt "0xFF" ", 42".
Proof. vm_compute. reflexivity. Qed.
(** 307-307 *)
Example value_litint_bin_suffix :
  parsed_value "0b1010_1010u8, 42"
  = value_of TyLitInt "0b1010_1010u8" ", 42".
Proof. vm_compute. reflexivity. Qed.
(** 308-308 *)
Example value_litint_suffix_usize :
  parsed_value "0usize, 42"
  = value_of TyLitInt "0usize" ", 42".
Proof. vm_compute. reflexivity. Qed.
(** 310-310 *)
Example value_litstr_simple :
  parsed_value """hello"", 42"
  = value_of TyLitStr """hello""" ", 42".
Proof. vm_compute. reflexivity. Qed.
(** 311-311 *)
Example value_litstr_escape :
  parsed_value """a \""quote\"""", 42"
  = value_of TyLitStr """a \""quote\""""" ", 42".
Proof. vm_compute. reflexivity. Qed.
(** 312-312 *)
Example value_litstr_unicode :
  parsed_value """😀"", 42"
  = value_of TyLitStr """😀""" ", 42".
Proof. vm_compute. reflexivity. Qed.
(** 313-313 *)
Example value_litstr_raw :
  parsed_value "r""no escapes"", 42"
  = value_of TyLitStr "r""no escapes""" ", 42".
Proof. vm_compute. reflexivity. Qed.
(** 314-314 *)
Example value_litstr_raw_hashes :
  parsed_value "r#""he""llo""#, 42"
  = value_of TyLitStr "r#""he""llo""#" ", 42".
Proof. vm_compute. reflexivity. Qed.
(** 316-321 *)
Example value_tokens_simple :
  parsed_value "pub fn foo() -> u32 { 42 }, 42"
  = value_of TyTokens "pub fn foo () -> u32 { 42 }" ", 42".
Proof. vm_compute. reflexivity. Qed.
(** 322-322 *)
Example value_tokens_let_stmt :
  parsed_value "let x = 1;, 42"
  = value_of TyTokens "let x = 1 ;" ", 42".
Proof. vm_compute. reflexivity. Qed.
(** 323-328 *)
Example value_tokens_use_stmt :
  parsed_value "use crate::path::Item;, 42"
  = value_of TyTokens "use crate :: path :: Item ;" ", 42".
Proof. vm_compute. reflexivity. Qed.
(** 329-329 *)
Example value_tokens_keyword :
  parsed_value "fn, 42"
  = value_of TyTokens "fn" ", 42".
Proof. vm_compute. reflexivity. Qed.
(** 330-335 *)
Example value_tokens_attr_struct :
  parsed_value "#[derive(Debug)] struct S;, 42"
  = value_of TyTokens "# [derive (Debug)] struct S ;" ", 42".
Proof. vm_compute. reflexivity. Qed.
(** 336-341 *)
Example value_tokens_impl_block :
  parsed_value "impl Trait for T {}, 42"
  = value_of TyTokens "impl Trait for T { }" ", 42".
Proof. vm_compute. reflexivity. Qed.
(** 342-342 *)
Example value_tokens_where_clause :
  parsed_value "where T: Trait, 42"
  = value_of TyTokens "where T : Trait" ", 42".
Proof. vm_compute. reflexivity. Qed.
(** 343-343 *)
Example value_tokens_angle_params_one :
  parsed_value "<'a>, 42"
  = value_of TyTokens "<'a >" ", 42".
Proof. vm_compute. reflexivity. Qed.

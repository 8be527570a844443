(** The findings of DESIGN.md on written programs: the model with the lexer and grammar of
    the Rust files.  None of these programs is among the repository's tests. *)
From Coq Require Import String.
From Verif Require Import Base Token Types Values Item Interpreter Macro Deprecation InvisibleMacro InvisibleInstance RustLexer RustText RustInstance ConformanceReadme.
Open Scope list_scope.

Definition compose_ (x : string) : list output := expanded (Compose (lex x)).
Definition item_of (spec x : string) : list output := expanded (ComposeItem (lex spec) (lex x)).
Definition panics (l : list output) : bool := match l with [Panicked _] => true | _ => false end.

(** ** Loops and definitions *)
(** The level-order kinds of [((a), b)] and [((1, 2))] agree (C05). *)
Example shapes : compose_ "for ((a), b) in [((1, 2))] { m! { a, b } }" = code "m! { 2, 1 }".
Proof. vm_compute. reflexivity. Qed.

(** ** Functions *)
Example panicking_calls :
  map (fun x => panics (use_of x))
    ["concat(1, -2)"; "concat(r#type, y)"; "upper(r#type)"; "lower(r#type)"; "snake_case(_)"; "pascal_case(_1)"]%string
  = [true; true; true; true; true; true].
Proof. vm_compute. reflexivity. Qed.
Example not_an_ident : use_of "to_ident(""-"")" = [CompileError TypeError].
Proof. vm_compute. reflexivity. Qed.
(** Naming a call changes what it means (C46). *)
Example call_in_place : value_is "concat(x, hash(""s""))" "x__17699437042273121306".
Proof. vm_compute. reflexivity. Qed.
Example call_named : compose_ "h = hash(""s""), b = concat(x, h), { m! { b } }" = [CompileError EvalError].
Proof. vm_compute. reflexivity. Qed.
(** The outer call is blamed (C49). *)
Example blamed : use_of "upper(concat(lower(1)))" = [CompileError (SignatureError (txt "upper"))].
Proof. vm_compute. reflexivity. Qed.
(** Arguments that do not parse become none; an empty argument is an empty token sequence. *)
Example no_arguments : use_of "upper(+ -, *)" = [CompileError (SignatureError (txt "upper"))].
Proof. vm_compute. reflexivity. Qed.
Example empty_argument : value_is "concat(a,,b)" "ab".
Proof. vm_compute. reflexivity. Qed.

(** ** Text *)
Example normalize_twice :
  value_is "normalize(a__)" "a_" /\ compose_ "b = normalize(a__), c = normalize2(b), { m! { c } }" = code "m! { a }".
Proof. vm_compute. split; reflexivity. Qed.
Example percent_signs :
  compose_ "a = b, { let y = ""100%% of %%%a%%""; }" = code "let y = ""100% of %%a%"";".
Proof. vm_compute. reflexivity. Qed.

(** ** Substitution *)
(** [where] clauses are dropped (C25), except those of functions. *)
Example where_struct :
  compose_ "a = b, { struct S<T> where T: Clone { a: T } }" = code "struct S<T> { b: T }".
Proof. vm_compute. reflexivity. Qed.
Example where_impl :
  compose_ "a = b, { impl<T> S<T> where T: Clone { fn a(&self) {} } }" = code "impl<T> S<T> { fn b(&self) {} }".
Proof. vm_compute. reflexivity. Qed.
Example where_fn :
  compose_ "a = b, { fn a<T>() where T: Clone { a } }" = code "fn b<T>() where T: Clone { b }".
Proof. vm_compute. reflexivity. Qed.
(** Inner attributes in bodies make the macro panic (C25). *)
Example inner_attributes :
  map (fun x => panics (compose_ ("a = b, {" ++ x ++ "}")))
    ["fn f() { #![allow(x)] a }"; "mod m { #![allow(x)] fn a() {} }"; "impl S { #![allow(x)] fn a() {} }"]%string
  = [true; true; true].
Proof. vm_compute. reflexivity. Qed.
(** Strings are respelled. *)
Example raw_strings :
  compose_ "a = b, { let x = r""c:\ %a%""; }" = code "let x = ""c:\\ b"";".
Proof. vm_compute. reflexivity. Qed.
Example lifetimes :
  compose_ "a = b, { fn f<'a>(x: &'a str) {} }" = code "fn f<'b>(x: &'b str) {}".
Proof. vm_compute. reflexivity. Qed.
Example contextual_keywords :
  compose_ "union = b, { union S { a: u8 } fn union() {} }" = code "union S { a: u8 } fn b() {}".
Proof. vm_compute. reflexivity. Qed.

(** ** Deprecation: the prefix of the first macro sticks (C29). *)
Example sticky_prefix :
  expand_uses rust rust_parsers rust_syntax
    [{| u_source := ComposeItem (lex "a = b") (lex "fn a() {}"); u_seed := 1; u_first_id := 100; u_next_id := 1000 |};
     {| u_source := Compose (lex "a = concat(b); { fn a() {} }"); u_seed := 2; u_first_id := 100; u_next_id := 1000 |}]
  = [Code (lex "fn b() {}");
     Code (lex "#[deprecated(since = ""0.0.5"", note = ""compose_item!: Using semicolons as separators is deprecated, use commas instead"",)] fn b() {}")].
Proof. vm_compute. reflexivity. Qed.

(** ** Parser *)
Example semicolons : compose_ "a = x; b = y; { m! { a, b } }" = [SyntaxError].
Proof. vm_compute. reflexivity. Qed.
Example semicolons_item : item_of "a = x; b = y" "fn f() { m! { a, b } }" = code "fn f() { m! { x; b = y, b } }".
Proof. vm_compute. reflexivity. Qed.
Example both_separators : item_of "a = f(x),;" "fn f() { m! { a } }" = code "fn f() { m! { f(x) } }".
Proof. vm_compute. reflexivity. Qed.
Example separator_twice : item_of "a = x,," "fn f() { m! { a } }" = code "fn f() { m! { x } }".
Proof. vm_compute. reflexivity. Qed.
Example parenthesised : use_of "(x * 2)" = [SyntaxError].
Proof. vm_compute. reflexivity. Qed.

(** ** Invisible groups: [$t:ty] for [(A, B)] as a value of a loop is a tuple of values. *)
Example tuple_type_in_loop :
  let expands ts := expand_uses_through rust (reading_through rust_parsers) rust_syntax
    [{| u_source := Compose ts; u_seed := 1; u_first_id := 100; u_next_id := 1000 |}] in
  let ty := TGroup NoDelim (lex "(A, B)") in
  let block := lex "{ fn f() -> t {} }" in
  expands (lex "t =" ++ ty :: lex "," ++ block) = code "fn f() -> (A, B) {}" /\
  expands (lex "for t in" ++ TGroup Bracket [ty] :: block) = [CompileError TypeError].
Proof. vm_compute. split; reflexivity. Qed.

(** C97: migrating from semicolons to commas.  [separated], [self_delimiting], [loop_text],
    [said_with_commas] and [has_separator] are in SpecMigration. *)
From Coq Require Import String.
From Verif Require Import Base Token Types Values Ast Env Item Deprecation Interpreter Parse Macro ConcreteParse RustLexer RustGrammar RustInstance RustLaws
  SpecElab SpecParse SpecDeprecation SpecForms SpecMigration MigrationProofs.
Open Scope list_scope.

(** C97: with commas for semicolons an input is read as the same definitions and block, or
    refused as before. *)
Theorem C97_read : forall O P m loops ds body trailing seed first_id next_id,
  braced P -> ident_allowed P (txt "for") = false -> loop_text loops -> ds <> [] ->
  Forall (fun d => ident_allowed P (fst d) = true /\ self_delimiting P (known O) (snd d)) ds ->
  let u c := {| u_source := separated m c loops ds body trailing; u_seed := seed; u_first_id := first_id; u_next_id := next_id |} in
  p_ast (inv_parsed (invocation_for O P (u true))) = result_with_commas (p_ast (inv_parsed (invocation_for O P (u false)))).
Proof. exact (fun O P m loops ds body trailing seed k n Hb Hf Hl Hn HF => proj1 (use_migrated O P m loops ds body trailing seed k n Hb Hf Hl Hn HF)). Qed.
Print Assumptions C97_read.

(** C97: so the other uses yield what they did; the migrated one fails as before, or yields
    the same blocks without the warning. *)
Theorem C97_migrated : forall O P Y m loops ds body trailing seed first_id next_id,
  braced P -> ident_allowed P (txt "for") = false -> loop_text loops -> ds <> [] ->
  Forall (fun d => ident_allowed P (fst d) = true /\ self_delimiting P (known O) (snd d)) ds ->
  let u c := {| u_source := separated m c loops ds body trailing; u_seed := seed; u_first_id := first_id; u_next_id := next_id |} in
  forall before after,
  let out c := expand_uses O P Y (before ++ u c :: after) in
  (forall i, i <> List.length before -> nth_error (out true) i = nth_error (out false) i) /\
  ((exists o, (forall c, nth_error (out c) (List.length before) = Some o) /\ forall ts, o <> Code ts) \/
   (exists bs, blocks_of O Y (invocation_for O P (u false)) bs /\ blocks_of O Y (invocation_for O P (u true)) bs /\
      nth_error (out true) (List.length before) = Some (Code (concat (map (fun b => forest_tokens (as_forest Y (block_tokens b))) bs))) /\
      nth_error (out false) (List.length before) = Some (Code (concat (map (fun b => forest_tokens (emit
        {| warnings := if has_separator m ds trailing then [semicolon_warning] else []; borrowed := 1; s_prefix := prefix_of (u_source (hd (u false) before)) |}
        (as_forest Y (block_tokens b)))) bs))))).
Proof. exact migrated. Qed.
Print Assumptions C97_migrated.

(** C97: the calls of known functions are such values. *)
Theorem C97_calls : forall P has_func f args, ident_allowed P f = true -> has_func f = true ->
  self_delimiting P has_func [TIdent f; TGroup Paren args].
Proof. exact call_self_delimiting. Qed.
Print Assumptions C97_calls.

(** C97 does not hold of other values.  [compose!(a = x; { .. })] is refused, with a comma it
    is not; and [#[compose_item(a = x; b = y)] fn f() { a }] is accepted, with [x; b = y] for
    [a]. *)
Theorem C97_any_value_refuted : exists a x b y,
  let one m c := use_of (separated m c [] [(a, x)] (lex "fn a() {}") false) in
  let two c := use_of (separated AttributeForm c [] [(a, x); (b, y)] (lex "fn f() { a }") false) in
  expand_uses rust rust_parsers rust_syntax [one BlockForm true; one BlockForm false; two true; two false] =
    [Code (lex "fn x() {}"); SyntaxError; Code (lex "fn f() { x }"); Code (lex "fn f() { x; b = y }")].
Proof. exists (txt "a"), (lex "x"), (txt "b"), (lex "y"). vm_compute. reflexivity. Qed.
Print Assumptions C97_any_value_refuted.

(** The example of the README, with a loop and a block. *)
Example C97_example :
  let loops := lex "for x in [p, q]" in
  let ds := [(txt "my_fn", lex "concat(foo, bar, x)"); (txt "MY_VAR", lex "concat(FOO, BAZ, x)")] in
  let body := lex "static MY_VAR: u8 = 0; fn my_fn() {}" in
  let u c := use_of (separated OldName c loops ds body true) in
  u false = use_of (ComposeIdents (lex "for x in [p, q] my_fn = concat(foo, bar, x); MY_VAR = concat(FOO, BAZ, x); { static MY_VAR: u8 = 0; fn my_fn() {} };")) /\
  braced rust_parsers /\ ident_allowed rust_parsers (txt "for") = false /\ loop_text loops /\ ds <> [] /\
  Forall (fun d => ident_allowed rust_parsers (fst d) = true /\ self_delimiting rust_parsers (known rust) (snd d)) ds /\
  expand_uses rust rust_parsers rust_syntax [u true] =
    [Code (lex "static FOOBAZp: u8 = 0; fn foobarp() {} static FOOBAZq: u8 = 0; fn foobarq() {}")] /\
  match expand_uses rust rust_parsers rust_syntax [u false] with [Code ts] => List.length ts = 26 | _ => False end.
Proof.
  intros loops ds body u. split; [reflexivity|]. split; [exact rust_braced|]. split; [reflexivity|]. split; [|split; [discriminate|split; [|split; vm_compute; reflexivity]]].
  - unfold loops. vm_compute. do 2 constructor.
  - unfold ds. repeat constructor; apply call_self_delimiting; reflexivity.
Qed.

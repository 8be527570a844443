(** C105: uses with other names for their aliases.  [names_alike], [scoped_use], [aliases_before],
    [scoped_code], [rename_keys] and [exchanging] are in SpecAlpha, [rename_definition] and
    [rename_ast] in SpecHeaders, [rename] in SpecRename, [substituted] in SpecSubst. *)
From Coq Require Import String.
From Verif Require Import Base Token Types Values Ast Env Item Deprecation Interpreter Parse Macro ConcreteParse RustLexer RustGrammar RustInstance RustLaws RustRename
  SpecMacro SpecFormat SpecElab SpecSubst SpecItem SpecDeprecation SpecNaming SpecNested SpecRename SpecHeaders SpecAlpha AlphaProofs RustAlpha.
Open Scope list_scope.

(** Definitions in which the aliases have other names give the same values under the other names. *)
Theorem C105_definitions : forall O r seed k items bs, one_to_one r -> aliases_before r [] items ->
  bindings O (new_initialized O seed k) items = Ok bs ->
  bindings O (new_initialized O seed k) (map (rename_definition r) items) = Ok (rename_keys r bs).
Proof. exact (fun O r seed k items bs R => definitions_renamed O r R seed k items bs). Qed.
Print Assumptions C105_definitions.

(** The code comes out the same. *)
Theorem C105_code : forall O r bs ts, one_to_one r -> scoped_code O r (map fst bs) ts ->
  substituted O (fun x => assoc_str x (rename_keys r bs)) (rename r ts) = substituted O (fun x => assoc_str x bs) ts.
Proof. exact (fun O r bs ts R => code_renamed O r R bs ts). Qed.
Print Assumptions C105_code.

(** The rounds are the same ones, with the other names. *)
Theorem C105_rounds : forall r ast, rounds (rename_ast r ast) = map (option_map (map (rename_definition r))) (rounds ast).
Proof. exact rounds_renamed. Qed.
Print Assumptions C105_rounds.

(** A use in whose source all aliases have other names yields the same code, loops and tuple
    patterns included. *)
Theorem C105_use : forall O P Y r uses i u ast c uses' j u' c', names_alike O P r ->
  faithful O (reparse Y) -> covers Y ->
  nth_error uses i = Some u -> p_ast (inv_parsed (invocation_for O P u)) = Ok (Some ast) -> raised (invocation_for O P u) = [] -> nth_error (expand_uses O P Y uses) i = Some (Code c) ->
  nth_error uses' j = Some u' -> u_source u' = rename_source r (u_source u) -> u_seed u' = u_seed u -> nth_error (expand_uses O P Y uses') j = Some (Code c') ->
  (forall x, In x item_keywords -> ~ In x (ast_aliases ast)) -> scoped_use O r ast -> c' = c.
Proof. exact (fun O P Y r uses i u ast c uses' j u' c' A => use_renamed O P Y r A uses i u ast c uses' j u' c'). Qed.
Print Assumptions C105_use.

(** What is assumed of syn holds of the parsers of RustInstance.v, for any names that are
    exchanged and are neither words of the grammar nor functions. *)
Theorem C105_rust : forall l, (forall p, In p l -> ~ In (fst p) grammar_words /\ ~ In (snd p) grammar_words /\ known rust (fst p) = false /\ known rust (snd p) = false) ->
  names_alike rust rust_parsers (exchanging l).
Proof. exact rust_exchanging. Qed.
Print Assumptions C105_rust.

(** All hypotheses together: a loop over tuples, definitions that build on each other, a name
    that is exchanged with one in use, a string with a placeholder whose name stays. *)
Example C105_example :
  let u := use_of (Compose (lex "for (name, T) in [(a, u8), (b, u16)] getter = concat(get_, name), s = upper(getter), k = name, { fn getter(x: T) -> T { s(name, ""%k%"", part) } }")) in
  let u' := use_of (Compose (lex "for (piece, Ty) in [(a, u8), (b, u16)] s = concat(get_, piece), getter = upper(s), k = piece, { fn s(x: Ty) -> Ty { getter(piece, ""%k%"", part) } }")) in
  let r := exchanging [(txt "name", txt "piece"); (txt "T", txt "Ty"); (txt "getter", txt "s")] in
  exists ast,
    names_alike rust rust_parsers r /\ faithful rust (reparse rust_syntax) /\ covers rust_syntax /\
    p_ast (inv_parsed (invocation_for rust rust_parsers u)) = Ok (Some ast) /\ raised (invocation_for rust rust_parsers u) = [] /\
    u_source u' = rename_source r (u_source u) /\ u_seed u' = u_seed u /\
    (forall x, In x item_keywords -> ~ In x (ast_aliases ast)) /\ scoped_use rust r ast /\
    expand_uses rust rust_parsers rust_syntax [u] = [Code (lex "fn get_a(x: u8) -> u8 { GET_A(a, ""a"", part) } fn get_b(x: u16) -> u16 { GET_B(b, ""b"", part) }")] /\
    expand_uses rust rust_parsers rust_syntax [u'] = expand_uses rust rust_parsers rust_syntax [u].
Proof.
  intros u u' r.
  destruct (p_ast (inv_parsed (invocation_for rust rust_parsers u))) as [[ast|]|e|m] eqn:E; try (vm_compute in E; discriminate E).
  exists ast. vm_compute in E. injection E as <-.
  split. { apply rust_exchanging. intros p Hp. cbn in Hp. repeat (destruct Hp as [<-|Hp]; [repeat split; try (vm_compute; reflexivity); intros H; vm_compute in H; intuition discriminate|]). destruct Hp. }
  split; [exact rust_faithful|]. split; [exact rust_covers|]. split; [reflexivity|]. split; [vm_compute; reflexivity|]. split; [vm_compute; reflexivity|]. split; [reflexivity|].
  split; [intros x Hx Hin; vm_compute in Hx, Hin; intuition congruence|].
  split.
  { intros items Hi. vm_compute in Hi. destruct Hi as [Hi|[Hi|[]]]; injection Hi as <-.
    all: split; [cbn [aliases_before fst snd scoped_expr map fold_right]; repeat split; try (right; vm_compute; reflexivity); try (left; vm_compute; auto; fail); try (vm_compute; reflexivity); intros [Ht|Ht]; vm_compute in Ht; discriminate Ht|].
    all: split; [intros x Hx; vm_compute in Hx; repeat (destruct Hx as [Hx|Hx]; [try discriminate Hx; injection Hx as <-; first [right; vm_compute; reflexivity|left; vm_compute; auto 10]|]); destruct Hx|].
    all: intros l v p Hl Hp; vm_compute in Hl; repeat (destruct Hl as [Hl|Hl]; [try discriminate Hl; injection Hl as <-|]); [|destruct Hl]; injection Hp as <- <-;
      exists [PHole (txt "k") 0], None; split; [reflexivity|]; split; [split; [|split; [|exact I]]; [repeat (constructor; [split; [discriminate|vm_compute; intuition discriminate]|]); constructor|repeat split; auto]|];
      intros t n [Q|[]]; injection Q as <- <-; vm_compute; reflexivity. }
  vm_compute. split; reflexivity.
Qed.

(** Not if an alias is mentioned before it is defined: there it stands for itself. *)
Theorem C105_forward_refuted : exists ts ts', ts' = rename (exchanging [(txt "a", txt "z")]) ts /\
  expand_uses rust rust_parsers rust_syntax [use_of (Compose ts)] = [Code (lex "fn a() { foo }")] /\
  expand_uses rust rust_parsers rust_syntax [use_of (Compose ts')] = [Code (lex "fn z() { foo }")].
Proof. exists (lex "b = a, a = foo, { fn b() { a } }"), (rename (exchanging [(txt "a", txt "z")]) (lex "b = a, a = foo, { fn b() { a } }")). vm_compute. repeat split; reflexivity. Qed.
Print Assumptions C105_forward_refuted.

(** Nor if it is mentioned in an expression that is more than a name, where it is not replaced. *)
Theorem C105_expressions_refuted : exists ts ts', ts' = rename (exchanging [(txt "a", txt "z")]) ts /\
  expand_uses rust rust_parsers rust_syntax [use_of (Compose ts)] = [Code (lex "fn f() { a + 1 }")] /\
  expand_uses rust rust_parsers rust_syntax [use_of (Compose ts')] = [Code (lex "fn f() { z + 1 }")].
Proof. exists (lex "a = foo, b = a + 1, { fn f() { b } }"), (rename (exchanging [(txt "a", txt "z")]) (lex "a = foo, b = a + 1, { fn f() { b } }")). vm_compute. repeat split; reflexivity. Qed.
Print Assumptions C105_expressions_refuted.

(** Nor if it is given to [normalize], which takes the tokens as they are. *)
Theorem C105_tokens_refuted : exists ts ts', ts' = rename (exchanging [(txt "a", txt "z")]) ts /\
  expand_uses rust rust_parsers rust_syntax [use_of (Compose ts)] = [Code (lex "fn a() { foo }")] /\
  expand_uses rust rust_parsers rust_syntax [use_of (Compose ts')] = [Code (lex "fn z() { foo }")].
Proof. exists (lex "a = foo, b = normalize(a), { fn b() { a } }"), (rename (exchanging [(txt "a", txt "z")]) (lex "a = foo, b = normalize(a), { fn b() { a } }")). vm_compute. repeat split; reflexivity. Qed.
Print Assumptions C105_tokens_refuted.

(** Nor if the placeholders of the strings would need the other name. *)
Theorem C105_strings_refuted : exists ts ts', ts' = rename (exchanging [(txt "a", txt "z")]) ts /\
  expand_uses rust rust_parsers rust_syntax [use_of (Compose ts)] = [Code (lex "fn foo() { ""foo"" }")] /\
  expand_uses rust rust_parsers rust_syntax [use_of (Compose ts')] = [Code (lex "fn foo() { ""%a%"" }")].
Proof. exists (lex "a = foo, { fn a() { ""%a%"" } }"), (rename (exchanging [(txt "a", txt "z")]) (lex "a = foo, { fn a() { ""%a%"" } }")). vm_compute. repeat split; reflexivity. Qed.
Print Assumptions C105_strings_refuted.

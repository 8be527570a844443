(** C100: putting in again what came out.  [item_ok], [stmt_ok], [drop_where_stmt] and [faithful] are
    in SpecItem, [unaliased], [respelled] and [indifferent] in SpecRespelled, [substituted] is in SpecSubst. *)
From Coq Require Import String.
From Verif Require Import Base Token Types Values SubstituteIdents Item AliasSubstitution Interpreter Parse Macro ConcreteParse RustLexer RustGrammar RustInstance RustLaws
  SpecSubst SpecItem SpecRespelled AgainProofs.
Open Scope list_scope.

(** C100: every node of a block that comes out can be parsed from its tokens, and no where
    clause is left that could be lost. *)
Theorem C100_fit : forall O lookup reparse, faithful O reparse -> forall l l', visit_block O lookup reparse l = Ok l' ->
  fold_right and True (map (stmt_ok O reparse) l') /\ map drop_where_stmt l' = l'.
Proof. exact block_visited. Qed.
Print Assumptions C100_fit.

(** C100: put in again it comes out as the tokens say, ... *)
Theorem C100_twice : forall O reparse, faithful O reparse -> forall f g l l' l'', (forall k, In k item_keywords -> g k = None) ->
  visit_block O f reparse l = Ok l' -> visit_block O g reparse l' = Ok l'' -> block_tokens l'' = substituted O g (block_tokens l').
Proof. exact visited_twice. Qed.
Print Assumptions C100_twice.

(** ... and with definitions that it does not mention nothing fails and nothing changes but
    the spelling of strings. *)
Theorem C100_again : forall O reparse, faithful O reparse -> indifferent O reparse -> forall f g l l', (forall k, In k item_keywords -> g k = None) ->
  visit_block O f reparse l = Ok l' -> unaliased O g (block_tokens l') ->
  exists l'', visit_block O g reparse l' = Ok l'' /\ block_tokens l'' = respelled O (block_tokens l').
Proof. exact visited_again. Qed.
Print Assumptions C100_again.

(** C100: so do the same definitions, if no value mentions an alias and no string is left
    with a percent sign. *)
Theorem C100_same : forall O reparse, faithful O reparse -> indifferent O reparse -> forall f l l', (forall k, In k item_keywords -> f k = None) ->
  (forall x v y, f x = Some v -> In (TIdent y) (leaves (to_tokens v)) -> f y = None) ->
  visit_block O f reparse l = Ok l' ->
  (forall s p, In (TLit (LStr s p)) (leaves (block_tokens l')) -> ~ In 37%N s) ->
  exists l'', visit_block O f reparse l' = Ok l'' /\ block_tokens l'' = respelled O (block_tokens l').
Proof. exact visited_same. Qed.
Print Assumptions C100_same.

Example C100_instance : faithful rust (reparse rust_syntax) /\ indifferent rust (reparse rust_syntax).
Proof. split; [exact rust_faithful|exact rust_indifferent]. Qed.

(** Through the whole macro: a where clause is lost and a string respelled the first time; the
    second time all stays as it is. *)
Example C100_example :
  let out := "struct foo<T> { x: T } trait Tr: Copy { fn foo_x(&self) -> &str { ""raw"" } } mod m { static S: &str = ""foo's""; }"%string in
  expand_uses rust rust_parsers rust_syntax
    [use_of (Compose (lex "a = foo, b = concat(a, _x), { struct a<T> where T: Copy { x: T } trait Tr: Copy { fn b(&self) -> &str { r""raw"" } } mod m { static S: &str = ""%a%'s""; } },"))] = [Code (lex out)] /\
  expand_uses rust rust_parsers rust_syntax
    [use_of (Compose (lex (("a = foo, b = concat(a, _x), { " ++ out ++ " },")%string)))] = [Code (lex out)].
Proof. split; vm_compute; reflexivity. Qed.

(** Not without the hypotheses: the value of [a] mentions [b], and a string is left with a placeholder. *)
Example C100_needed :
  map (fun x => expand_uses rust rust_parsers rust_syntax [use_of (Compose (lex (("a = b, b = c, { fn " ++ x ++ " },")%string)))])
    ["a() { ""%%a%%"" }"; "b() { ""%a%"" }"; "c() { ""b"" }"]%string =
  [[Code (lex "fn b() { ""%a%"" }")]; [Code (lex "fn c() { ""b"" }")]; [Code (lex "fn c() { ""b"" }")]].
Proof. vm_compute. reflexivity. Qed.

(** C109: two uses one after the other, in either order.  [yields] and [apart] are in
    SpecEitherOrder, [inert], [plain_strings], [flattened], [staged] and
    [round_bindings] in SpecNested. *)
From Coq Require Import String.
From Verif Require Import Base Token Types Values Ast Env Item Deprecation Interpreter Parse Macro ConcreteParse RustLexer RustGrammar RustInstance RustLaws
  SpecMacro SpecPrograms SpecParse SpecFormat SpecElab SpecSubst SpecItem SpecDeprecation SpecRepro SpecNested SpecEitherOrder EitherOrderProofs.
Open Scope list_scope.

(** Two substitutions that do not touch each other's values may be done in either order. *)
Theorem C109_substitutions : forall O f g names names' ts, reads_back O -> plain_strings O ts ->
  (forall x v, f x = Some v -> inert O names v) -> (forall x, ~ In x names -> g x = None) ->
  (forall x v, g x = Some v -> inert O names' v) -> (forall x, ~ In x names' -> f x = None) -> (forall x, In x names -> ~ In x names') ->
  substituted O f (substituted O g ts) = substituted O g (substituted O f ts).
Proof. exact substituted_either. Qed.
Print Assumptions C109_substitutions.

(** Uses with the headers [A] and [B]: the second gets what came out of the first.  Either way the
    code is made of the same pieces, one for each two rounds; the loops of the second use are the
    outer ones. *)
Theorem C109_rounds : forall O P Y seed A B ts uses1 i1 c1 uses2 i2 c12 uses3 i3 c2 uses4 i4 c21,
  faithful O (reparse Y) -> covers Y -> reads_back O -> plain_strings O ts ->
  (forall x, In x item_keywords -> ~ In x (ast_aliases A) /\ ~ In x (ast_aliases B)) -> (forall x, In x (ast_aliases A) -> ~ In x (ast_aliases B)) ->
  yields O P Y A seed ts uses1 i1 c1 -> yields O P Y B seed c1 uses2 i2 c12 -> yields O P Y B seed ts uses3 i3 c2 -> yields O P Y A seed c2 uses4 i4 c21 ->
  exists bssA bssB, round_bindings O (new_initialized O seed 0) A = Ok bssA /\ round_bindings O (new_initialized O seed 0) B = Ok bssB /\
    (apart O A bssA B bssB ->
     c12 = flat_map (fun b => flat_map (fun a => substituted O (fun x => assoc_str x (a ++ b)) ts) bssA) bssB /\
     c21 = flat_map (fun a => flat_map (fun b => substituted O (fun x => assoc_str x (a ++ b)) ts) bssB) bssA).
Proof. exact either_order. Qed.
Print Assumptions C109_rounds.

(** If one of them has no loops, the code is the same. *)
Theorem C109_same : forall O P Y seed A B ts uses1 i1 c1 uses2 i2 c12 uses3 i3 c2 uses4 i4 c21,
  faithful O (reparse Y) -> covers Y -> reads_back O -> plain_strings O ts ->
  (forall x, In x item_keywords -> ~ In x (ast_aliases A) /\ ~ In x (ast_aliases B)) -> (forall x, In x (ast_aliases A) -> ~ In x (ast_aliases B)) ->
  yields O P Y A seed ts uses1 i1 c1 -> yields O P Y B seed c1 uses2 i2 c12 -> yields O P Y B seed ts uses3 i3 c2 -> yields O P Y A seed c2 uses4 i4 c21 ->
  (forall bssA bssB, round_bindings O (new_initialized O seed 0) A = Ok bssA -> round_bindings O (new_initialized O seed 0) B = Ok bssB -> apart O A bssA B bssB) ->
  ast_loops A = None \/ ast_loops B = None -> c12 = c21.
Proof. exact either_order_same. Qed.
Print Assumptions C109_same.

(** All hypotheses together. *)
Example C109_example :
  let use D ts := [use_of (Compose (lex D ++ [TGroup Brace ts]))] in
  let DA := "for t in [p, q] k = upper(t),"%string in let DB := "n = concat(x, c),"%string in
  let ts := lex "fn n() { k(""%t%-%n%"") }" in
  let c1 := lex "fn n() { P(""p-%n%"") } fn n() { Q(""q-%n%"") }" in
  let c2 := lex "fn xc() { k(""%t%-xc"") }" in
  let c := lex "fn xc() { P(""p-xc"") } fn xc() { Q(""q-xc"") }" in
  exists A B,
    faithful rust (reparse rust_syntax) /\ covers rust_syntax /\ reads_back rust /\ plain_strings rust ts /\
    (forall x, In x item_keywords -> ~ In x (ast_aliases A) /\ ~ In x (ast_aliases B)) /\ (forall x, In x (ast_aliases A) -> ~ In x (ast_aliases B)) /\
    yields rust rust_parsers rust_syntax A 7 ts (use DA ts) 0 c1 /\ yields rust rust_parsers rust_syntax B 7 c1 (use DB c1) 0 c /\
    yields rust rust_parsers rust_syntax B 7 ts (use DB ts) 0 c2 /\ yields rust rust_parsers rust_syntax A 7 c2 (use DA c2) 0 c /\
    (forall bssA bssB, round_bindings rust (new_initialized rust 7 0) A = Ok bssA -> round_bindings rust (new_initialized rust 7 0) B = Ok bssB -> apart rust A bssA B bssB) /\
    ast_loops A <> None /\ ast_loops B = None.
Proof.
  intros use DA DB ts c1 c2 c.
  destruct (p_ast (inv_parsed (invocation_for rust rust_parsers (use_of (Compose (lex DA ++ [TGroup Brace ts])))))) as [[A|]|e|m] eqn:EA; try (vm_compute in EA; discriminate EA).
  destruct (p_ast (inv_parsed (invocation_for rust rust_parsers (use_of (Compose (lex DB ++ [TGroup Brace ts])))))) as [[B|]|e|m] eqn:EB; try (vm_compute in EB; discriminate EB).
  exists (erase_ast A), (erase_ast B).
  split; [exact rust_faithful|]. split; [exact rust_covers|]. split; [intros v; reflexivity|].
  split. { intros l v p Hl Hp. vm_compute in Hl. repeat (destruct Hl as [Hl|Hl]; [try discriminate Hl|]); [injection Hl as <-|destruct Hl]. injection Hp as <- <-.
    exists [PHole (txt "t") 0; PText (txt "-"); PHole (txt "n") 0], None. split; [reflexivity|]. split; [|repeat constructor].
    split; [|split; [|exact I]]; [repeat (constructor; [split; [discriminate|vm_compute; intuition discriminate]|]); constructor|repeat split; auto]. }
  vm_compute in EA, EB. injection EA as <-. injection EB as <-.
  split; [intros x Hx; split; intros Hin; vm_compute in Hx, Hin; intuition congruence|]. split; [intros x Hx Hin; vm_compute in Hx, Hin; intuition congruence|].
  split; [eexists _, _; split; [reflexivity|]; split; [vm_compute; reflexivity|]; vm_compute; repeat split; left; reflexivity|].
  split; [eexists _, _; split; [reflexivity|]; split; [vm_compute; reflexivity|]; vm_compute; repeat split; left; reflexivity|].
  split; [eexists _, _; split; [reflexivity|]; split; [vm_compute; reflexivity|]; vm_compute; repeat split; left; reflexivity|].
  split; [eexists _, _; split; [reflexivity|]; split; [vm_compute; reflexivity|]; vm_compute; repeat split; left; reflexivity|].
  split; [|split; [discriminate|reflexivity]].
  intros bssA bssB HA HB. vm_compute in HA, HB. injection HA as <-. injection HB as <-. split; intros bs b Hbs Hb; vm_compute in Hbs; intuition subst; vm_compute in Hb; intuition subst;
    (split; [intros x Hx Hn; vm_compute in Hx, Hn; intuition congruence|]); (split; [intros l Hl; vm_compute in Hl; intuition discriminate|]); intros Hn; vm_compute in Hn; intuition discriminate.
Qed.

(** One use with the loops and definitions of both generates what they generate one after the
    other, the one whose loops are the outer ones last. *)
Theorem C109_both : forall O P Y seed A B F ts uses1 i1 c1 uses2 i2 c uses3 i3 c',
  faithful O (reparse Y) -> covers Y -> reads_back O -> plain_strings O ts ->
  (forall x, In x item_keywords -> ~ In x (ast_aliases F)) -> (forall x, In x (ast_aliases A) -> ~ In x (ast_aliases B)) ->
  proper A -> proper B -> flattened A B F -> staged A B ->
  yields O P Y B seed ts uses1 i1 c1 -> yields O P Y A seed c1 uses2 i2 c -> yields O P Y F seed ts uses3 i3 c' ->
  (forall bssA bssB, round_bindings O (new_initialized O seed 0) A = Ok bssA -> round_bindings O (new_initialized O seed 0) B = Ok bssB -> apart O A bssA B bssB) -> c = c'.
Proof. exact both_at_once. Qed.
Print Assumptions C109_both.

(** All hypotheses together, with loops in both. *)
Example C109_both_example :
  let use D ts := [use_of (Compose (lex D ++ [TGroup Brace ts]))] in
  let DA := "for t in [p, q] k = upper(t),"%string in let DB := "for u in [x, y] n = concat(u, c),"%string in
  let DF := "for t in [p, q] for u in [x, y] k = upper(t), n = concat(u, c),"%string in
  let ts := lex "fn n() { k(""%t%"") }" in
  let c1 := lex "fn xc() { k(""%t%"") } fn yc() { k(""%t%"") }" in
  let c := lex "fn xc() { P(""p"") } fn yc() { P(""p"") } fn xc() { Q(""q"") } fn yc() { Q(""q"") }" in
  exists A B F,
    faithful rust (reparse rust_syntax) /\ covers rust_syntax /\ reads_back rust /\ plain_strings rust ts /\
    (forall x, In x item_keywords -> ~ In x (ast_aliases F)) /\ (forall x, In x (ast_aliases A) -> ~ In x (ast_aliases B)) /\
    proper A /\ proper B /\ flattened A B F /\ staged A B /\
    yields rust rust_parsers rust_syntax B 7 ts (use DB ts) 0 c1 /\ yields rust rust_parsers rust_syntax A 7 c1 (use DA c1) 0 c /\
    yields rust rust_parsers rust_syntax F 7 ts (use DF ts) 0 c /\
    (forall bssA bssB, round_bindings rust (new_initialized rust 7 0) A = Ok bssA -> round_bindings rust (new_initialized rust 7 0) B = Ok bssB -> apart rust A bssA B bssB).
Proof.
  intros use DA DB DF ts c1 c.
  destruct (p_ast (inv_parsed (invocation_for rust rust_parsers (use_of (Compose (lex DA ++ [TGroup Brace ts])))))) as [[A|]|e|m] eqn:EA; try (vm_compute in EA; discriminate EA).
  destruct (p_ast (inv_parsed (invocation_for rust rust_parsers (use_of (Compose (lex DB ++ [TGroup Brace ts])))))) as [[B|]|e|m] eqn:EB; try (vm_compute in EB; discriminate EB).
  destruct (p_ast (inv_parsed (invocation_for rust rust_parsers (use_of (Compose (lex DF ++ [TGroup Brace ts])))))) as [[F|]|e|m] eqn:EF; try (vm_compute in EF; discriminate EF).
  exists (erase_ast A), (erase_ast B), (erase_ast F).
  split; [exact rust_faithful|]. split; [exact rust_covers|]. split; [intros v; reflexivity|].
  split. { intros l v p Hl Hp. vm_compute in Hl. repeat (destruct Hl as [Hl|Hl]; [try discriminate Hl|]); [injection Hl as <-|destruct Hl]. injection Hp as <- <-.
    exists [PHole (txt "t") 0], None. split; [reflexivity|]. split; [|repeat constructor].
    split; [|split; [|exact I]]; [repeat (constructor; [split; [discriminate|vm_compute; intuition discriminate]|]); constructor|repeat split; auto]. }
  vm_compute in EA, EB, EF. injection EA as <-. injection EB as <-. injection EF as <-.
  split; [intros x Hx Hin; vm_compute in Hx, Hin; intuition congruence|]. split; [intros x Hx Hin; vm_compute in Hx, Hin; intuition congruence|].
  split; [discriminate|]. split; [discriminate|]. split; [split; vm_compute; reflexivity|].
  split; [split; [intros x e Hx He|intros l x it Hl Hx Hi]; [vm_compute in Hx, He|vm_compute in Hl, Hi; intuition subst; vm_compute in Hx]; intuition subst; vm_compute in *; intuition discriminate|].
  split; [eexists _, _; split; [reflexivity|]; split; [vm_compute; reflexivity|]; vm_compute; repeat split; left; reflexivity|].
  split; [eexists _, _; split; [reflexivity|]; split; [vm_compute; reflexivity|]; vm_compute; repeat split; left; reflexivity|].
  split; [eexists _, _; split; [reflexivity|]; split; [vm_compute; reflexivity|]; vm_compute; repeat split; left; reflexivity|].
  intros bssA bssB HA HB. vm_compute in HA, HB. injection HA as <-. injection HB as <-. split; intros bs b Hbs Hb; vm_compute in Hbs; intuition subst; vm_compute in Hb; intuition subst;
    (split; [intros x Hx Hn; vm_compute in Hx, Hn; intuition congruence|]); (split; [intros l Hl; vm_compute in Hl; intuition discriminate|]); intros Hn; vm_compute in Hn; intuition discriminate.
Qed.

(** With loops in both the order of the pieces is another one. *)
Theorem C109_loops_refuted : exists DA DB ts c1 c12 c2 c21,
  let use D ts := expand_uses rust rust_parsers rust_syntax [use_of (Compose (D ++ [TGroup Brace ts]))] in
  use DA ts = [Code c1] /\ use DB c1 = [Code c12] /\ use DB ts = [Code c2] /\ use DA c2 = [Code c21] /\ c12 <> c21.
Proof.
  exists (lex "for a in [p, q]"), (lex "for b in [x, y]"), (lex "fn f() { g(a, b) }"), (lex "fn f() { g(p, b) } fn f() { g(q, b) }"),
    (lex "fn f() { g(p, x) } fn f() { g(q, x) } fn f() { g(p, y) } fn f() { g(q, y) }"), (lex "fn f() { g(a, x) } fn f() { g(a, y) }"),
    (lex "fn f() { g(p, x) } fn f() { g(p, y) } fn f() { g(q, x) } fn f() { g(q, y) }").
  vm_compute. repeat split; discriminate.
Qed.
Print Assumptions C109_loops_refuted.

(** A value of the one that is an alias of the other is replaced in one order only. *)
Theorem C109_values_refuted : exists DA DB ts c1 c12 c2 c21,
  let use D ts := expand_uses rust rust_parsers rust_syntax [use_of (Compose (D ++ [TGroup Brace ts]))] in
  use DA ts = [Code c1] /\ use DB c1 = [Code c12] /\ use DB ts = [Code c2] /\ use DA c2 = [Code c21] /\ c12 <> c21.
Proof. exists (lex "a = b,"), (lex "b = c,"), (lex "fn a() {}"), (lex "fn b() {}"), (lex "fn c() {}"), (lex "fn a() {}"), (lex "fn b() {}"). vm_compute. repeat split; discriminate. Qed.
Print Assumptions C109_values_refuted.

(** Doubled percent signs are halved by the first of the two, so that the second replaces what the
    first has left. *)
Theorem C109_strings_refuted : exists DA DB ts c1 c12 c2 c21,
  let use D ts := expand_uses rust rust_parsers rust_syntax [use_of (Compose (D ++ [TGroup Brace ts]))] in
  use DA ts = [Code c1] /\ use DB c1 = [Code c12] /\ use DB ts = [Code c2] /\ use DA c2 = [Code c21] /\ c12 <> c21.
Proof.
  exists (lex "a = x,"), (lex "b = y,"), (lex "fn f() { g(""%%a%%"") }"), (lex "fn f() { g(""%a%"") }"), (lex "fn f() { g(""%a%"") }"), (lex "fn f() { g(""%a%"") }"), (lex "fn f() { g(""x"") }").
  vm_compute. repeat split; discriminate.
Qed.
Print Assumptions C109_strings_refuted.

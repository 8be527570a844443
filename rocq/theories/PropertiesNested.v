(** C73: a use in the block of another means what one use with the loops and definitions of
    both means.  [inner_use], [flattened], [staged], [inert], [plain_strings] and [nested_in]
    are in SpecNested. *)
From Coq Require Import String.
From Verif Require Import Base Token Types Values Ast Env Item Deprecation Interpreter Parse Macro
  SpecMacro SpecPrograms SpecParse SpecFormat SpecElab SpecSubst SpecItem SpecDeprecation SpecRepro SpecForms SpecUnroll SpecNested NestedProofs MeaningProofs ItemFacts RunFacts
  Concrete ConcreteSpecs ConcreteRuns ConcreteParse ConcreteForms ConcreteNested.
Open Scope list_scope.

(** Two substitutions in a row are one with the values of both. *)
Theorem C73_substitutions : forall O f g names, reads_back O ->
  (forall x v, f x = Some v -> inert O names v) -> (forall x, ~ In x names -> g x = None) ->
  forall ts, plain_strings O ts ->
  substituted O g (substituted O f ts) = substituted O (fun x => match f x with Some v => Some v | None => g x end) ts.
Proof. exact substituted_twice. Qed.
Print Assumptions C73_substitutions.

(** The outer use yields one inner use per round, with the values of the round in place.  What
    these yield, one after the other, is what the flat use yields. *)
Theorem C73_nested : forall O P Y uses i u outer c1 uses' k w flat c3 header j T,
  faithful O (reparse Y) -> covers Y -> reads_back O ->
  nth_error uses i = Some u -> p_ast (inv_parsed (invocation_for O P u)) = Ok (Some outer) ->
  raised (invocation_for O P u) = [] -> nth_error (expand_uses O P Y uses) i = Some (Code c1) ->
  nth_error uses' k = Some w -> p_ast (inv_parsed (invocation_for O P w)) = Ok (Some flat) ->
  raised (invocation_for O P w) = [] -> nth_error (expand_uses O P Y uses') k = Some (Code c3) ->
  u_seed u = u_seed w \/ hash_free flat ->
  (forall x, In x item_keywords -> ~ In x (ast_aliases flat)) ->
  code outer = inner_use j T -> ~ In (txt "compose") (ast_aliases outer) ->
  proper (erase_ast outer) -> proper header -> flattened (erase_ast outer) header (erase_ast flat) ->
  exists bss, round_bindings O (new_initialized O (u_seed w) 0) (erase_ast outer) = Ok bss /\
    c1 = flat_map (fun bs => inner_use j (substituted O (fun x => assoc_str x bs) T)) bss /\
    (staged (erase_ast outer) header -> plain_strings O (code flat) ->
     (forall bs b, In bs bss -> In b bs -> inert O (ast_aliases header) (snd b)) ->
     forall us c, Forall2 (nested_in O P T flat header (u_seed w)) bss us ->
     outputs_in_sequence (expand_uses O P Y us) = Code c -> c = c3).
Proof. exact nested_uses. Qed.
Print Assumptions C73_nested.

(** [for t in [p, q] k = upper(t), { compose! { for x in [a, b] n = concat(x, c), { fn n() { k "%t%-%x%" } } } }] *)
Example C73_example :
  let inner := [i "for"; i "x"; i "in"; bracket [i "a"; comma; i "b"]] in
  let def := [i "n"; p1 "="; i "concat"; paren [i "x"; comma; i "c"]; comma] in
  let block := [brace [i "fn"; i "n"; paren []; brace [i "k"; ls "%t%-%x%"]]] in
  let loops := [i "for"; i "t"; i "in"; bracket [i "p"; comma; i "q"]] in
  let def' := [i "k"; p1 "="; i "upper"; paren [i "t"]; comma] in
  let T := inner ++ def ++ block in
  let u := use_of (Compose (loops ++ def' ++ [brace (inner_use false T)])) in
  let w := use_of (Compose (loops ++ inner ++ def' ++ def ++ block)) in
  let made (n k s : string) := [i "fn"; i n; paren []; brace [i k; ls s]] in
  exists outer header flat bss us,
    faithful ascii (reparse syntax0) /\ covers syntax0 /\ reads_back ascii /\
    p_ast (inv_parsed (invocation_for ascii loose_parsers u)) = Ok (Some outer) /\ raised (invocation_for ascii loose_parsers u) = [] /\
    p_ast (inv_parsed (invocation_for ascii loose_parsers w)) = Ok (Some flat) /\ raised (invocation_for ascii loose_parsers w) = [] /\
    hash_free flat /\ (forall x, In x item_keywords -> ~ In x (ast_aliases flat)) /\
    code outer = inner_use false T /\ ~ In (txt "compose") (ast_aliases outer) /\
    proper (erase_ast outer) /\ proper header /\ flattened (erase_ast outer) header (erase_ast flat) /\
    staged (erase_ast outer) header /\ plain_strings ascii (code flat) /\
    round_bindings ascii (new_initialized ascii 7 0) (erase_ast outer) = Ok bss /\
    (forall bs b, In bs bss -> In b bs -> inert ascii (ast_aliases header) (snd b)) /\
    Forall2 (nested_in ascii loose_parsers T flat header 7%N) bss us /\
    expand_uses ascii loose_parsers syntax0 us = [Code (made "ac"%string "P"%string "p-a"%string ++ made "bc"%string "P"%string "p-b"%string); Code (made "ac"%string "Q"%string "q-a"%string ++ made "bc"%string "Q"%string "q-b"%string)] /\
    expand_uses ascii loose_parsers syntax0 [w] = [Code (made "ac"%string "P"%string "p-a"%string ++ made "bc"%string "P"%string "p-b"%string ++ made "ac"%string "Q"%string "q-a"%string ++ made "bc"%string "Q"%string "q-b"%string)].
Proof.
  intros inner def block loops def' T u w made.
  destruct (p_ast (inv_parsed (invocation_for ascii loose_parsers u))) as [[outer|]|e|m] eqn:E1; try (vm_compute in E1; discriminate E1).
  destruct (p_ast (inv_parsed (invocation_for ascii loose_parsers w))) as [[flat|]|e|m] eqn:E3; try (vm_compute in E3; discriminate E3).
  destruct (p_ast (inv_parsed (invocation_for ascii loose_parsers (use_of (Compose T))))) as [[header|]|e|m] eqn:E2; try (vm_compute in E2; discriminate E2).
  destruct (round_bindings ascii (new_initialized ascii 7 0) (erase_ast outer)) as [bss|e|m] eqn:Eb; try (vm_compute in E1; injection E1 as <-; vm_compute in Eb; discriminate Eb).
  exists outer, (erase_ast header), flat, bss, (map (fun bs => use_of (Compose (substituted ascii (fun x => assoc_str x bs) T))) bss).
  vm_compute in E1, E2, E3. injection E1 as <-. injection E2 as <-. injection E3 as <-. vm_compute in Eb. injection Eb as <-.
  split; [exact (proj1 (proj2 (proj2 (proj2 ItemFacts.every_part_example))))|]. split; [exact RunFacts.syntax0_covers|]. split; [intros v; reflexivity|]. do 4 (split; [reflexivity|]).
  split; [unfold hash_free; repeat constructor|]. split; [intros x Hx Hin; vm_compute in Hx, Hin; intuition congruence|].
  split; [reflexivity|]. split; [intros Hin; vm_compute in Hin; intuition congruence|]. split; [discriminate|]. split; [discriminate|]. split; [split; vm_compute; reflexivity|].
  split; [split; [intros x e Hx He|intros l x it Hl Hx Hi]; [vm_compute in Hx, He|vm_compute in Hl, Hi; intuition subst; vm_compute in Hx]; intuition subst; vm_compute in *; intuition discriminate|].
  split. { intros l v p Hl Hp. vm_compute in Hl. repeat (destruct Hl as [Hl|Hl]; [try discriminate Hl|]); [injection Hl as <-|destruct Hl]. injection Hp as <- <-.
    exists [PHole (txt "t") 0; PText (txt "-"); PHole (txt "x") 0], None. split; [reflexivity|]. split; [|repeat constructor]. 
    split; [|split; [|exact I]]; [repeat (constructor; [split; [discriminate|vm_compute; intuition discriminate]|]); constructor|repeat split; auto]. }
  split; [vm_compute; reflexivity|]. split.
  { intros bs b Hbs Hb. vm_compute in Hbs. intuition subst; vm_compute in Hb; intuition subst; split; try (intros x Hx Hn; vm_compute in Hx, Hn; intuition congruence); split; try (intros l Hl; vm_compute in Hl; intuition discriminate); intros Hn; vm_compute in Hn; intuition discriminate. }
  split; [|vm_compute; split; reflexivity].
  constructor; [|constructor; [|constructor]]; (split; [reflexivity|split; [reflexivity|split; [left; reflexivity|eexists; split; [vm_compute; reflexivity|vm_compute; repeat split; reflexivity]]]]).
Qed.

(** Not if a string has runs of percent signs, which are shortened in each step: [t = p, { compose! { x = q, { f("%%x%%") } } }] *)
Theorem C73_strings_refuted : exists def def' block,
  in_two_steps (def ++ [brace (inner_use false (def' ++ [brace block]))]) = [Code [i "f"; paren [ls "q"]]] /\
  at_once (def ++ def' ++ [brace block]) = [Code [i "f"; paren [ls "%x%"]]].
Proof.
  exists [i "t"; p1 "="; i "p"; comma], [i "x"; p1 "="; i "q"; comma], [i "f"; paren [ls "%%x%%"]]. vm_compute. split; reflexivity.
Qed.
Print Assumptions C73_strings_refuted.

(** Nor if a value of the outer use has the name of an inner alias: [t = x, { compose! { x = q, { t } } }] *)
Theorem C73_values_refuted : exists def def' block,
  in_two_steps (def ++ [brace (inner_use false (def' ++ [brace block]))]) = [Code [i "q"]] /\ at_once (def ++ def' ++ [brace block]) = [Code [i "x"]].
Proof. exists [i "t"; p1 "="; i "x"; comma], [i "x"; p1 "="; i "q"; comma], [i "t"]. vm_compute. split; reflexivity. Qed.
Print Assumptions C73_values_refuted.

(** Nor if the inner use names an alias of the outer one.  Functions are not aliases, but in
    the block they are replaced: [t = concat, { compose! { x = t(a, b), { x } } }] *)
Theorem C73_header_refuted : exists def def' block,
  in_two_steps (def ++ [brace (inner_use false (def' ++ [brace block]))]) = [Code [i "ab"]] /\ at_once (def ++ def' ++ [brace block]) <> [Code [i "ab"]].
Proof. exists [i "t"; p1 "="; i "concat"; comma], [i "x"; p1 "="; i "t"; paren [i "a"; comma; i "b"]; comma], [i "x"]. split; [vm_compute; reflexivity|intros H; vm_compute in H; discriminate H]. Qed.
Print Assumptions C73_header_refuted.

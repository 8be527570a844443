(** C82: the code generated from input with invisible groups.  [flats] and [all_fine] are in
    SpecInvisible; [sees_through] (functions of [syn] that do with a stream what they do with it
    without the groups), [readable] and [source_fine] (the conditions of C69), [ast_in],
    [flat_use], [same_output] and the instances [seeing], [seeing_syntax] and [keeping_syntax]
    in SpecInvisibleRun. *)
From Coq Require Import String.
From Verif Require Import Base Token Types Values Ast Env Item Deprecation Interpreter Parse Macro
  SpecItem SpecMacro SpecInvisible InvisibleParse InvisibleMacro InvisibleInstance InvisibleTop SpecInvisibleRun InvisibleElab InvisibleStages InvisibleRun
  SpecParse SpecForms ConcreteParse RustLexer RustInstance RustLaws.
Open Scope list_scope.

(** Uses with invisible groups and the same uses without them have the same outcome: the same
    error, the same panic, or code that is the same but for such groups. *)
Theorem C82_uses : forall O Y D, sees_through O Y D -> forall P uses,
  Forall (fun u => readable P (u_source u)) uses ->
  Forall (fun u => forall a, p_ast (inv_parsed (invocation_through O P u)) = Ok (Some a) -> ast_in D a) uses ->
  Forall (fun u => forall a, p_ast (inv_parsed (invocation_for O P (flat_use u))) = Ok (Some a) ->
    ast_in D a /\ forall x, In x item_keywords -> ~ In x (ast_aliases a)) uses ->
  Forall2 same_output (expand_uses_through O P Y uses) (expand_uses O P Y (map flat_use uses)).
Proof. exact uses_alike. Qed.
Print Assumptions C82_uses.

(** What an alias stands for is the same but for invisible groups. *)
Theorem C82_bindings : forall O Y D, sees_through O Y D -> forall seed id items items',
  SpecRepro.map_items (over_expr flats) items = SpecRepro.map_items (over_expr flats) items' ->
  Forall (fun it => expr_in D (snd it)) items -> Forall (fun it => expr_in D (snd it)) items' ->
  SpecInvisibleRun.same_result (Forall2 (fun x y => fst x = fst y /\ over_value flats (snd x) = over_value flats (snd y) /\ D (to_tokens (snd x)) /\ D (to_tokens (snd y))))
    (SpecElab.bindings O (new_initialized O seed id) items) (SpecElab.bindings O (new_initialized O seed id) items').
Proof. exact bindings_alike. Qed.
Print Assumptions C82_bindings.

(** There are such functions, made of any for streams without the groups: ones that drop the
    groups, and ones that keep them in what they read.  With these nothing has to be known of
    what was parsed. *)
Theorem C82_dropping : forall O P Y uses, faithful O (reparse Y) -> within P -> blocks_braced Y ->
  Forall (fun u => source_fine (u_source u)) uses ->
  Forall (fun u => forall a, p_ast (inv_parsed (invocation_for (seeing O) (reading_through P) (flat_use u))) = Ok (Some a) ->
    forall x, In x item_keywords -> ~ In x (ast_aliases a)) uses ->
  Forall2 same_output (expand_uses_through (seeing O) (reading_through P) (seeing_syntax Y) uses)
    (expand_uses (seeing O) (reading_through P) (seeing_syntax Y) (map flat_use uses)).
Proof. exact instance_uses. Qed.
Print Assumptions C82_dropping.
Theorem C82_keeping : forall O P Y uses, faithful O (reparse Y) -> within P -> blocks_braced Y ->
  Forall (fun u => source_fine (u_source u)) uses ->
  Forall (fun u => forall a, p_ast (inv_parsed (invocation_for (seeing O) (reading_through P) (flat_use u))) = Ok (Some a) ->
    forall x, In x item_keywords -> ~ In x (ast_aliases a)) uses ->
  Forall2 same_output (expand_uses_through (seeing O) (reading_through P) (keeping_syntax Y) uses)
    (expand_uses (seeing O) (reading_through P) (keeping_syntax Y) (map flat_use uses)).
Proof. exact keeping_uses. Qed.
Print Assumptions C82_keeping.
Theorem C82_laws : faithful rust (reparse rust_syntax) /\ within rust_parsers /\ blocks_braced rust_syntax /\
  sees_through (seeing rust) (seeing_syntax rust_syntax) (fun _ => True) /\ sees_through (seeing rust) (keeping_syntax rust_syntax) (fun _ => True).
Proof.
  exact (conj rust_faithful (conj rust_within (conj rust_blocks
    (conj (instance_sees rust rust_syntax rust_faithful rust_blocks) (instance_keeps rust rust_syntax rust_faithful rust_blocks))))).
Qed.
Print Assumptions C82_laws.

(** [T = raw(«Vec<u8>»), n = concat(«foo», _, «bar»), «{ fn n() -> Option<T> {} }»], a call that has no
    overload, a number for a name, and a semicolon.  The group of [T] is in the code. *)
Example C82_example :
  let inv x := TGroup NoDelim (lex x) in
  let uses := map (fun ts => use_of (Compose ts)) [
    lex "T = raw" ++ [TGroup Paren [inv "Vec<u8>"%string]] ++ lex ", n = concat" ++
      [TGroup Paren (inv "foo"%string :: lex ", _, " ++ [inv "bar"%string])] ++ lex "," ++ [inv "{ fn n() -> Option<T> {} }"%string];
    lex "n = upper" ++ [TGroup Paren [inv "a::b"%string]] ++ lex ", { fn n() {} }";
    lex "n = " ++ [inv "1"%string] ++ lex ", { fn n() {} }";
    inv "n"%string :: lex "= upper" ++ [TGroup Paren [inv "a"%string]] ++ lex "; { fn n() {} }"] in
  let P := reading_through rust_parsers in
  Forall (fun u => source_fine (u_source u)) uses /\
  Forall (fun u => forall a, p_ast (inv_parsed (invocation_for (seeing rust) P (flat_use u))) = Ok (Some a) ->
    forall x, In x item_keywords -> ~ In x (ast_aliases a)) uses /\
  map (fun u => source_visible (u_source u)) uses = [false; false; false; false] /\
  expand_uses_through (seeing rust) P (keeping_syntax rust_syntax) uses =
    [Code (lex "fn foo_bar() -> Option<" ++ [inv "Vec<u8>"%string] ++ lex "> {}"); CompileError (SignatureError (txt "upper"));
     CompileError (SubstitutionError (txt "n")); Code (lex "fn A() {}")] /\
  expand_uses (seeing rust) P (keeping_syntax rust_syntax) (map flat_use uses) =
    [Code (lex "fn foo_bar() -> Option<Vec<u8> > {}"); CompileError (SignatureError (txt "upper"));
     CompileError (SubstitutionError (txt "n")); Code (lex "fn A() {}")].
Proof.
  intros inv uses P. split; [repeat constructor|]. split; [|split; [vm_compute; reflexivity|split; vm_compute; reflexivity]].
  repeat (apply Forall_cons; [intros a Ha; vm_compute in Ha; injection Ha as <-; intros x Hx Hin; vm_compute in Hx, Hin; intuition congruence|]). constructor.
Qed.

(** Functions that do not see through the groups: the parser of the macro reads the tokens, but
    in the place of a name they are not accepted.  ([syn] does see through this group.) *)
Theorem C82_blind_refuted : exists O P Y uses, Forall (fun u => readable P (u_source u)) uses /\ faithful O (reparse Y) /\ blocks_braced Y /\
  ~ Forall2 same_output (expand_uses_through O P Y uses) (expand_uses O P Y (map flat_use uses)).
Proof.
  exists rust, (reading_through rust_parsers), rust_syntax,
    [use_of (Compose (lex "n = raw" ++ [TGroup Paren [TGroup NoDelim (lex "foo")]] ++ lex ", { struct n; }"))].
  split; [constructor; [apply instance_readable; [exact rust_within|vm_compute; reflexivity]|constructor]|].
  split; [exact rust_faithful|]. split; [exact rust_blocks|]. intros H. vm_compute in H. inversion H as [|? ? ? ? H1 _]; subst. exact H1.
Qed.
Print Assumptions C82_blind_refuted.

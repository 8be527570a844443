(** Specification of what the code generated from input with invisible groups has to do with
    the code generated from the same input without them. *)
From Verif Require Import Base Token Types Values Ast Env Item Deprecation Interpreter Parse Macro
  SpecSubst SpecParse SpecItem SpecMacro SpecOutcome SpecInvisible.
Open Scope list_scope.

(** ** Streams *)
Section Alike.
Context (D : list tt -> Prop).
(** The same but for invisible groups, both among the streams [D]. *)
Definition alike (a b : list tt) : Prop := D a /\ D b /\ flats a = flats b.
(** A parser does the same with streams that are alike. *)
Definition parses_alike (f : list tt -> option (list tt)) : Prop :=
  forall a b, alike a b -> match f a, f b with Some x, Some y => alike x y | None, None => True | _, _ => False end.
End Alike.

(** ** Traversal *)

(** What the visitor that adds warnings sees of a block, without the invisible groups. *)
Definition flat_attr (a : attr) : attr := {| is_inner := is_inner a; meta := flats (meta a) |}.
Fixpoint flat_tree (t : tree) : list tree :=
  match t with
  | DTok t => map DTok (flat t)
  | DGroup NoDelim l => flat_map flat_tree l
  | DGroup d l => [DGroup d (flat_map flat_tree l)]
  | DNode a b l => [DNode (map flat_attr a) (existsb (fun a => names_deprecated (meta a)) a || b) (flat_map flat_tree l)]
  end.
Definition flat_forest (f : forest) : forest := flat_map flat_tree f.

(** ** [syn]'s parsers and printers do not care for invisible groups in the streams [D] *)
Record sees_through (O : oracles) (Y : syntax) (D : list tt -> Prop) : Prop := {
  (* what is read again and again stays among the streams *)
  in_nothing : D [];
  in_ident : forall x, D [TIdent x];
  in_literal : forall l, D [TLit l];
  in_two : forall a b, D a -> D b -> D (a ++ b);
  in_stage : forall lookup ts s, D ts -> (forall x v, lookup x = Some v -> D (to_tokens v)) ->
    In s (substitution_stages O lookup ts) -> D (snd s);
  (* parsing *)
  through_an_ident : forall a b, alike D a b -> parse_ident O a = parse_ident O b;
  through_a_lit_str : forall a b, alike D a b -> parse_lit_str O a = parse_lit_str O b;
  through_a_lit_int : forall a b, alike D a b -> parse_lit_int O a = parse_lit_int O b;
  through_a_path : parses_alike D (parse_path O);
  through_a_type : parses_alike D (parse_type O);
  through_an_expr : parses_alike D (Values.parse_expr O);
  through_a_node : forall k, parses_alike D (reparse Y k);
  (* text *)
  through_text : forall a b, alike D a b -> to_string O a = to_string O b;
  through_segments : forall a b, alike D a b -> path_segments O a = path_segments O b;
  (* what was parsed prints as what was read but for invisible groups; blocks are in braces *)
  printed_node : forall k ts ts', reparse Y k ts = Some ts' -> flats ts' = flats ts;
  printed_ident : forall ts x, parse_ident O ts = Some x -> flats ts = [TIdent x];
  printed_lit_str : forall ts v p, parse_lit_str O ts = Some (v, p) -> flats ts = [TLit (LStr v p)];
  printed_block : forall ts b, reparse Y KBlock ts = Some b -> exists inside, b = [TGroup Brace inside];
  (* traversal *)
  through_forest : forall a b, flats a = flats b -> flat_forest (as_forest Y a) = flat_forest (as_forest Y b);
}.

(** ** Inputs *)
Definition flat_part (p : part) : part :=
  match p with
  | PartNode k ts => PartNode k (flats ts)
  | PartAttributes l => PartAttributes (map flat_attr l)
  | PartStatement ts => PartStatement (flats ts)
  | _ => p
  end.
(** What is emitted of a block where nothing is replaced, and what is parsed again. *)
Definition block_reading (b : list stmt) : list tt * list part :=
  (flats (block_tokens (map drop_where_stmt b)), map flat_part (block_parts b)).
Definition reads_all_through (P : parsers) (ts : list tt) : Prop :=
  transparent_at P ts /\ reads_through (pre_block P) block_reading ts.
(** The conditions of C69. *)
Definition readable (P : parsers) (s : source) : Prop :=
  match s with
  | Compose ts | ComposeIdents ts => all_fine ts = true /\ forall r, part_of ts r -> reads_all_through P r
  | ComposeItem attr item =>
      all_fine attr = true /\ all_fine item = true /\
      forall r, part_of attr r \/ part_of [TGroup Brace item] r -> reads_all_through P r
  end.
Definition flat_source (s : source) : source :=
  match s with
  | Compose ts => Compose (flats ts)
  | ComposeIdents ts => ComposeIdents (flats ts)
  | ComposeItem attr item => ComposeItem (flats attr) (flats item)
  end.
Definition flat_use (u : use) : use :=
  {| u_source := flat_source (u_source u); u_seed := u_seed u; u_first_id := u_first_id u; u_next_id := u_next_id u |}.

(** What was parsed is among the streams. *)
Section In.
Context (D : list tt -> Prop).
Fixpoint expr_in (e : expr) : Prop :=
  match e with
  | EValue _ v => D (to_tokens v)
  | ECall _ _ args raw =>
      (fix all (l : list expr) : Prop := match l with [] => True | a :: r => expr_in a /\ all r end) args /\
      match raw with Some (_, ts) => D ts | None => True end
  end.
Definition part_in (p : part) : Prop :=
  match p with
  | PartNode _ ts => D ts
  | PartAttributes l => Forall (fun a => D (meta a)) l
  | PartStatement ts => D [TGroup Brace ts]
  | PartName _ | PartAbi _ _ => True
  end.
Definition ast_in (a : raw_ast (list stmt)) : Prop :=
  Forall expr_in (ast_exprs a) /\ Forall part_in (block_parts (ast_block a)).
End In.
(** Two inputs are the same but for invisible groups. *)
Definition same_ast (a b : raw_ast (list stmt)) : Prop := over_ast flats block_reading a = over_ast flats block_reading b.

(** ** Outputs *)
Definition same_result {A} (R : A -> A -> Prop) (x y : res A) : Prop :=
  match x, y with
  | Ok a, Ok b => R a b
  | Err e, Err e' => e = e'
  | Panic p, Panic q => p = q
  | _, _ => False
  end.
Definition same_output (x y : output) : Prop :=
  match x, y with
  | Code a, Code b => flats a = flats b
  | SyntaxError, SyntaxError => True
  | CompileError e, CompileError e' => e = e'
  | Panicked p, Panicked q => p = q
  | _, _ => False
  end.

(** ** An instance, made of any functions for streams without invisible groups *)
Definition seeing (O : oracles) : oracles := {|
  parse_ident ts := parse_ident O (flats ts);
  parse_path ts := parse_path O (flats ts);
  parse_type ts := parse_type O (flats ts);
  Values.parse_expr ts := Values.parse_expr O (flats ts);
  parse_lit_str ts := parse_lit_str O (flats ts);
  parse_lit_int ts := parse_lit_int O (flats ts);
  parse_str_ident := parse_str_ident O;
  ident_ok := ident_ok O;
  lit_int_new := lit_int_new O;
  to_string ts := to_string O (flats ts);
  upper := upper O;
  lower := lower O;
  to_snake_case := to_snake_case O;
  to_camel_case := to_camel_case O;
  to_pascal_case := to_pascal_case O;
  is_alphanumeric := is_alphanumeric O;
  is_numeric := is_numeric O;
  is_whitespace := is_whitespace O;
  hash64 := hash64 O;
  path_segments ts := path_segments O (flats ts);
|}.
Definition seeing_syntax (Y : syntax) : syntax := {|
  reparse k ts := reparse Y k (flats ts);
  as_forest ts := as_forest Y (flats ts);
|}.
(** Another, that keeps the groups where they are, as [syn] does in types and expressions; all
    that is emitted is plain tokens. *)
Definition keeping_syntax (Y : syntax) : syntax := {|
  reparse k ts := match k with
                  | KBlock => reparse Y k (flats ts)
                  | _ => match reparse Y k (flats ts) with Some _ => Some ts | None => None end
                  end;
  as_forest ts := map DTok ts;
|}.
(** Blocks are in braces. *)
Definition blocks_braced (Y : syntax) : Prop := forall ts b, reparse Y KBlock ts = Some b -> exists inside, b = [TGroup Brace inside].
(** The condition of C69 on the tokens themselves. *)
Definition source_fine (s : source) : Prop :=
  match s with Compose ts | ComposeIdents ts => all_fine ts = true | ComposeItem attr item => all_fine attr = true /\ all_fine item = true end.

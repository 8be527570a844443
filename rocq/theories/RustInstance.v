(** The external functions instantiated with the lexer, the text functions and the grammar of
    Rust*.v, and the test harness of the repository, for the conformance examples. *)
From Coq Require Import String.
From Verif Require Import Base Token Types Values Ast Env Item Deprecation Interpreter Parse Macro AliasSubstitution
  Concrete ConcreteParse RustLexer RustText RustGrammar.
Open Scope list_scope.

(** Enough for the examples. *)
Definition depth : nat := 400.
Definition block_ok (b : list tt) : bool := match stmts depth b with Some _ => true | None => false end.
Definition nt_ (n : nt) : parser := go block_ok depth n.
Definition stmts_ : list tt -> option (list stmt) := stmts depth.
Fixpoint items_ (k : nat) (ts : list tt) : option (list item) :=
  match k with
  | 0 => None
  | S k' => sequence (module_item nt_ stmts_ (items_ k')) (List.length ts) ts
  end.

Fixpoint segments (fuel : nat) (ts : list tt) : list str :=
  match fuel with
  | 0 => []
  | S fuel' =>
      match ts with
      | TIdent x :: r =>
          let r1 := match (opt (op "::") ;;; ch "<" ;;; nt_ NAngle) r with Some r' => r' | None => r end in
          x :: match op "::" r1 with Some r2 => segments fuel' r2 | None => [] end
      | _ => match op "::" ts with Some r => segments fuel' r | None => [] end
      end
  end.

Definition whole (f : parser) (ts : list tt) : option (list tt) := if all f ts then Some ts else None.
Definition literal_text (x : str) : option (str * str) :=
  match lex_text x with
  | Some [TLit (LInt d r)] => Some (d, r)
  | _ => None
  end.

Definition rust : oracles := {|
  parse_ident := fun ts => match ts with [TIdent x] => if plain_ident x then Some x else None | _ => None end;
  parse_path := whole (nt_ (NPath false));
  parse_type := whole (nt_ (NType true));
  Values.parse_expr := whole (nt_ (NExpr true));
  parse_lit_str := parse_lit_str ascii;
  parse_lit_int := parse_lit_int ascii;
  parse_str_ident := fun x => match lex_text x with Some [TIdent y] => if plain_ident y then Some y else None | _ => None end;
  ident_ok := fun x => match x with [] => false | c :: r => ident_start c && forallb ident_continue r end;
  lit_int_new := literal_text;
  to_string := display;
  upper := map up;
  lower := map low;
  to_snake_case := heck_snake;
  to_camel_case := heck_camel;
  to_pascal_case := heck_pascal;
  is_alphanumeric := is_alnum;
  is_numeric := is_digit;
  is_whitespace := is_space;
  hash64 := sip_hash;
  path_segments := fun ts => segments (S (List.length ts)) ts;
|}.

(** A parenthesised type reads a type and leaves the rest of the group unread, unless a comma
    makes it a tuple. *)
Definition rust_pre_type (ts : list tt) : option (list tt * nat * bool) :=
  match node ts (nt_ (NType true) ts), ts with
  | Some r, _ => Some r
  | None, TGroup Paren inner :: _ =>
      match nt_ (NType true) inner with
      | Some (t :: r) =>
          if is_comma t then None
          else Some ([TGroup Paren (upto inner (t :: r))], 1, true)
      | _ => None
      end
  | None, _ => None
  end.

Definition rust_parsers : parsers := {|
  ident_allowed := plain_ident;
  pre_lit_int := pre_lit_int ascii_parsers;
  pre_lit_str := pre_lit_str ascii_parsers;
  pre_path := fun ts => node ts (nt_ (NPath false) ts);
  pre_type := rust_pre_type;
  pre_expr := fun ts => node ts (nt_ (NExpr true) ts);
  pre_block := fun ts =>
    match ts with
    | TGroup Brace b :: _ => option_map (fun l => (l, 1, false)) (stmts_ b)
    | _ => None
    end;
|}.

Definition rest_of {A} (f : list tt -> option (A * list tt)) : parser := fun ts => option_map snd (f ts).
Definition rust_reparse (k : kind) : list tt -> option (list tt) :=
  whole match k with
        | KMeta => nt_ NMeta
        | KVis => vis_
        | KSig => nt_ NSig
        | KGenerics => opt (nt_ NGenerics)
        | KBound => nt_ NBound
        | KPath => nt_ (NPath false)
        | KType => nt_ (NType true)
        | KExpr => nt_ (NExpr true)
        | KBlock => nt_ NBlock
        | KItem => rest_of (module_item nt_ stmts_ (items_ depth))
        | KForeignItem => rest_of (foreign_item_ nt_)
        | KTraitConst | KTraitType | KTraitMacro | KTraitItem => rest_of (trait_item_ nt_ stmts_)
        | KImplConst | KImplType | KImplMacro | KImplItem => rest_of (impl_item_ nt_ stmts_)
        end.

(** The traversal of the deprecation service.  Items within expressions are not looked for. *)
Definition plain_trees (ts : list tt) : forest := map DTok ts.
Definition has_inner_deprecated (l : list attr) : bool := existsb (fun a => names_deprecated (meta a)) (inner l).
Fixpoint separated_trees (t : bool) (l : list (list tree)) : forest :=
  match l with
  | [] => []
  | [x] => x ++ if t then [DTok (sym ",")] else []
  | x :: r => x ++ DTok (sym ",") :: separated_trees t r
  end.
Definition field_trees (f : field) : list tree :=
  [DNode (f_attrs f) false
     (plain_trees (f_vis f ++ match f_ident f with Some x => [TIdent x; sym ":"] | None => [] end ++ f_ty f))].
Definition fields_trees (f : fields) : list tree :=
  match f with
  | FNamed l t => [DGroup Brace (separated_trees t (map field_trees l))]
  | FUnnamed l t => [DGroup Paren (separated_trees t (map field_trees l))]
  | FUnit => []
  end.
Definition variant_trees (v : variant) : list tree :=
  [DNode (v_attrs v) false
     (DTok (TIdent (v_ident v)) :: fields_trees (v_fields v) ++
      plain_trees match v_disc v with Some e => sym "=" :: e | None => [] end)].
Definition attributed (ts : list tt) : list tree :=
  let (a, r) := take_attrs ts in [DNode a false (plain_trees r)].
Fixpoint item_trees (x : item) : list tree :=
  match x with
  | IFn a v sig body =>
      [DNode (outer a) (has_inner_deprecated a)
         (plain_trees (v ++ sig) ++ [DGroup Brace (plain_trees (attrs_tokens (inner a)) ++ flat_map stmt_trees body)])]
  | IStruct a v x g f =>
      [DNode a false
         (plain_trees (v ++ [kw "struct"; TIdent x] ++ g_params g) ++
          match f with
          | FNamed _ _ => plain_trees (g_where g) ++ fields_trees f
          | FUnnamed _ _ => fields_trees f ++ plain_trees (g_where g ++ [sym ";"])
          | FUnit => plain_trees (g_where g ++ [sym ";"])
          end)]
  | IEnum a v x g vs t =>
      [DNode a false
         (plain_trees (v ++ [kw "enum"; TIdent x] ++ g_params g ++ g_where g) ++
          [DGroup Brace (separated_trees t (map variant_trees vs))])]
  | IUnion a v x g l t =>
      [DNode a false
         (plain_trees (v ++ [kw "union"; TIdent x] ++ g_params g ++ g_where g) ++
          [DGroup Brace (separated_trees t (map field_trees l))])]
  | ITrait a v u au x g supers t items =>
      [DNode (outer a) (has_inner_deprecated a)
         (plain_trees (v ++ kw_if u "unsafe" ++ kw_if au "auto" ++ [kw "trait"; TIdent x] ++ g_params g ++
            (match supers with [] => [] | _ => sym ":" :: punctuated (fun b => b) (sym "+") t supers end) ++ g_where g) ++
          [DGroup Brace (plain_trees (attrs_tokens (inner a)) ++ flat_map trait_item_trees items)])]
  | IImpl a d u g tr ty items =>
      [DNode (outer a) (has_inner_deprecated a)
         (plain_trees (kw_if d "default" ++ kw_if u "unsafe" ++ [kw "impl"] ++ g_params g ++
            (match tr with Some (bang, path) => (if bang then [sym "!"] else []) ++ path ++ [kw "for"] | None => [] end) ++
            ty ++ g_where g) ++
          [DGroup Brace (plain_trees (attrs_tokens (inner a)) ++ flat_map impl_item_trees items)])]
  | IMod a v u x content =>
      [DNode (outer a) (has_inner_deprecated a)
         (plain_trees (v ++ kw_if u "unsafe" ++ [kw "mod"; TIdent x]) ++
          match content with
          | Some l => [DGroup Brace (plain_trees (attrs_tokens (inner a)) ++ flat_map item_trees l)]
          | None => [DTok (sym ";")]
          end)]
  | IForeign a u abi l =>
      [DNode (outer a) (has_inner_deprecated a)
         (plain_trees (kw_if u "unsafe" ++ [kw "extern"] ++ match abi with Some (v, p) => [TLit (LStr v p)] | None => [] end) ++
          [DGroup Brace (plain_trees (attrs_tokens (inner a)) ++ flat_map attributed l)])]
  | IOther ts => attributed ts
  end
with stmt_trees (s : stmt) : list tree :=
  match s with
  | SItem x => item_trees x
  | SOther ts => plain_trees ts
  end
with trait_item_trees (x : trait_item) : list tree :=
  match x with
  | TFn a sig (Some body) =>
      [DNode (outer a) (has_inner_deprecated a)
         (plain_trees sig ++ [DGroup Brace (plain_trees (attrs_tokens (inner a)) ++ flat_map stmt_trees body)])]
  | TFn a sig None => [DNode (outer a) (has_inner_deprecated a) (plain_trees (sig ++ [sym ";"]))]
  | TOther _ ts => attributed ts
  end
with impl_item_trees (x : impl_item) : list tree :=
  match x with
  | MFn a v d sig body =>
      plain_trees (attrs_tokens (outer a) ++ v ++ kw_if d "default" ++ sig) ++
      [DGroup Brace (plain_trees (attrs_tokens (inner a)) ++ flat_map stmt_trees body)]
  | MOther _ ts => plain_trees ts
  end.
(** Spacing that the grammar reads over would be lost in printing: then the tokens are taken as
    they are. *)
Definition rust_forest (ts : list tt) : forest :=
  match stmts_ ts with
  | Some l =>
      let f := flat_map stmt_trees l in
      if tt_eqb (TGroup Brace (forest_tokens f)) (TGroup Brace ts) then f else plain_trees ts
  | None => plain_trees ts
  end.
Definition rust_syntax : syntax := {| reparse := rust_reparse; as_forest := rust_forest |}.

(** ** The harness of /repo/src/interpreter/test.rs

    The definitions are parsed as loops and as an alias specification, each if it parses
    (44-49), the blocks as blocks, and the interpreter runs with seed 1. *)
Definition known_ : str -> bool := known rust.
Definition run_case (spec block : string) : option (res (list tt)) :=
  match parse_loops rust_parsers known_ (map (ann rust_parsers known_) (lex spec)) 1000 with
  | (n, Some (loops, l, false)) =>
      match pre_block rust_parsers (lex block) with
      | Some (b, 1, false) =>
          let run al := Some (execute rust rust_syntax (new_initialized rust 1 100)
                                (maybe_set_global (new_service (txt "compose_idents!: ")) None)
                                {| ast_loops := match loops with [] => None | _ => Some loops end; ast_spec := al; ast_block := b |}) in
          match parse_spec rust_parsers known_ l None None n with
          | (_, Some (items, used, [], false)) => run (Some {| spec_items := items; is_comma_used := used |})
          | (_, Some _) => None
          | (_, None) => match l with [] => run None | _ => None end
          end
      | _ => None
      end
  | _ => None
  end.
(** The statements of the expected block.  Examples only write blocks. *)
Definition statements (block : string) : option (res (list tt)) :=
  match lex block with
  | [TGroup Brace ts] =>
      match stmts_ ts with Some l => Some (Ok (block_tokens l)) | None => Some (Ok [TIdent (txt "no statements")]) end
  | _ => Some (Ok [TIdent (txt "no block")])
  end.
(** /repo/src/error.rs: [Error::type_]. *)
Definition failure (o : option (res (list tt))) : option string :=
  match o with
  | Some (Err e) =>
      Some match e with
           | TypeError => "TypeError"
           | EvalError => "EvalError"
           | RedefinedNameError _ => "RedefinedNameError"
           | SignatureError _ => "SignatureError"
           | UndefinedFunctionError _ => "UndefinedFunctionError"
           | SubstitutionError _ => "SubstitutionError"
           | InternalError => "InternalError"
           end%string
  | _ => None
  end.

(** ** The harnesses of the unit tests *)

(** Spacing is left out where printed nodes are compared with text: syn respaces what it
    prints. *)
Fixpoint unspaced (t : tt) : tt :=
  match t with
  | TPunct c _ => TPunct c false
  | TGroup d ts => TGroup d (map unspaced ts)
  | _ => t
  end.
(** /repo/src/parse/value.rs 371-394: a value before a comma, its type and what follows. *)
Definition value_of (t : ty) (x rest : string) : option (ty * list tt * list tt) :=
  Some (t, map unspaced (lex x), lex rest).
Definition parsed_value (x : string) : option (ty * list tt * list tt) :=
  match parse_value rust_parsers is_comma 0 (lex x) with
  | (_, (EValue _ v, k, false)) => Some (type_of v, map unspaced (to_tokens v), skipn k (lex x))
  | _ => None
  end.

(** /repo/src/substitution/alias_substitution_visitor.rs 529-545 and substitute_idents.rs
    168-180: the visitor and the token substitution on a block. *)
Definition table (l : list (string * value)) (x : str) : option value :=
  option_map snd (find (fun b => str_eqb x (txt (fst b))) l).
Definition visited (l : list (string * value)) (block : string) : option (res (list tt)) :=
  match pre_block rust_parsers (lex block) with
  | Some (b, 1, false) =>
      Some (let! b' := visit_block rust (table l) rust_reparse b in Ok (block_tokens b'))
  | _ => None
  end.
Definition substituted (l : list (string * value)) (block : string) : option (res (list tt)) :=
  match pre_block rust_parsers (lex block) with
  | Some (_, 1, false) =>
      Some (let! ts := SubstituteIdents.substitute_idents rust (table l) (rust_reparse KBlock) (lex block) in
            match ts with [TGroup Brace b] => Ok b | _ => Ok ts end)
  | _ => None
  end.

(** ** Whole macro uses *)
Definition expanded (s : source) : list output :=
  expand_uses rust rust_parsers rust_syntax [{| u_source := s; u_seed := 1; u_first_id := 100; u_next_id := 1000 |}].
Definition code (x : string) : list output := [Code (lex x)].

(** Specification of the code of a block whose keywords may be names of aliases: what is
    replaced, and the keywords of items between, which are not. *)
From Coq Require Import String.
From Verif Require Import Base Token Types Values Ast Env Item Interpreter Parse SpecSubst SpecItem SpecElab SpecMacro SpecOutcome.
Open Scope list_scope.

Inductive piece :=
| Keyword (x : string)
| Replaced (ts : list tt)
| Enclosed (d : delim) (l : list piece).
Definition keyword_if (b : bool) (x : string) : list piece := if b then [Keyword x] else [].

(** The block (without the where clauses of C25) in pieces. *)
Fixpoint item_pieces (i : item) : list piece :=
  match i with
  | IFn a v s b => [Replaced (attrs_tokens (outer a) ++ v ++ s); Enclosed Brace (Replaced (attrs_tokens (inner a)) :: flat_map stmt_pieces b)]
  | IStruct a v x g f =>
      [Replaced (attrs_tokens (outer a) ++ v); Keyword "struct";
       Replaced ([TIdent x] ++ g_params g ++ fields_tokens f ++ match f with FNamed _ _ => [] | _ => [sym ";"] end)]
  | IEnum a v x g l t =>
      [Replaced (attrs_tokens (outer a) ++ v); Keyword "enum";
       Replaced ([TIdent x] ++ g_params g ++ [TGroup Brace (punctuated variant_tokens (sym ",") t l)])]
  | IUnion a v x g l t =>
      [Replaced (attrs_tokens (outer a) ++ v); Keyword "union";
       Replaced ([TIdent x] ++ g_params g ++ [TGroup Brace (punctuated field_tokens (sym ",") t l)])]
  | ITrait a v u au x g s t l =>
      [Replaced (attrs_tokens (outer a) ++ v)] ++ keyword_if u "unsafe" ++ keyword_if au "auto" ++
      [Keyword "trait";
       Replaced ([TIdent x] ++ g_params g ++ match s with [] => [] | _ => sym ":" :: punctuated (fun b => b) (sym "+") t s end);
       Enclosed Brace (Replaced (attrs_tokens (inner a)) :: flat_map trait_item_pieces l)]
  | IImpl a d u g tr ty l =>
      [Replaced (attrs_tokens (outer a))] ++ keyword_if d "default" ++ keyword_if u "unsafe" ++
      [Keyword "impl"; Replaced (g_params g)] ++
      match tr with Some (bang, path) => [Replaced ((if bang : bool then [sym "!"] else []) ++ path); Keyword "for"] | None => [] end ++
      [Replaced ty; Enclosed Brace (Replaced (attrs_tokens (inner a)) :: flat_map impl_item_pieces l)]
  | IMod a v u x c =>
      [Replaced (attrs_tokens (outer a) ++ v)] ++ keyword_if u "unsafe" ++ [Keyword "mod"; Replaced [TIdent x]] ++
      match c with
      | Some l => [Enclosed Brace (Replaced (attrs_tokens (inner a)) :: flat_map item_pieces l)]
      | None => [Replaced [sym ";"]]
      end
  | IForeign a u abi l =>
      [Replaced (attrs_tokens (outer a))] ++ keyword_if u "unsafe" ++
      [Keyword "extern"; Replaced (match abi with Some (v, p) => [TLit (LStr v p)] | None => [] end);
       Enclosed Brace [Replaced (attrs_tokens (inner a) ++ List.concat l)]]
  | IOther ts => [Replaced ts]
  end
with stmt_pieces (s : stmt) : list piece :=
  match s with SItem i => item_pieces i | SOther ts => [Replaced ts] end
with trait_item_pieces (i : trait_item) : list piece :=
  match i with
  | TFn a s (Some b) => [Replaced (attrs_tokens (outer a) ++ s); Enclosed Brace (Replaced (attrs_tokens (inner a)) :: flat_map stmt_pieces b)]
  | TFn a s None => [Replaced (attrs_tokens (outer a) ++ s ++ [sym ";"])]
  | TOther _ ts => [Replaced ts]
  end
with impl_item_pieces (i : impl_item) : list piece :=
  match i with
  | MFn a v d s b =>
      [Replaced (attrs_tokens (outer a) ++ v)] ++ keyword_if d "default" ++
      [Replaced s; Enclosed Brace (Replaced (attrs_tokens (inner a)) :: flat_map stmt_pieces b)]
  | MOther _ ts => [Replaced ts]
  end.
Definition block_pieces (l : list stmt) : list piece := flat_map stmt_pieces l.

(** The tokens of pieces, with [f] done to what is replaced. *)
Fixpoint piece_code (f : list tt -> list tt) (p : piece) : list tt :=
  match p with
  | Keyword x => [TIdent (txt x)]
  | Replaced ts => f ts
  | Enclosed d l => [TGroup d (flat_map (piece_code f) l)]
  end.
Definition pieces_code (f : list tt -> list tt) (l : list piece) : list tt := flat_map (piece_code f) l.
(** The keywords that stay. *)
Fixpoint piece_keywords (p : piece) : list str :=
  match p with
  | Keyword x => [txt x]
  | Replaced _ => []
  | Enclosed _ l => flat_map piece_keywords l
  end.
Definition block_keywords (l : list stmt) : list str := flat_map piece_keywords (block_pieces l).

(** [round_outcome] and [exact_meaning] of SpecOutcome with the keywords left alone. *)
Definition kept_outcome (O : oracles) (reparse : kind -> list tt -> option (list tt)) (env : environment) (block : list stmt)
    (items : list spec_item) : res (list tt) :=
  let! bs := bindings O env items in
  let lookup x := assoc_str x bs in
  ends_with (first_part_failure O lookup reparse (block_parts block)) (pieces_code (substituted O lookup) (block_pieces block)).
Definition kept_meaning (O : oracles) (reparse : kind -> list tt -> option (list tt)) (env : environment) (finish : list tt -> list tt)
    (ast : raw_ast (list stmt)) : res (list tt) :=
  match all_some (rounds ast) with
  | None => Err TypeError
  | Some rs => let! codes := mapM (kept_outcome O reparse env (ast_block ast)) rs in Ok (concat (map finish codes))
  end.

(** Parsers that take none of the reserved words for an identifier; [union], [auto] and
    [default] are words of an item that are not reserved. *)
Definition reserved : list str := map txt ["struct"; "enum"; "trait"; "impl"; "mod"; "extern"; "for"; "unsafe"]%string.
Definition contextual : list str := map txt ["union"; "auto"; "default"]%string.
Definition reserves (P : parsers) : Prop := forall x, In x reserved -> ident_allowed P x = false.

(** Specification for C80: where the identifiers of the generated code come from. *)
From Coq Require Import String.
From Verif Require Import Base Token Types Values Ast Env Item Interpreter Parse Macro SpecParse.
Open Scope list_scope.

(** The identifiers of some tokens, at every depth.  [Token![_]] also reads a punctuation
    character, which therefore counts as the identifier [_]. *)
Fixpoint names1 (t : tt) : list str :=
  match t with
  | TIdent x => [x]
  | TPunct c _ => if N.eqb c 95 then [[95%N]] else []
  | TLit _ => []
  | TGroup _ ts => flat_map names1 ts
  end.
Definition names (ts : list tt) : list str := flat_map names1 ts.
Definition source_names (s : source) : list str :=
  match s with
  | Compose ts | ComposeIdents ts => names ts
  | ComposeItem attr item => names attr ++ names item
  end.

(** syn's parsers put no identifier into a node that was not among the tokens parsed. *)
Record keeps_names (O : oracles) (P : parsers) : Prop := {
  kept_path : forall ts r, parse_path O ts = Some r -> incl (names r) (names ts);
  kept_type : forall ts r, parse_type O ts = Some r -> incl (names r) (names ts);
  kept_expr : forall ts r, Values.parse_expr O ts = Some r -> incl (names r) (names ts);
  kept_pre_path : forall ts r k u, pre_path P ts = Some (r, k, u) -> incl (names r) (names ts);
  kept_pre_type : forall ts r k u, pre_type P ts = Some (r, k, u) -> incl (names r) (names ts);
  kept_pre_expr : forall ts r k u, pre_expr P ts = Some (r, k, u) -> incl (names r) (names ts);
  kept_block : forall ts b k u, pre_block P ts = Some (b, k, u) -> incl (names (block_tokens b)) (names ts);
}.

(** An identifier that [Ident::new] accepts or that a string was parsed as. *)
Definition composed (O : oracles) (x : str) : Prop :=
  ident_ok O x = true \/ exists y, parse_str_ident O y = Some x.

(** The identifiers of a deprecation attribute. *)
Definition warning_words : list str := map txt ["deprecated"; "since"; "note"]%string.

(** Definitions without calls. *)
Definition plain_values {B} (ast : raw_ast B) : Prop :=
  forall e, In e (ast_exprs ast) -> exists id v, e = EValue id v.

(** Vocabulary for what definitions a use can do without and in which order they may stand. *)
From Coq Require Import String.
From Verif Require Import Base Token Types Values Ast Env Item FormatString SpecPrograms SpecFormat SpecSubst SpecElab SpecItem SpecOutcome SpecRepro.
Open Scope list_scope.

(** Code in which all names that may be replaced, identifiers and the names of placeholders,
    satisfy [ok]. *)
Section Code.
Context (O : oracles) (ok : str -> Prop).
Definition text_over (s : str) : Prop := exists ps tail,
  wf percent ps tail /\ s = render percent ps tail /\
  forall t k, In (PHole t k) ps -> ok (name_of (is_whitespace O) t).
Definition leaf_over (t : tt) : Prop :=
  match t with
  | TIdent x => ok x
  | TLit l => forall v suffix, parse_lit_str O [TLit l] = Some (v, suffix) -> text_over v
  | _ => True
  end.
Definition code_over (ts : list tt) : Prop := Forall leaf_over (leaves ts).
End Code.

(** What is replaced in a block (where clauses are not, C25): [a] is not among it. *)
Definition part_code (p : part) : list tt :=
  match p with
  | PartNode _ ts | PartStatement ts => ts
  | PartName x => [TIdent x]
  | PartAttributes l => attrs_tokens l
  | PartAbi v s => [TLit (LStr v s)]
  end.
Definition block_without (O : oracles) (a : str) (block : list stmt) : Prop :=
  Forall (fun p => code_over O (fun x => x <> a) (part_code p)) (block_parts block).

(** No definition mentions [a] or is called [a]. *)
Definition items_without (a : str) (items : list spec_item) : Prop :=
  Forall (fun it => fst it <> a /\ ~ In a (mentions (snd it))) items.
Definition bindings_without (a : str) (bs : list (str * value)) : list (str * value) :=
  filter (fun b => negb (str_eqb (fst b) a)) bs.

(** Neither of two definitions mentions the other. *)
Definition independent (d d' : spec_item) : Prop :=
  ~ In (fst d) (mentions (snd d')) /\ ~ In (fst d') (mentions (snd d)).
(** The same definitions, independent neighbours exchanged any number of times. *)
Inductive rearranged : list spec_item -> list spec_item -> Prop :=
| rearranged_same : forall l, rearranged l l
| rearranged_step : forall pre d d' post l, independent d d' ->
    rearranged (pre ++ d' :: d :: post) l -> rearranged (pre ++ d :: d' :: post) l.

(** Inputs that differ in their own definitions only: the same loops (apart from node ids) and
    the same block. *)
Definition same_otherwise {B} (ast ast' : raw_ast B) : Prop :=
  option_map (map (map_loop erase)) (ast_loops ast) = option_map (map (map_loop erase)) (ast_loops ast') /\
  ast_block ast = ast_block ast'.
(** The input with other definitions, and with its block replaced. *)
Definition with_definitions {B} (ast : raw_ast B) (items : list spec_item) : raw_ast B :=
  {| ast_loops := ast_loops ast; ast_spec := Some {| spec_items := items; is_comma_used := Some true |}; ast_block := ast_block ast |}.

(** Specification of the migration from semicolons to commas: README, "Semicolon alias
    separator". *)
From Coq Require Import String.
From Verif Require Import Base Token Types Values Ast Item Interpreter Parse Macro SpecElab SpecParse.
Open Scope list_scope.

(** A value that is read alone, whatever comes after it. *)
Definition self_delimiting (P : parsers) (has_func : str -> bool) (vs : list tt) : Prop :=
  forall n, exists n' e, forall r, expr_at P has_func n (vs ++ r) = (n', (e, List.length vs, false)).

(** The text of loops: [for], a pattern, [in] and a list, any number of times. *)
Inductive loop_text : list tt -> Prop :=
| no_loops : loop_text []
| one_loop_more pattern kw values r : loop_text r -> loop_text (TIdent (txt "for") :: pattern :: kw :: values :: r).

(** The three macros. *)
Inductive form := BlockForm | OldName | AttributeForm.

(** The input of a macro with commas ([c] is true) or semicolons between the definitions,
    before the block and, if [trailing], at the end. *)
Definition separated (m : form) (c : bool) (loops : list tt) (ds : list (str * list tt)) (body : list tt) (trailing : bool) : source :=
  let end_ := if trailing then [sep c] else [] in
  match m with
  | BlockForm => Compose (loops ++ list_text c ds ++ sep c :: TGroup Brace body :: end_)
  | OldName => ComposeIdents (loops ++ list_text c ds ++ sep c :: TGroup Brace body :: end_)
  | AttributeForm => ComposeItem (loops ++ list_text c ds ++ end_) body
  end.

(** The same input, said to have commas. *)
Definition said_with_commas {B} (ast : raw_ast B) : raw_ast B :=
  {| ast_loops := ast_loops ast;
     ast_spec := option_map (fun s => {| spec_items := spec_items s; is_comma_used := option_map (fun _ => true) (is_comma_used s) |}) (ast_spec ast);
     ast_block := ast_block ast |}.
Definition result_with_commas {B} (r : res (option (raw_ast B))) : res (option (raw_ast B)) :=
  match r with Ok o => Ok (option_map said_with_commas o) | Err e => Err e | Panic p => Panic p end.

(** Whether the input has a separator at all. *)
Definition has_separator (m : form) (ds : list (str * list tt)) (trailing : bool) : bool :=
  match m with AttributeForm => trailing || Nat.ltb 1 (List.length ds) | _ => true end.

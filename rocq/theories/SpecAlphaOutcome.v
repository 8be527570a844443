(** Vocabulary for what uses with other names for their aliases come to, failures included. *)
From Verif Require Import Base Token Types Values Ast Env Item Interpreter Parse Macro SpecElab SpecSubst SpecMacro SpecOutcome SpecRename SpecAlpha.

(** Errors that name an alias name the other one. *)
Definition rename_error (r : naming) (e : error) : error :=
  match e with
  | RedefinedNameError x => RedefinedNameError (r x)
  | SubstitutionError x => SubstitutionError (r x)
  | _ => e
  end.
Definition rename_failure (r : naming) (o : output) : output :=
  match o with CompileError e => CompileError (rename_error r e) | _ => o end.

(** What is replaced in a part of the block. *)
Definition part_tokens (p : part) : list tt :=
  match p with
  | PartNode _ ts | PartStatement ts => ts
  | PartName x => [TIdent x]
  | PartAttributes l => attrs_tokens l
  | PartAbi v s => [TLit (LStr v s)]
  end.
(** The conditions of [scoped_use] for everything that is parsed again, and the values have no
    identifier that gets another name. *)
Definition scoped_parts (O : oracles) (r : naming) (ast : raw_ast (list stmt)) : Prop :=
  forall items p, In (Some items) (rounds ast) -> In p (block_parts (ast_block ast)) -> scoped_code O r (map fst items) (part_tokens p).
Definition values_kept (O : oracles) (r : naming) (env : environment) (ast : raw_ast (list stmt)) : Prop :=
  forall items bs b, In (Some items) (rounds ast) -> bindings O env items = Ok bs -> In b bs -> rename r (to_tokens (snd b)) = to_tokens (snd b).

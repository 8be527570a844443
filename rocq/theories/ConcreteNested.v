(** A use in the block of another, for examples. *)
From Coq Require Import String.
From Verif Require Import Base Token Types Values Ast Env Item Deprecation Interpreter Parse Macro SpecMacro SpecNested Concrete ConcreteSpecs ConcreteRuns ConcreteParse.
Open Scope list_scope.

(** Any block is accepted, its statements are not told apart. *)
Definition loose_parsers : parsers := {|
  ident_allowed := ident_allowed ascii_parsers; pre_lit_int := pre_lit_int ascii_parsers; pre_lit_str := pre_lit_str ascii_parsers;
  pre_path := pre_path ascii_parsers; pre_type := pre_type ascii_parsers; pre_expr := pre_expr ascii_parsers;
  pre_block := fun ts => match ts with TGroup Brace b :: _ => Some ([SOther b], 1, false) | _ => None end;
|}.
(** Both steps: the uses found in the code of the first. *)
Fixpoint inner_uses (ts : list tt) : list use :=
  match ts with
  | TIdent _ :: TPunct _ _ :: TGroup _ b :: r => use_of (Compose b) :: inner_uses r
  | _ => []
  end.
Definition in_two_steps (outer : list tt) : list output :=
  match expand_uses ascii loose_parsers syntax0 [use_of (Compose outer)] with
  | [Code ts] => expand_uses ascii loose_parsers syntax0 (inner_uses ts)
  | os => os
  end.
Definition at_once (ts : list tt) : list output := expand_uses ascii loose_parsers syntax0 [use_of (Compose ts)].

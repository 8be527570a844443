(** Specification of the old form [a = [x, f(y), ..]] of definitions: README, "Bracket-based
    alias syntax". *)
From Coq Require Import String.
From Verif Require Import Base Token Types Values Ast Item Interpreter Parse Macro SpecGrammar.
Open Scope list_scope.

(** An integer does not begin with a bracket. *)
Definition ints_unbracketed (P : parsers) : Prop := forall ts r, pre_lit_int P (TGroup Bracket ts :: r) = None.

(** The value of a path, a type, an expression or tokens whose code begins with the bracket. *)
Inductive begins_with (t : tt) : value -> Prop :=
| path_begins r : begins_with t (VPath (t :: r))
| type_begins r : begins_with t (VType (t :: r))
| expr_begins r : begins_with t (VExpr (t :: r))
| tokens_begin r : begins_with t (VTokens (t :: r)).

(** Items that have a name of their own. *)
Inductive declares (x : str) : item -> Prop :=
| declares_struct a v g f : declares x (IStruct a v x g f)
| declares_enum a v g l t : declares x (IEnum a v x g l t)
| declares_union a v g l t : declares x (IUnion a v x g l t)
| declares_trait a v u au g s t l : declares x (ITrait a v u au x g s t l)
| declares_mod a v u c : declares x (IMod a v u x c).

(** What may stand before the [fn] of a signature. *)
Definition fn_qualifiers : list str := map txt ["const"; "async"; "unsafe"; "extern"]%string.
Definition qualifier (t : tt) : Prop := (exists w, In w fn_qualifiers /\ t = TIdent w) \/ (exists l, t = TLit l).
(** These words and [fn] are no names of aliases, and [fn] is not followed by a bracket. *)
Definition reserves_fn (P : parsers) : Prop := forall x, In x (txt "fn" :: fn_qualifiers) -> ident_allowed P x = false.
Definition fn_is_named (Y : syntax) : Prop :=
  forall q ts r, Forall qualifier q -> reparse Y KSig (q ++ TIdent (txt "fn") :: TGroup Bracket ts :: r) = None.
Inductive declares_fn (x : str) : item -> Prop :=
| declares_fn_ a v q r b : Forall qualifier q -> declares_fn x (IFn a v (q ++ TIdent (txt "fn") :: TIdent x :: r) b).

(** Among definitions, one of [x] whose value begins with [vs]; what comes before are
    definitions and separators, one token each. *)
Inductive defined_as (P : parsers) (has_func : str -> bool) (x : str) (vs : list tt) : list tt -> Prop :=
| defined_here j : ident_allowed P x = true -> defined_as P has_func x vs (TIdent x :: TPunct 61%N j :: vs)
| defined_later ts d u s r : definition_at P has_func ts d u (s :: r) -> defined_as P has_func x vs r -> defined_as P has_func x vs ts.
(** The loops and definitions of a use. *)
Definition definitions_of (s : source) : list tt :=
  match s with Compose ts | ComposeIdents ts | ComposeItem ts _ => ts end.

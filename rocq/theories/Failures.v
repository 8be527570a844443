(** Model of /repo/src/error.rs: errors with what they hold, and their texts. *)
From Coq Require Import String.
From Verif Require Import Base Token Types FormatString.
Open Scope list_scope.

(** error.rs 9-24 without the spans, which [sres] keeps (SpanWalker.v).  The name of the
    function of a signature error is not held by the code, only shown; the texts of internal
    errors, which are never reported (C58_places), are left out. *)
Inductive failure :=
| FType (what : str)
| FEval (what : str)
| FRedefined (name : str)
| FSignature (fname : str) (signatures call : str)
| FUndefined (fname : str)
| FSubstitution (alias replacement why : str)
| FInternal.

(** error.rs 54-64: [Error::type_], with the name. *)
Definition class (f : failure) : error :=
  match f with
  | FType _ => TypeError
  | FEval _ => EvalError
  | FRedefined x => RedefinedNameError x
  | FSignature x _ _ => SignatureError x
  | FUndefined x => UndefinedFunctionError x
  | FSubstitution x _ _ => SubstitutionError x
  | FInternal => InternalError
  end.

Definition newline : str := [10%N].
(** error.rs 10-23: the formats. *)
Definition message (f : failure) : str :=
  match f with
  | FType m => txt "TypeError: " ++ m
  | FEval m => txt "EvalError: " ++ m
  | FRedefined x => txt "RedefinedNameError: name " ++ x ++ txt " has already been defined"
  | FSignature _ sigs call => txt "SignatureError: function " ++ sigs ++ txt " has been called with incompatible arguments: " ++ call
  | FUndefined x => txt "UndefinedFunctionError: function """ ++ x ++ txt "(...)"" is undefined"
  | FSubstitution a b c =>
      txt "SubstitutionError: failed to substitute:" ++ newline ++ newline ++ txt "  " ++ a ++ newline ++ newline ++
      txt "with:" ++ newline ++ newline ++ txt "  " ++ b ++ newline ++ newline ++
      txt "Encountered an error:" ++ newline ++ newline ++ txt "  " ++ c
  | FInternal => txt "InternalError: "
  end.

(** core/type_.rs 13-24: the derived [Debug]. *)
Fixpoint ty_debug (t : ty) : str :=
  match t with
  | TyIdent => txt "Ident"
  | TyPath => txt "Path"
  | TyType => txt "Type"
  | TyExpr => txt "Expr"
  | TyLitStr => txt "LitStr"
  | TyLitInt => txt "LitInt"
  | TyTokens => txt "Tokens"
  | TyRaw => txt "Raw"
  | TyVariadic t' => txt "Variadic(" ++ ty_debug t' ++ txt ")"
  end.

(** ast/value.rs 81-102: [make_cast_error]. *)
Definition cast_error (from to : ty) (why : str) : failure :=
  FType (txt "Unable to cast " ++ ty_debug from ++ txt " to " ++ ty_debug to ++ txt ": " ++ why).

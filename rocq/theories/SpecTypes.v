(** The documented coercions (README, "Types"; adr/0000-type-system.md), as a relation. *)
From Verif Require Import Base Types.

Inductive coerces : ty -> ty -> N -> Prop :=
| CoSame t : coerces t t 0
| CoIdentPath : coerces TyIdent TyPath 1
| CoIdentType : coerces TyIdent TyType 2
| CoIdentExpr : coerces TyIdent TyExpr 3
| CoTokens t : t <> TyTokens -> coerces t TyTokens 4
| CoRaw t : t <> TyRaw -> coerces t TyRaw 5.

(** Parameter lists: a variadic type coerces element-wise, one level deep. *)
Inductive coerces_param : ty -> ty -> N -> Prop :=
| CpPlain a b c : coerces a b c -> coerces_param a b c
| CpVariadic a b c : coerces a b c -> coerces_param (TyVariadic a) (TyVariadic b) c.

(** The types whose name can be read back. *)
Definition readable (t : ty) : bool :=
  match t with TyIdent | TyPath | TyLitStr | TyLitInt | TyTokens => true | _ => false end.

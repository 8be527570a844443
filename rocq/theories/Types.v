(** Model of the small type system: /repo/src/core/type_.rs, /repo/src/parse/type_.rs. *)
From Verif Require Import Base Token.
From Coq Require Import String.

(** core/type_.rs 14-24: [enum Type]. *)
Inductive ty :=
| TyIdent | TyPath | TyType | TyExpr | TyLitStr | TyLitInt | TyTokens | TyRaw
| TyVariadic (t : ty).

(** core/type_.rs 13: derived [PartialEq] of [Type]. *)
Fixpoint ty_eqb (a b : ty) : bool :=
  match a, b with
  | TyIdent, TyIdent | TyPath, TyPath | TyType, TyType | TyExpr, TyExpr
  | TyLitStr, TyLitStr | TyLitInt, TyLitInt | TyTokens, TyTokens | TyRaw, TyRaw => true
  | TyVariadic a', TyVariadic b' => ty_eqb a' b'
  | _, _ => false
  end.

(** core/type_.rs 26-40: [Display for Type], as the list of tokens it lexes to is
    not needed; we keep the text. *)
Fixpoint ty_display (t : ty) : str :=
  match t with
  | TyIdent => txt "ident"
  | TyPath => txt "path"
  | TyType => txt "type"
  | TyExpr => txt "expr"
  | TyLitStr => txt "str"
  | TyLitInt => txt "int"
  | TyTokens => txt "tokens"
  | TyRaw => txt "raw"
  | TyVariadic t' => ty_display t' ++ txt "..."
  end.

(** parse/type_.rs 5-21: [Parse for Type]; the argument is the text of the parsed
    identifier ([Ident] parsing consumes one identifier token; a keyword such as
    `type` is refused by [syn], which is the parameter [is_keyword]). *)
Definition ty_parse_ident (is_keyword : str -> bool) (x : str) : option ty :=
  if is_keyword x then None
  else if str_eqb x (txt "ident") then Some TyIdent
  else if str_eqb x (txt "type") then Some TyType
  else if str_eqb x (txt "path") then Some TyPath
  else if str_eqb x (txt "str") then Some TyLitStr
  else if str_eqb x (txt "int") then Some TyLitInt
  else if str_eqb x (txt "tokens") then Some TyTokens
  else None.

(** core/type_.rs 43-53: [Type::coercion_cost_basic]; [u32] costs are [N]. *)
Definition coercion_cost_basic (from to : ty) : option N :=
  if ty_eqb from to then Some 0%N
  else match from, to with
       | TyIdent, TyPath => Some 1%N
       | TyIdent, TyType => Some 2%N
       | TyIdent, TyExpr => Some 3%N
       | _, TyTokens => Some 4%N
       | _, TyRaw => Some 5%N
       | _, _ => None
       end.

(** core/type_.rs 58-65: [Type::coercion_cost]. *)
Definition coercion_cost (from to : ty) : option N :=
  match from, to with
  | TyVariadic f, TyVariadic t => coercion_cost_basic f t
  | _, _ => coercion_cost_basic from to
  end.

(** Values and casts: /repo/src/ast/value.rs. *)
From Verif Require Import Base Token Types.

(** The external functions the crate calls (syn, quote, proc-macro2, heck, std).
    A [syn] node is represented by the token stream it prints ([to_token_stream]),
    a parser by the function from a whole stream to the parsed node ([None] is a
    parse error). *)
Record oracles := {
  (* syn::parse2::<Ident / Path / Type / Expr / LitStr / LitInt> *)
  parse_ident : list tt -> option str;
  parse_path : list tt -> option (list tt);
  parse_type : list tt -> option (list tt);
  parse_expr : list tt -> option (list tt);
  parse_lit_str : list tt -> option (str * str);
  parse_lit_int : list tt -> option (str * str);
  (* syn::parse_str::<Ident> *)
  parse_str_ident : str -> option str;
  (* proc_macro2::Ident::new: does it accept the text? *)
  ident_ok : str -> bool;
  (* syn::LitInt::new: the literal, or a panic *)
  lit_int_new : str -> option (str * str);
  (* TokenStream::to_string *)
  to_string : list tt -> str;
  (* str::to_uppercase, to_lowercase; heck *)
  upper : str -> str;
  lower : str -> str;
  to_snake_case : str -> str;
  to_camel_case : str -> str;
  to_pascal_case : str -> str;
  (* char::is_alphanumeric, is_numeric, is_whitespace *)
  is_alphanumeric : chr -> bool;
  is_numeric : chr -> bool;
  is_whitespace : chr -> bool;
  (* DefaultHasher over the seed and the text, `finish()` *)
  hash64 : N -> str -> N;
  (* the identifiers of syn::Path::segments *)
  path_segments : list tt -> list str;
}.

(** ast/value.rs 26-35: [ValueKind] (the node id of a [Value] is kept by the
    expression that contains it, evaluated values' fresh ids are never read). *)
Inductive value :=
| VIdent (x : str)
| VPath (ts : list tt)
| VType (ts : list tt)
| VExpr (ts : list tt)
| VLitStr (v spelling : str)
| VLitInt (digits repr : str)
| VTokens (ts : list tt)
| VRaw (ts : list tt).

(** ast/value.rs 68-79: [Value::type_]. *)
Definition type_of (v : value) : ty :=
  match v with
  | VIdent _ => TyIdent
  | VPath _ => TyPath
  | VType _ => TyType
  | VExpr _ => TyExpr
  | VLitStr _ _ => TyLitStr
  | VLitInt _ _ => TyLitInt
  | VTokens _ => TyTokens
  | VRaw _ => TyRaw
  end.

(** ast/value.rs 292-305: [ToTokens for Value]. *)
Definition to_tokens (v : value) : list tt :=
  match v with
  | VIdent x => [TIdent x]
  | VPath ts | VType ts | VExpr ts | VTokens ts | VRaw ts => ts
  | VLitStr x p => [TLit (LStr x p)]
  | VLitInt d r => [TLit (LInt d r)]
  end.

Section Cast.
Context (O : oracles).

(** ast/value.rs 117-255: [Err(Self::make_cast_error(..))] on [None]. *)
Definition or_type_error {A} (x : option A) (f : A -> value) : res value :=
  match x with Some a => Ok (f a) | None => Err TypeError end.

(** ast/value.rs 104-114: [from_lit_str_as_ident]. *)
Definition from_lit_str_as_ident (v : str) : res value :=
  or_type_error (parse_str_ident O v) VIdent.

(** ast/value.rs 117-255: [try_cast], arm by arm.  The arm (Ident, LitStr) parses
    the identifier's text put in quotes; identifiers contain neither quotes nor
    backslashes, so the literal's value is that text. *)
Definition try_cast (v : value) (to : ty) : res value :=
  if ty_eqb (type_of v) to then Ok v
  else
    match v, to with
    | VIdent x, TyPath => Ok (VPath [TIdent x])
    | VIdent x, TyType => or_type_error (parse_type O [TIdent x]) VType
    | VIdent x, TyExpr => or_type_error (parse_expr O [TIdent x]) VExpr
    | VIdent x, TyLitStr => Ok (VLitStr x [])
    | VLitStr x _, TyIdent => from_lit_str_as_ident x
    | _, TyIdent =>
        match parse_lit_str O (to_tokens v) with
        | Some (x, _) => from_lit_str_as_ident x
        | None => or_type_error (parse_ident O (to_tokens v)) VIdent
        end
    | _, TyPath => or_type_error (parse_path O (to_tokens v)) VPath
    | _, TyType => or_type_error (parse_type O (to_tokens v)) VType
    | _, TyExpr => or_type_error (parse_expr O (to_tokens v)) VExpr
    | _, TyLitStr =>
        match parse_ident O (to_tokens v) with
        | Some x => Ok (VLitStr x [])
        | None => or_type_error (parse_lit_str O (to_tokens v)) (fun l => VLitStr (fst l) (snd l))
        end
    | _, TyLitInt =>
        or_type_error (parse_lit_int O (to_tokens v)) (fun l => VLitInt (fst l) (snd l))
    | _, TyTokens => Ok (VTokens (to_tokens v))
    | _, TyRaw => Ok (VRaw (to_tokens v))
    | _, TyVariadic _ => Err TypeError
    end.
End Cast.

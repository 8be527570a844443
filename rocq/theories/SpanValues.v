(** Values and casts with spans: /repo/src/ast/value.rs. *)
From Coq Require Import String.
From Verif Require Import Base Token Types Values Failures SpanTokens SpanWalker.
Open Scope list_scope.

(** The parsers of [oracles] (Values.v) on tokens with spans, and what spans there are
    besides those of the tokens. *)
Record soracles := {
  sparse_ident : list stt -> option (str * span);
  sparse_path : list stt -> option (list stt);
  sparse_type : list stt -> option (list stt);
  sparse_expr : list stt -> option (list stt);
  sparse_lit_str : list stt -> option (str * str * span);
  sparse_lit_int : list stt -> option (str * str * span);
  (* Span::join *)
  join : span -> span -> option span;
  (* syn::Error::span of the failed parse as a value of the type *)
  syn_error_at : ty -> list stt -> span;
  (* its text *)
  syn_error_text : ty -> list stt -> str;
  (* the text of the error of syn::parse_str::<Ident> *)
  str_error_text : str -> str;
}.

(** ast/value.rs 26-35. *)
Inductive svalue :=
| SVIdent (x : str) (s : span)
| SVPath (ts : list stt)
| SVType (ts : list stt)
| SVExpr (ts : list stt)
| SVLitStr (v spelling : str) (s : span)
| SVLitInt (digits repr : str) (s : span)
| SVTokens (ts : list stt)
| SVRaw (ts : list stt).

(** Without the spans. *)
Definition erase_value (v : svalue) : value :=
  match v with
  | SVIdent x _ => VIdent x
  | SVPath ts => VPath (map erase ts)
  | SVType ts => VType (map erase ts)
  | SVExpr ts => VExpr (map erase ts)
  | SVLitStr x p _ => VLitStr x p
  | SVLitInt d r _ => VLitInt d r
  | SVTokens ts => VTokens (map erase ts)
  | SVRaw ts => VRaw (map erase ts)
  end.

(** ast/value.rs 68-79. *)
Definition stype_of (v : svalue) : ty :=
  match v with
  | SVIdent _ _ => TyIdent
  | SVPath _ => TyPath
  | SVType _ => TyType
  | SVExpr _ => TyExpr
  | SVLitStr _ _ _ => TyLitStr
  | SVLitInt _ _ _ => TyLitInt
  | SVTokens _ => TyTokens
  | SVRaw _ => TyRaw
  end.

(** ast/value.rs 292-305. *)
Definition sto_tokens (v : svalue) : list stt :=
  match v with
  | SVIdent x s => [SIdent x s]
  | SVPath ts | SVType ts | SVExpr ts | SVTokens ts | SVRaw ts => ts
  | SVLitStr x p s => [SLit (LStr x p) s]
  | SVLitInt d r s => [SLit (LInt d r) s]
  end.

Section Cast.
Context (O : oracles) (SO : soracles).

(** syn::spanned::Spanned for a token stream: the first span joined with the last, the first
    if they cannot be joined (stable compilers), [call_site] for no tokens. *)
Definition stream_span (ts : list stt) : span :=
  match ts with
  | [] => call_site
  | [t] => span_of t
  | t :: r => match join SO (span_of t) (span_of (last r t)) with
              | Some s => s
              | None => span_of t
              end
  end.
(** ast/value.rs 263-274: [Ast::span] of a value. *)
Definition value_span (v : svalue) : span := stream_span (sto_tokens v).

Definition or_error_at {A} (e : failure) (at_ : span) (x : option A) (f : A -> svalue) : sres svalue :=
  match x with Some a => SOk (f a) | None => SErr e at_ end.

(** ast/value.rs 104-114: [syn::parse_str] gives its tokens, and its errors, the span
    [call_site]. *)
Definition sfrom_lit_str_as_ident (v : str) : sres svalue :=
  or_error_at (cast_error TyLitStr TyIdent (str_error_text SO v)) call_site (parse_str_ident O v) (fun x => SVIdent x call_site).

(** ast/value.rs 117-255. *)
Definition stry_cast (v : svalue) (to : ty) : sres svalue :=
  let er := cast_error (stype_of v) to (syn_error_text SO to (sto_tokens v)) in
  let fail := syn_error_at SO to (sto_tokens v) in
  if ty_eqb (stype_of v) to then SOk v
  else
    match v, to with
    | SVIdent x s, TyPath => SOk (SVPath [SIdent x s])
    | SVIdent x s, TyType => or_error_at er fail (sparse_type SO [SIdent x s]) SVType
    | SVIdent x s, TyExpr => or_error_at er fail (sparse_expr SO [SIdent x s]) SVExpr
    | SVIdent x s, TyLitStr => SOk (SVLitStr x [] (value_span v))
    | SVLitStr x _ _, TyIdent => sfrom_lit_str_as_ident x
    | _, TyIdent =>
        match sparse_lit_str SO (sto_tokens v) with
        | Some (x, _, _) => sfrom_lit_str_as_ident x
        | None => or_error_at er fail (sparse_ident SO (sto_tokens v)) (fun i => SVIdent (fst i) (snd i))
        end
    | _, TyPath => or_error_at er fail (sparse_path SO (sto_tokens v)) SVPath
    | _, TyType => or_error_at er fail (sparse_type SO (sto_tokens v)) SVType
    | _, TyExpr => or_error_at er fail (sparse_expr SO (sto_tokens v)) SVExpr
    | _, TyLitStr =>
        match sparse_ident SO (sto_tokens v) with
        | Some (x, s) => SOk (SVLitStr x [] s)
        | None => or_error_at er fail (sparse_lit_str SO (sto_tokens v)) (fun '(x, p, s) => SVLitStr x p s)
        end
    | _, TyLitInt => or_error_at er fail (sparse_lit_int SO (sto_tokens v)) (fun '(d, r, s) => SVLitInt d r s)
    | _, TyTokens => SOk (SVTokens (sto_tokens v))
    | _, TyRaw => SOk (SVRaw (sto_tokens v))
    (* [error_str.span()]: the span of a [str] printed as a literal *)
    | _, TyVariadic _ => SErr (cast_error (stype_of v) to (txt "impossible cast")) call_site
    end.
End Cast.

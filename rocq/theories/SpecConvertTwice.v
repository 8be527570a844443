(** Vocabulary for conversions one after the other. *)
From Coq Require Import String.
From Verif Require Import Base Token Types Values Ast Env SpecMacro SpecCalls SpecInvisible.
Open Scope list_scope.

(** What the functions [to_..] convert to; [cast_name] (SpecCalls) gives their names. *)
Definition target (t : ty) : Prop := In t [TyIdent; TyPath; TyType; TyExpr; TyLitStr; TyLitInt; TyTokens].
(** Those whose values are printed as the tokens they were read from. *)
Definition transparent_target (t : ty) : Prop := In t [TyPath; TyType; TyExpr; TyTokens].

(** What was read and is printed is read as the same; names and strings are not taken for each
    other. *)
Record rereads (O : oracles) : Prop := {
  rr_ident : forall ts x, parse_ident O ts = Some x -> parse_ident O [TIdent x] = Some x;
  rr_text : forall s x, parse_str_ident O s = Some x -> parse_ident O [TIdent x] = Some x;
  rr_path : forall ts p, parse_path O ts = Some p -> parse_path O p = Some p;
  rr_type : forall ts p, parse_type O ts = Some p -> parse_type O p = Some p;
  rr_expr : forall ts p, parse_expr O ts = Some p -> parse_expr O p = Some p;
  rr_str : forall ts v s, parse_lit_str O ts = Some (v, s) -> parse_lit_str O [TLit (LStr v s)] = Some (v, s);
  rr_new_str : forall v, parse_lit_str O [TLit (LStr v [])] = Some (v, []);
  rr_int : forall ts d r, parse_lit_int O ts = Some (d, r) -> parse_lit_int O [TLit (LInt d r)] = Some (d, r);
  rr_name_no_str : forall x, parse_lit_str O [TIdent x] = None;
  rr_str_no_name : forall l, parse_ident O [TLit l] = None
}.
(** Paths, types and expressions are printed as the tokens they were read from, if these hold no
    invisible groups. *)
Definition prints_read (O : oracles) : Prop := forall ts p, all_visible ts = true ->
  (parse_path O ts = Some p \/ parse_type O ts = Some p \/ parse_expr O ts = Some p) -> p = ts.

(** Among the definitions stand [b = to_t(v)] and, further on, [c = to_t'(b)]. *)
Definition converts_twice {B} (ast : raw_ast B) (b : str) (t : ty) (v : value) (c : str) (t' : ty) : Prop :=
  exists pre id k raw mid id' k' raw' post, own_items ast =
    pre ++ (b, ECall id (cast_name t) (plain [(k, v)]) raw) :: mid ++ (c, ECall id' (cast_name t') (plain [(k', VIdent b)]) raw') :: post.

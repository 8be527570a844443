(** Specification of the spans of values: evaluation of elaborated definitions (SpecElab.v)
    next to their source, and where the spans of a result come from. *)
From Coq Require Import String.
From Verif Require Import Base Token Types Values Ast Env SpecElab SpecScope FormatString Failures Messages SpanTokens SpanWalker SpanValues SpanEval.
Open Scope list_scope.

(** ** The parsers of syn and spans *)
(** Parsing does not look at spans. *)
Record spanless (O : oracles) (SO : soracles) : Prop := {
  spanless_ident : forall ts, option_map fst (sparse_ident SO ts) = parse_ident O (map erase ts);
  spanless_path : forall ts, option_map (map erase) (sparse_path SO ts) = parse_path O (map erase ts);
  spanless_type : forall ts, option_map (map erase) (sparse_type SO ts) = parse_type O (map erase ts);
  spanless_expr : forall ts, option_map (map erase) (sparse_expr SO ts) = parse_expr O (map erase ts);
  spanless_lit_str : forall ts, option_map fst (sparse_lit_str SO ts) = parse_lit_str O (map erase ts);
  spanless_lit_int : forall ts, option_map fst (sparse_lit_int SO ts) = parse_lit_int O (map erase ts);
}.
(** What is parsed has the spans of the tokens (or [call_site], for tokens supplied in
    printing); errors are reported at one of the tokens or at [call_site]; joined spans do
    not matter here. *)
Record inherited (SO : soracles) : Prop := {
  inherited_ident : forall ts x s, sparse_ident SO ts = Some (x, s) -> In s (spans ts);
  inherited_path : forall ts r, sparse_path SO ts = Some r -> incl (spans r) (call_site :: spans ts);
  inherited_type : forall ts r, sparse_type SO ts = Some r -> incl (spans r) (call_site :: spans ts);
  inherited_expr : forall ts r, sparse_expr SO ts = Some r -> incl (spans r) (call_site :: spans ts);
  inherited_lit_str : forall ts x p s, sparse_lit_str SO ts = Some (x, p, s) -> In s (spans ts);
  inherited_lit_int : forall ts d r s, sparse_lit_int SO ts = Some (d, r, s) -> In s (spans ts);
  inherited_error : forall t ts, In (syn_error_at SO t ts) (call_site :: spans ts);
}.

(** ** Definitions *)
Definition value_spans (v : svalue) : list span := spans (sto_tokens v).
(** The spans of an expression: of its tokens, and of the calls. *)
Fixpoint expr_spans (e : sexpr) : list span :=
  match e with
  | SEValue _ v => value_spans v
  | SECall _ _ head args raw =>
      head :: flat_map expr_spans args ++ match raw with Some (_, ts) => spans ts | None => [] end
  end.

(** The arguments an overload takes. *)
Definition sgiven (f : func) (args : list sexpr) (raw : option (N * list stt)) : list sexpr :=
  match f_arg_types f, raw with
  | [TyRaw], Some (rid, ts) => [SEValue rid (SVRaw ts)]
  | _, _ => args
  end.

Section Map2.
Context {A B C : Type} (f : A -> B -> sres C).
Fixpoint smap2 (l : list A) (l' : list B) : sres (list C) :=
  match l, l' with
  | x :: r, y :: r' => let? c := f x y in let? cs := smap2 r r' in SOk (c :: cs)
  | _, _ => SOk []
  end.
End Map2.

Section Run.
Context (O : oracles) (SO : soracles) (seed : N).

(** The value of an elaborated expression, with the spans of the expression it elaborates.
    An alias stands for its value with the spans of its definition; the place where it is
    named does not matter. *)
Fixpoint srun (ctx : scontext) (te : texpr) (e : sexpr) : sres svalue :=
  match te, e with
  | TEVal _ target, SEValue _ v =>
      let v' := match v with
                | SVIdent x _ => match assoc_str x ctx with Some w => w | None => v end
                | _ => v
                end in
      match stry_cast O SO v' target with SErr _ _ => SPanic PCoercion | r => r end
  | TECall f tes target, SECall _ _ head args raw =>
      let? vs := smap2 (srun ctx) tes (sgiven f args raw) in
      let? r := simpl_of O SO f seed head vs in
      stry_cast O SO r target
  | _, _ => SPanic PUnreachable
  end.
Fixpoint srun_items (ctx : scontext) (tis : list (str * texpr)) (items : list sitem) : sres scontext :=
  match tis, items with
  | (name, te) :: tis', (_, e) :: items' =>
      let? v := srun ctx te e in
      let? bs := srun_items ((name, v) :: ctx) tis' items' in
      SOk ((name, v) :: bs)
  | _, _ => SOk []
  end.
End Run.

(** What is said of a definition that is refused: all overloads of the function and the call as
    written. *)
Definition refusal (O : oracles) (env : environment) (e : sexpr) (er : error) : failure :=
  match er with
  | SignatureError f =>
      FSignature f (FormatString.join (txt " | ") (map signature (match get_func_variants env f with Some fs => fs | None => [] end)))
        (expr_display O (erase_expr e))
  | UndefinedFunctionError f => FUndefined f
  | RedefinedNameError x => FRedefined x
  | TypeError | EvalError | SubstitutionError _ | InternalError => FInternal   (* does not happen *)
  end.

(** Elaboration of the definitions; what is wrong with one is reported at its value. *)
Fixpoint selab_items (O : oracles) (SO : soracles) (env : environment) (G : tenv) (items : list sitem)
  : sres (list (str * texpr)) :=
  match items with
  | [] => SOk []
  | (name, e) :: rest =>
      match elab env G (erase_expr e) None with
      | inr er => SErr (refusal O env e er) (expr_span SO e)
      | inl (te, _) =>
          match assoc_str name G with
          | Some _ => SErr (FRedefined name) (expr_span SO e)
          | None => let? r := selab_items O SO env ((name, target_of te) :: G) rest in SOk ((name, te) :: r)
          end
      end
  end.
Definition sbindings (O : oracles) (SO : soracles) (env : environment) (items : list sitem) : sres scontext :=
  let? tis := selab_items O SO env [] items in
  srun_items O SO (e_seed env) [] tis items.

(** ** Where the spans of a result come from *)
Inductive source :=
| FromArguments   (* the spans of the arguments, in order *)
| FromCall        (* the function's name in the call *)
| FromNowhere     (* [call_site] *)
| FromReading (t : ty). (* those of the argument read as a value of the type *)

Definition span_table : list (str * list ty * source) :=
  let on_text n := [(txt n, [TyLitStr], FromArguments); (txt n, [TyIdent], FromArguments)] in
  on_text "upper"%string ++ on_text "lower"%string ++ on_text "snake_case"%string ++
  on_text "camel_case"%string ++ on_text "pascal_case"%string ++
  (txt "normalize", [TyRaw], FromCall) ::
  map (fun t => (txt "normalize2", [t], FromCall)) [TyIdent; TyLitStr; TyLitInt; TyPath; TyType; TyExpr; TyTokens] ++
  map (fun t => (txt "hash", [t], FromCall)) [TyLitStr; TyIdent; TyTokens] ++
  [ (txt "concat", [TyVariadic TyIdent], FromCall);
    (txt "concat", [TyIdent; TyVariadic TyTokens], FromNowhere);
    (txt "concat", [TyVariadic TyLitStr], FromCall);
    (txt "concat", [TyVariadic TyLitInt], FromCall);
    (txt "concat", [TyVariadic TyTokens], FromArguments);
    (txt "to_ident", [TyTokens], FromReading TyIdent);
    (txt "to_path", [TyTokens], FromReading TyPath);
    (txt "to_type", [TyTokens], FromReading TyType);
    (txt "to_expr", [TyTokens], FromReading TyExpr);
    (txt "to_str", [TyTokens], FromReading TyLitStr);
    (txt "to_int", [TyTokens], FromReading TyLitInt);
    (txt "to_tokens", [TyTokens], FromArguments);
    (txt "raw", [TyRaw], FromArguments) ].

Section Sources.
Context (SO : soracles).

(** The spans of tokens read as a value of a type.  A string literal read as an identifier
    has lost its place. *)
Definition reading_spans (t : ty) (ts : list stt) : list span :=
  match t with
  | TyIdent =>
      match sparse_lit_str SO ts with
      | Some _ => [call_site]
      | None => match sparse_ident SO ts with Some (_, s) => [s] | None => [] end
      end
  | TyPath => match sparse_path SO ts with Some r => spans r | None => [] end
  | TyType => match sparse_type SO ts with Some r => spans r | None => [] end
  | TyExpr => match sparse_expr SO ts with Some r => spans r | None => [] end
  | TyLitStr =>
      match sparse_ident SO ts with
      | Some (_, s) => [s]
      | None => match sparse_lit_str SO ts with Some (_, _, s) => [s] | None => [] end
      end
  | TyLitInt => match sparse_lit_int SO ts with Some (_, _, s) => [s] | None => [] end
  | TyTokens | TyRaw | TyVariadic _ => spans ts
  end.
Definition source_spans (src : source) (call : span) (vs : list svalue) : list span :=
  match src with
  | FromArguments => flat_map value_spans vs
  | FromCall => [call]
  | FromNowhere => [call_site]
  | FromReading t => reading_spans t (flat_map sto_tokens vs)
  end.

(** The spans of a value converted to another type.  A name converted to a path, and anything
    converted to tokens, keeps its spans; everything else is reading of its tokens.  A string
    literal converted to an identifier is not read back as a literal, but loses its place just
    the same. *)
Definition cast_spans (v : svalue) (to : ty) : list span :=
  if ty_eqb (stype_of v) to then value_spans v
  else match v, to with
       | SVIdent _ s, (TyPath | TyLitStr) => [s]
       | SVLitStr _ _ _, TyIdent => [call_site]
       | _, _ => reading_spans to (sto_tokens v)
       end.
End Sources.

(** Bindings without their spans. *)
Definition erase_bindings (l : scontext) : list (str * value) := map (fun b => (fst b, erase_value (snd b))) l.
(** The functions called in an expression, with the places of their names. *)
Fixpoint call_heads (e : sexpr) : list (str * span) :=
  match e with
  | SEValue _ _ => []
  | SECall _ name head args _ => (name, head) :: flat_map call_heads args
  end.
(** The places of a list of definitions. *)
Definition places (items : list sitem) : list span := flat_map (fun i => expr_spans (snd i)) items.

(** The place of a whole definition's value: of a call, its function's name; else from the
    first token to the last if they can be joined, or the first. *)
Inductive whole_place (SO : soracles) : sexpr -> span -> Prop :=
| wp_call : forall id f s args raw, whole_place SO (SECall id f s args raw) s
| wp_nothing : forall id v, sto_tokens v = [] -> whole_place SO (SEValue id v) call_site
| wp_token : forall id v t, sto_tokens v = [t] -> whole_place SO (SEValue id v) (span_of t)
| wp_joined : forall id v a mid b s, sto_tokens v = a :: mid ++ [b] -> join SO (span_of a) (span_of b) = Some s ->
    whole_place SO (SEValue id v) s
| wp_first : forall id v a mid b, sto_tokens v = a :: mid ++ [b] -> join SO (span_of a) (span_of b) = None ->
    whole_place SO (SEValue id v) (span_of a).

(** Where the failure of one of the definitions may be reported. *)
Definition error_place (SO : soracles) (items : list sitem) (er : error) (s : span) : Prop :=
  exists pre name e post, items = pre ++ (name, e) :: post /\
    match er with
    (* the second definition's value, not its name *)
    | RedefinedNameError x => x = name /\ In x (map fst pre) /\ whole_place SO e s
    (* the name of the outermost function of the definition, even if an argument is at fault *)
    | SignatureError f | UndefinedFunctionError f => exists id args raw, e = SECall id f s args raw
    (* the name of a function called in the definition *)
    | EvalError => In (txt "concat", s) (call_heads e)
    (* a token of the definition or of an earlier one, or no place at all *)
    | TypeError => In s (call_site :: places (pre ++ [(name, e)]))
    | SubstitutionError _ | InternalError => False
    end.

(** The row of a function in the table. *)
Definition span_source (f : func) : option source :=
  option_map snd (find (fun r => str_eqb (f_name f) (fst (fst r)) && tys_eqb (f_arg_types f) (snd (fst r))) span_table).

(** ** What is said of a failed evaluation *)
Definition kind_name (er : error) : str :=
  match er with
  | TypeError => txt "TypeError"
  | EvalError => txt "EvalError"
  | RedefinedNameError _ => txt "RedefinedNameError"
  | SignatureError _ => txt "SignatureError"
  | UndefinedFunctionError _ => txt "UndefinedFunctionError"
  | SubstitutionError _ => txt "SubstitutionError"
  | InternalError => txt "InternalError"
  end.

Section Texts.
Context (O : oracles) (SO : soracles).

(** Tokens that cannot be read as a value of a type. *)
Definition unread (t : ty) (ts : list stt) : Prop :=
  match t with
  | TyIdent | TyLitStr => sparse_lit_str SO ts = None /\ sparse_ident SO ts = None
  | TyPath => sparse_path SO ts = None
  | TyType => sparse_type SO ts = None
  | TyExpr => sparse_expr SO ts = None
  | TyLitInt => sparse_lit_int SO ts = None
  | TyTokens | TyRaw | TyVariadic _ => False
  end.
(** A type error says that tokens are no value of a type, and why; or that the content of a
    string is no identifier, and why. *)
Definition type_text (m : str) : Prop :=
  (exists t ts, unread t ts /\ m = txt "Unable to cast Tokens to " ++ ty_debug t ++ txt ": " ++ syn_error_text SO t ts) \/
  (exists x, parse_str_ident O x = None /\ m = txt "Unable to cast LitStr to Ident: " ++ str_error_text SO x).
(** An evaluation error lists texts whose concatenation is no identifier. *)
Definition eval_text (m : str) : Prop :=
  exists texts, parse_str_ident O (List.concat texts) = None /\
    m = txt "Failed to produce a valid identifier from concatenated arguments: " ++ FormatString.join (txt ", ") texts.

(** The failure of definitions, with its place. *)
Definition error_report (env : environment) (items : list sitem) (er : failure) (s : span) : Prop :=
  exists pre name e post, items = pre ++ (name, e) :: post /\
    match er with
    | FRedefined x => x = name /\ In x (map fst pre) /\ whole_place SO e s
    | FSignature f sigs call =>
        (exists id args raw, e = SECall id f s args raw) /\ call = expr_display O (erase_expr e) /\
        exists fs, get_func_variants env f = Some fs /\ sigs = FormatString.join (txt " | ") (map signature fs)
    | FUndefined f => (exists id args raw, e = SECall id f s args raw) /\ get_func_variants env f = None
    | FEval m => In (txt "concat", s) (call_heads e) /\ eval_text m
    | FType m => In s (call_site :: places (pre ++ [(name, e)])) /\ type_text m
    | FSubstitution _ _ _ | FInternal => False
    end.
End Texts.

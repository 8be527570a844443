(** Functions and evaluation with spans: /repo/src/core/environment/init_funcs.rs,
    /repo/src/eval/*.rs, and the spans of resolution errors in /repo/src/resolve/*.rs. *)
From Coq Require Import String.
From Verif Require Import Base Token Types Values Ast Env Resolve Eval FormatString Failures Messages SpanTokens SpanWalker SpanValues.
Open Scope list_scope.

(** ast/expr.rs, ast/call.rs with the spans: the tokens of values, and [Call::span], which is
    the position at which parsing of the call begins, the function's name (parse/call.rs 13). *)
Inductive sexpr :=
| SEValue (id : N) (v : svalue)
| SECall (id : N) (name : str) (head : span) (args : list sexpr) (raw : option (N * list stt)).

Section sexpr_ind'.
  Variable P : sexpr -> Prop.
  Hypothesis Hv : forall id v, P (SEValue id v).
  Hypothesis Hc : forall id name head args raw, Forall P args -> P (SECall id name head args raw).
  Fixpoint sexpr_ind' (e : sexpr) : P e :=
    match e with
    | SEValue id v => Hv id v
    | SECall id name head args raw =>
        Hc id name head args raw
           ((fix go (l : list sexpr) : Forall P l :=
               match l with
               | [] => Forall_nil P
               | x :: r => Forall_cons x (sexpr_ind' x) (go r)
               end) args)
    end.
End sexpr_ind'.

Fixpoint erase_expr (e : sexpr) : expr :=
  match e with
  | SEValue id v => EValue id (erase_value v)
  | SECall id name _ args raw =>
      ECall id name (map erase_expr args) (option_map (fun r => (fst r, map erase (snd r))) raw)
  end.
Definition sitem := (str * sexpr)%type.
Definition erase_spec (l : list sitem) : list spec_item := map (fun i => (fst i, erase_expr (snd i))) l.

(** The nodes of an expression, by id: the arguments in a call's metadata are shared with the
    tree (Rc), so they have the tree's spans. *)
Fixpoint nodes (e : sexpr) : list (N * sexpr) :=
  match e with
  | SEValue id _ => [(id, e)]
  | SECall id _ _ args raw =>
      (id, e) :: flat_map nodes args ++
      match raw with Some (rid, ts) => [(rid, SEValue rid (SVRaw ts))] | None => [] end
  end.
Definition item_nodes (l : list sitem) : list (N * sexpr) := flat_map (fun i => nodes (snd i)) l.

Section Funcs.
Context (O : oracles) (SO : soracles).

(** [Ident::new(text, span)], [LitStr::new(text, span)] (init_funcs.rs 55, 98, 117 and alike). *)
Definition snew_ident (x : str) (s : span) : sres svalue :=
  if ident_ok O x then SOk (SVIdent x s) else SPanic PIdentNew.
Definition sarg_type_err : sres svalue := SPanic PArgType.

(** The implementations of Env.v, with the span of the call. *)
Definition simpl_t := N -> span -> list svalue -> sres svalue.

(** init_funcs.rs 28-61: the span of the argument. *)
Definition sstr_func_lit (g : str -> str) : simpl_t := fun _ _ vs =>
  match vs with [SVLitStr v _ s] => SOk (SVLitStr (g v) [] s) | _ => sarg_type_err end.
Definition sstr_func_ident (g : str -> str) : simpl_t := fun _ _ vs =>
  match vs with [SVIdent x s] => snew_ident (g x) s | _ => sarg_type_err end.
(** init_funcs.rs 93-100. *)
Definition simpl_normalize : simpl_t := fun _ at_ vs =>
  match vs with [SVRaw ts] => snew_ident (fn_normalize O (to_string O (map erase ts))) at_ | _ => sarg_type_err end.
(** init_funcs.rs 111-202. *)
Definition simpl_normalize2_ident : simpl_t := fun _ at_ vs =>
  match vs with [SVIdent x _] => snew_ident (fn_normalize O x) at_ | _ => sarg_type_err end.
Definition simpl_normalize2_str : simpl_t := fun _ at_ vs =>
  match vs with [SVLitStr v _ _] => snew_ident (fn_normalize O v) at_ | _ => sarg_type_err end.
Definition simpl_normalize2_int : simpl_t := fun _ at_ vs =>
  match vs with [SVLitInt d _ _] => snew_ident (fn_normalize O d) at_ | _ => sarg_type_err end.
Definition simpl_normalize2_path : simpl_t := fun _ at_ vs =>
  match vs with [SVPath ts] => snew_ident (fn_normalize O (to_string O (map erase ts))) at_ | _ => sarg_type_err end.
Definition simpl_normalize2_type : simpl_t := fun _ at_ vs =>
  match vs with [SVType ts] => snew_ident (fn_normalize O (to_string O (map erase ts))) at_ | _ => sarg_type_err end.
Definition simpl_normalize2_expr : simpl_t := fun _ at_ vs =>
  match vs with [SVExpr ts] => snew_ident (fn_normalize O (to_string O (map erase ts))) at_ | _ => sarg_type_err end.
Definition simpl_normalize2_tokens : simpl_t := fun _ at_ vs =>
  match vs with [SVTokens ts] => snew_ident (fn_normalize O (to_string O (map erase ts))) at_ | _ => sarg_type_err end.
(** init_funcs.rs 214-257. *)
Definition simpl_hash_str : simpl_t := fun seed at_ vs =>
  match vs with [SVLitStr v _ _] => SOk (SVLitStr (fn_hash O seed v) [] at_) | _ => sarg_type_err end.
Definition simpl_hash_ident : simpl_t := fun seed at_ vs =>
  match vs with [SVIdent x _] => snew_ident (txt "__" ++ fn_hash O seed x) at_ | _ => sarg_type_err end.
Definition simpl_hash_tokens : simpl_t := fun seed at_ vs =>
  match vs with
  | [SVTokens ts] => snew_ident (txt "__" ++ fn_hash O seed (to_string O (map erase ts))) at_
  | _ => sarg_type_err
  end.

Fixpoint scollect {A} (g : svalue -> option A) (vs : list svalue) : option (list A) :=
  match vs with
  | [] => Some []
  | v :: r => match g v, scollect g r with
              | Some a, Some l => Some (a :: l)
              | _, _ => None
              end
  end.
(** init_funcs.rs 269-282. *)
Definition simpl_concat_idents : simpl_t := fun _ at_ vs =>
  match scollect (fun v => match v with SVIdent x _ => Some x | _ => None end) vs with
  | Some l => snew_ident (fn_concat l) at_
  | None => sarg_type_err
  end.
(** init_funcs.rs 289-320: the identifier is made by [syn::parse_str], so its span is
    [call_site]; the error is reported at the call. *)
Definition simpl_concat_ident_tokens : simpl_t := fun _ at_ vs =>
  match vs with
  | [] => sarg_type_err
  | first :: rest =>
      match scollect (fun v => match v with SVTokens ts => Some (to_string O (map erase ts)) | _ => None end) rest with
      | None => sarg_type_err
      | Some l =>
          match parse_str_ident O (fn_concat (to_string O (map erase (sto_tokens first)) :: l)) with
          | Some x => SOk (SVIdent x call_site)
          | None =>
              SErr (FEval (txt "Failed to produce a valid identifier from concatenated arguments: " ++
                           FormatString.join (txt ", ") (map (fun v => to_string O (map erase (sto_tokens v))) vs))) at_
          end
      end
  end.
(** init_funcs.rs 327-340. *)
Definition simpl_concat_strs : simpl_t := fun _ at_ vs =>
  match scollect (fun v => match v with SVLitStr x _ _ => Some x | _ => None end) vs with
  | Some l => SOk (SVLitStr (fn_concat l) [] at_)
  | None => sarg_type_err
  end.
(** init_funcs.rs 347-359. *)
Definition simpl_concat_ints : simpl_t := fun _ at_ vs =>
  match scollect (fun v => match v with SVLitInt d _ _ => Some d | _ => None end) vs with
  | Some l => match lit_int_new O (fn_concat l) with
              | Some (d, r) => SOk (SVLitInt d r at_)
              | None => SPanic PLitNew
              end
  | None => sarg_type_err
  end.
(** init_funcs.rs 366-376. *)
Definition simpl_concat_tokens : simpl_t := fun _ _ vs =>
  match scollect (fun v => match v with SVTokens ts => Some ts | _ => None end) vs with
  | Some l => SOk (SVTokens (List.concat l))
  | None => sarg_type_err
  end.
(** init_funcs.rs 387-468, funcs.rs 90-117. *)
Definition simpl_to (t : ty) : simpl_t := fun _ _ vs =>
  match vs with [SVTokens ts] => stry_cast O SO (SVTokens ts) t | _ => sarg_type_err end.
(** init_funcs.rs 477-483, 492-498. *)
Definition simpl_to_tokens : simpl_t := fun _ _ vs =>
  match vs with [SVTokens ts] => SOk (SVTokens ts) | _ => sarg_type_err end.
Definition simpl_raw : simpl_t := fun _ _ vs =>
  match vs with [SVRaw ts] => SOk (SVTokens ts) | _ => sarg_type_err end.

Definition srow := (str * list (list ty * simpl_t))%type.
Definition sstr_funcs (name : str) (g : str -> str) : srow :=
  (name, [([TyLitStr], sstr_func_lit g); ([TyIdent], sstr_func_ident g)]).
(** init_funcs.rs 65-502. *)
Definition stable : list srow :=
  [ sstr_funcs (txt "upper") (upper O);
    sstr_funcs (txt "lower") (lower O);
    sstr_funcs (txt "snake_case") (to_snake_case O);
    sstr_funcs (txt "camel_case") (to_camel_case O);
    sstr_funcs (txt "pascal_case") (to_pascal_case O);
    (txt "normalize", [([TyRaw], simpl_normalize)]);
    (txt "normalize2",
      [ ([TyIdent], simpl_normalize2_ident);
        ([TyLitStr], simpl_normalize2_str);
        ([TyLitInt], simpl_normalize2_int);
        ([TyPath], simpl_normalize2_path);
        ([TyType], simpl_normalize2_type);
        ([TyExpr], simpl_normalize2_expr);
        ([TyTokens], simpl_normalize2_tokens) ]);
    (txt "hash",
      [ ([TyLitStr], simpl_hash_str);
        ([TyIdent], simpl_hash_ident);
        ([TyTokens], simpl_hash_tokens) ]);
    (txt "concat",
      [ ([TyVariadic TyIdent], simpl_concat_idents);
        ([TyIdent; TyVariadic TyTokens], simpl_concat_ident_tokens);
        ([TyVariadic TyLitStr], simpl_concat_strs);
        ([TyVariadic TyLitInt], simpl_concat_ints);
        ([TyVariadic TyTokens], simpl_concat_tokens) ]);
    (txt "to_ident", [([TyTokens], simpl_to TyIdent)]);
    (txt "to_path", [([TyTokens], simpl_to TyPath)]);
    (txt "to_type", [([TyTokens], simpl_to TyType)]);
    (txt "to_expr", [([TyTokens], simpl_to TyExpr)]);
    (txt "to_str", [([TyTokens], simpl_to TyLitStr)]);
    (txt "to_int", [([TyTokens], simpl_to TyLitInt)]);
    (txt "to_tokens", [([TyTokens], simpl_to_tokens)]);
    (txt "raw", [([TyRaw], simpl_raw)]) ].

Fixpoint tys_eqb (a b : list ty) : bool :=
  match a, b with
  | [], [] => true
  | x :: a', y :: b' => ty_eqb x y && tys_eqb a' b'
  | _, _ => false
  end.
Fixpoint find_overload (ts : list ty) (l : list (list ty * simpl_t)) : option simpl_t :=
  match l with
  | [] => None
  | (ts', g) :: r => if tys_eqb ts ts' then Some g else find_overload ts r
  end.
(** The implementation of a [Func] (in the code a field of it): no two overloads have the
    same name and parameter types. *)
Definition simpl_of (f : func) : simpl_t := fun seed at_ vs =>
  match assoc_str (f_name f) stable with
  | None => SPanic PUnreachable
  | Some l => match find_overload (f_arg_types f) l with
              | None => SPanic PUnreachable
              | Some g => g seed at_ vs
              end
  end.
End Funcs.

Section SmapM.
Context {A B : Type} (f : A -> sres B).
Fixpoint smapM (l : list A) : sres (list B) :=
  match l with
  | [] => SOk []
  | x :: l' => let? y := f x in let? ys := smapM l' in SOk (y :: ys)
  end.
End SmapM.

Section Eval.
Context (O : oracles) (SO : soracles) (env : environment) (meta : scope) (tree : list (N * sexpr)).
Definition scontext := list (str * svalue).

(** eval/value.rs 8-29: the value of an alias has the spans of its definition. *)
Definition seval_value (ctx : scontext) (id : N) (v : svalue) : sres svalue :=
  let v' := match v with
            | SVIdent x _ => match assoc_str x ctx with Some w => w | None => v end
            | _ => v
            end in
  match assoc_N id (sc_values meta) with
  | None => SErr FInternal call_site
  | Some m => match stry_cast O SO v' (vm_target m) with
              | SOk w => SOk w
              | SErr _ _ => SPanic PCoercion
              | SPanic p => SPanic p
              end
  end.

(** eval/expr.rs 8-13, eval/call.rs 8-36. *)
Fixpoint seval_expr (fuel : nat) (ctx : scontext) (e : sexpr) : sres svalue :=
  match fuel with
  | 0 => SPanic PFuel
  | S fuel' =>
      match e with
      | SEValue id v => seval_value ctx id v
      | SECall id _ head _ _ =>
          match assoc_N id (sc_calls meta) with
          | None => SErr FInternal call_site
          | Some m =>
              let? args := smapM (fun a => match assoc_N (expr_id a) tree with
                                           | Some a' => seval_expr fuel' ctx a'
                                           | None => SPanic PUnreachable
                                           end) (cm_args m) in
              let? r := simpl_of O SO (cm_func m) (e_seed env) head args in
              stry_cast O SO r (cm_target m)
          end
      end
  end.

(** eval/alias_spec.rs 8-19, eval/alias_spec_item.rs 8-16. *)
Fixpoint seval_items (ctx : scontext) (items : list sitem) : sres (list (str * svalue)) :=
  match items with
  | [] => SOk []
  | (name, e) :: rest =>
      let? v := seval_expr (S (expr_depth (erase_expr e))) ctx e in
      let? bs := seval_items ((name, v) :: ctx) rest in
      SOk ((name, v) :: bs)
  end.
End Eval.

(** error.rs 43-48: [make_coercion_error]. *)
Definition coercion_error (from to : ty) : failure :=
  FType (txt "impossible to coerce from " ++ ty_display from ++ txt " to " ++ ty_display to).

Section Resolve.
Context (O : oracles) (SO : soracles) (env : environment).

(** ast/expr.rs 53-58. *)
Definition expr_span (e : sexpr) : span :=
  match e with SEValue _ v => value_span SO v | SECall _ _ head _ _ => head end.

(** resolve/value.rs 46, resolve/call.rs 155, 190-201 and resolve/core.rs 19: what the error
    holds.  [e] is the definition's value; that it is what fails is C49_blame.  A value is
    resolved to the type it has, so there are no type errors, nor any of the last three. *)
Definition resolve_failure (sc : scope) (e : sexpr) (er : error) : failure :=
  match er with
  | TypeError =>
      match e with
      | SEValue _ v => match from_type sc (erase_value v) with Ok t => coercion_error t t | _ => FType [] end
      | SECall _ _ _ _ _ => FType []
      end
  | SignatureError name =>
      FSignature name (match pretty_func_sig env name with Some s => s | None => txt "unknown function" end)
        (expr_display O (erase_expr e))
  | UndefinedFunctionError name => FUndefined name
  | RedefinedNameError name => FRedefined name
  | EvalError => FEval []
  | SubstitutionError x => FSubstitution x [] []
  | InternalError => FInternal
  end.

(** resolve/value.rs 46 and error.rs 43-48: a failed coercion is reported at [call_site];
    resolve/call.rs 155, 197-201: an undefined function and a call that fits no overload at
    the call; error.rs 35: an internal error at [call_site].  Errors of the arguments are
    dropped (resolve/call.rs 175) unless internal. *)
Definition sresolve_expr (sc : scope) (e : sexpr) : sres scope :=
  match resolve_expr env (erase_expr e) sc None with
  | Ok sc' => SOk sc'
  | Err er => SErr (resolve_failure sc e er) (match er, e with
                       | InternalError, _ => call_site
                       | _, SEValue _ _ => call_site
                       | _, SECall _ _ head _ _ => head
                       end)
  | Panic p => SPanic p
  end.
(** resolve/alias_spec_item.rs 9-21, resolve/core.rs 17-23: a redefinition is reported at the
    span of the node passed, the value's expression. *)
Definition sresolve_item (sc : scope) (item : sitem) : sres scope :=
  let? sc' := sresolve_expr sc (snd item) in
  match try_add_name sc' (fst item) (expr_id (erase_expr (snd item))) with
  | Ok sc'' => SOk sc''
  | Err er => SErr (resolve_failure sc' (snd item) er) (expr_span (snd item))
  | Panic p => SPanic p
  end.
(** resolve/alias_spec.rs 9-19. *)
Fixpoint sresolve_items (sc : scope) (items : list sitem) : sres scope :=
  match items with
  | [] => SOk sc
  | item :: rest => let? sc' := sresolve_item sc item in sresolve_items sc' rest
  end.
End Resolve.

(** interpreter/core.rs 55-78. *)
Definition smake_substitutions (O : oracles) (SO : soracles) (env : environment) (items : list sitem)
  : sres (list (str * svalue)) :=
  let? sc := sresolve_items O SO env empty_scope items in
  seval_items O SO env sc (item_nodes items) [] items.

(** Model of the texts of errors: the [Display] implementations of values, expressions, calls,
    types and errors.  Spans are dropped.  The texts of type, evaluation and substitution
    errors are not modelled: they contain texts of [syn]'s errors or debug output. *)
From Coq Require Import String.
From Verif Require Import Base Token Types Values Ast Env FormatString.
Open Scope list_scope.

Definition quote_mark : str := [34%N].

Section Display.
Context (O : oracles).

(** ast/value.rs 277-290. *)
Definition value_display (v : value) : str :=
  match v with
  | VIdent x => x
  | VPath ts | VType ts | VExpr ts | VTokens ts | VRaw ts => to_string O ts
  | VLitStr x _ => quote_mark ++ x ++ quote_mark
  | VLitInt d _ => d
  end.

(** ast/expr.rs 37-44 and ast/call.rs 60-77: a call with one argument shows the tokens as
    written, other calls show their parsed arguments. *)
Fixpoint expr_display (e : expr) : str :=
  match e with
  | EValue _ v => value_display v
  | ECall _ name args raw =>
      name ++ txt "(" ++
      match args, raw with
      | [_], Some (_, ts) => to_string O ts
      | _, _ => join (txt ", ") (map expr_display args)
      end ++ txt ")"
  end.
End Display.

(** core/type_.rs 127-136: [Func::signature]. *)
Definition signature (f : func) : str :=
  f_name f ++ txt "(" ++ join (txt ", ") (map ty_display (f_arg_types f)) ++ txt ") -> " ++ ty_display (f_out_type f).

(** core/environment/core.rs 51-64: [make_pretty_func_sig]. *)
Definition pretty_func_sig (env : environment) (name : str) : option str :=
  option_map (fun fs => fold_left (fun acc sig => match acc with [] => sig | _ => acc ++ txt " | " ++ sig end) (map signature fs) [])
    (get_func_variants env name).

(** error.rs 9-24, the variants without external texts; [e] is the definition being resolved
    (resolve/call.rs 148-155 and 190-200: the call that is refused shows itself).  That the
    call is the whole definition is C49_blame. *)
Definition resolve_message (O : oracles) (env : environment) (e : expr) (er : error) : option str :=
  match er with
  | SignatureError name =>
      Some (txt "SignatureError: function " ++
            match pretty_func_sig env name with Some s => s | None => txt "unknown function" end ++
            txt " has been called with incompatible arguments: " ++ expr_display O e)
  | UndefinedFunctionError name => Some (txt "UndefinedFunctionError: function " ++ quote_mark ++ name ++ txt "(...)" ++ quote_mark ++ txt " is undefined")
  | RedefinedNameError name => Some (txt "RedefinedNameError: name " ++ name ++ txt " has already been defined")
  | _ => None
  end.

(** core/type_.rs 84-110: the debug assertions of [Func::new]. *)
Definition well_formed_params (args : list ty) : bool :=
  (Nat.leb (List.length (filter is_variadic_ty args)) 1) &&
  (match find (fun p => is_variadic_ty (snd p)) (combine (seq 0 (List.length args)) args) with
   | Some (n, _) => Nat.eqb n (List.length args - 1)
   | None => true
   end) &&
  (if existsb (ty_eqb TyRaw) args then Nat.eqb (List.length args) 1 else true).

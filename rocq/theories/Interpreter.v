(** Model of /repo/src/interpreter/core.rs and of [compose_core] in /repo/src/lib.rs. *)
From Verif Require Import Base Token Types Values Ast Env Resolve Eval Expand Item AliasSubstitution Deprecation.

(** The external functions of this phase: syn's node parsers (see AliasSubstitution) and its
    traversal of a block. *)
Record syntax := {
  reparse : kind -> list tt -> option (list tt);
  as_forest : list tt -> forest;
}.

Section Interpreter.
Context (O : oracles) (Y : syntax).

(** interpreter/core.rs 80-93: [substitute], on the emitted statements. *)
Definition substitute (t : thread) (block : list stmt) (subst : list (str * value)) : res (list tt) :=
  let! block' := visit_block O (fun x => assoc_str x subst) (reparse Y) block in
  Ok (forest_tokens (scope_emit t (as_forest Y (block_tokens block')))).

(** interpreter/core.rs 95-106 *)
Definition execute_block_rewrite (env : environment) (t : thread) (rw : block_rewrite (list stmt)) : res (list tt) :=
  let! subst := make_substitutions O env (fst rw) in
  substitute t (snd rw) subst.

(** interpreter/core.rs 108-121 *)
Definition execute (env : environment) (t : thread) (ast : raw_ast (list stmt)) : res (list tt) :=
  let! expanded := expand ast in
  let! result := mapM (execute_block_rewrite env t) expanded in
  Ok (concat result).

(** What the parser does (parse/raw_ast.rs 10-55, parse/compose_item_spec.rs 8-50, lib.rs
    41-60).  [p_scope]: [None] if it fails before it opens its scope of the deprecation
    service; [Some b] if it opens it, [b] telling whether it adds the semicolon warning.
    [p_ast]: the result, [None] for a syntax error (which may be found before or after the
    scope is closed). *)
Record parsed := {
  p_scope : option bool;
  p_ast : res (option (raw_ast (list stmt)));
}.

(** One use of a macro: the name it prefixes warnings with, what its input parses to, and the
    values the process-wide counter supplies for its environment (lib.rs 36). *)
Record invocation := {
  inv_prefix : str;
  inv_parsed : parsed;
  inv_seed : N;
  inv_first_id : N;
}.

(** [TokenStream] returned by the macro: code or the [compile_error!] of a syntax error or
    of an [Error]; or the macro panics. *)
Inductive output :=
| Code (ts : list tt)
| SyntaxError
| CompileError (e : error)
| Panicked (p : panic).

(** parse/raw_ast.rs 24-30, parse/compose_item_spec.rs 21-26; the scope is dropped when the
    parser returns. *)
Definition run_parser (p : parsed) (t : thread) : res thread :=
  match p_scope p with
  | None => Ok t
  | Some semicolons =>
      let! t1 := scoped t in
      scope_drop (if semicolons then scope_add_semicolon_warning t1 else t1)
  end.

(** The interpreter owns the outer scope: it is dropped on return and on unwinding. *)
Definition close (t : thread) (o : output) : thread * output :=
  match scope_drop t with
  | Ok t' => (t', o)
  | Err _ => (t, o)   (* does not happen *)
  | Panic p => (t, Panicked p)
  end.

(** lib.rs 31-68 *)
Definition compose_core (t : thread) (inv : invocation) : thread * output :=
  let t1 := maybe_set_global (new_service (inv_prefix inv)) t in
  match scoped t1 with
  | Err e => (t1, CompileError e)   (* does not happen *)
  | Panic p => (t1, Panicked p)
  | Ok t2 =>
      let env := new_initialized O (inv_seed inv) (inv_first_id inv) in
      match run_parser (inv_parsed inv) t2 with
      | Err e => close t2 (CompileError e)   (* does not happen *)
      | Panic p => close t2 (Panicked p)
      | Ok t3 =>
          match p_ast (inv_parsed inv) with
          | Panic p => close t3 (Panicked p)
          | Err e => close t3 (CompileError e)
          | Ok None => close t3 SyntaxError
          | Ok (Some ast) =>
              close t3 (match execute env t3 ast with
                        | Ok ts => Code ts
                        | Err e => CompileError e
                        | Panic p => Panicked p
                        end)
          end
      end
  end.

(** Macro invocations one after the other in a thread. *)
Fixpoint run (t : thread) (invs : list invocation) : thread * list output :=
  match invs with
  | [] => (t, [])
  | inv :: r =>
      let (t1, o) := compose_core t inv in
      let (t2, os) := run t1 r in
      (t2, o :: os)
  end.
End Interpreter.

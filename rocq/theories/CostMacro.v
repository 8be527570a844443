(** Model of a compilation with the arithmetic of costs made explicit: Interpreter.v and
    Macro.v with the resolver of Costs.v, nothing else changed. *)
From Verif Require Import Base Token Types Values Ast Env Resolve Eval Expand Item AliasSubstitution Deprecation Interpreter Parse Macro Costs.

Section With.
Context (arith : N -> N -> N -> res N) (O : oracles) (P : parsers) (Y : syntax).

(** interpreter/core.rs 95-106 *)
Definition execute_block_rewrite_with (env : environment) (t : thread) (rw : block_rewrite (list stmt)) : res (list tt) :=
  let! subst := make_substitutions_with arith env O (fst rw) in
  substitute O Y t (snd rw) subst.

(** interpreter/core.rs 108-121 *)
Definition execute_with (env : environment) (t : thread) (ast : raw_ast (list stmt)) : res (list tt) :=
  let! expanded := expand ast in
  let! result := mapM (execute_block_rewrite_with env t) expanded in
  Ok (concat result).

(** lib.rs 31-68 *)
Definition compose_core_with (t : thread) (inv : invocation) : thread * output :=
  let t1 := maybe_set_global (new_service (inv_prefix inv)) t in
  match scoped t1 with
  | Err e => (t1, CompileError e)   (* does not happen *)
  | Panic p => (t1, Panicked p)
  | Ok t2 =>
      let env := new_initialized O (inv_seed inv) (inv_first_id inv) in
      match run_parser (inv_parsed inv) t2 with
      | Err e => close t2 (CompileError e)   (* does not happen *)
      | Panic p => close t2 (Panicked p)
      | Ok t3 =>
          match p_ast (inv_parsed inv) with
          | Panic p => close t3 (Panicked p)
          | Err e => close t3 (CompileError e)
          | Ok None => close t3 SyntaxError
          | Ok (Some ast) =>
              close t3 (match execute_with env t3 ast with
                        | Ok ts => Code ts
                        | Err e => CompileError e
                        | Panic p => Panicked p
                        end)
          end
      end
  end.

Fixpoint run_with (t : thread) (invs : list invocation) : thread * list output :=
  match invs with
  | [] => (t, [])
  | inv :: r =>
      let (t1, o) := compose_core_with t inv in
      let (t2, os) := run_with t1 r in
      (t2, o :: os)
  end.

(** All the uses in a compilation, expanded by one thread. *)
Definition expand_uses_with (uses : list use) : list output := snd (run_with None (map (invocation_for O P) uses)).
End With.

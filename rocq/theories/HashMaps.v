(** Model of the hash maps that are iterated: eval/alias_spec.rs 8-19, eval/alias_spec_item.rs 8-16
    and interpreter/core.rs 55-121, lib.rs 31-68, with the order of iteration made explicit.
    Everything else is as in Eval.v, Interpreter.v and Macro.v.  The other maps (the scope, the
    metadata, the context, the functions, the substitutions) are only looked up. *)
From Verif Require Import Base Token Types Values Ast Env Resolve Eval Expand Item AliasSubstitution Deprecation Interpreter Parse Macro.

(** [HashMap::insert] and [HashMap::extend]: the entries of a map, in no particular order, no two
    with the same key. *)
Definition map_insert {V} (k : str) (v : V) (m : list (str * V)) : list (str * V) :=
  (k, v) :: filter (fun e => negb (str_eqb k (fst e))) m.
Definition map_extend {V} (m l : list (str * V)) : list (str * V) :=
  fold_left (fun m e => map_insert (fst e) (snd e) m) l m.

(** The entries in the order in which they are iterated.  [RandomState] gives every map an order of
    its own, so it depends on the use of a macro, on the round of its loops and on the map. *)
Definition iteration := nat -> list (str * value) -> list (str * value).

Section Hashed.
Context (O : oracles) (P : parsers) (Y : syntax).

(** eval/alias_spec.rs 8-19: [bindings.extend(evaluated_value.into_iter())];
    eval/alias_spec_item.rs 8-16: the map of one definition; the [i]-th definition from 1. *)
Fixpoint eval_items_hashed (env : environment) (sc : scope) (order : iteration) (i : nat) (ctx : context)
  (items : list spec_item) (bindings : list (str * value)) : res (list (str * value)) :=
  match items with
  | [] => Ok bindings
  | (name, e) :: rest =>
      let! v := eval_expr O env sc (S (expr_depth e)) ctx e in
      eval_items_hashed env sc order (S i) ((name, v) :: ctx) rest (map_extend bindings (order i (map_insert name v [])))
  end.

(** interpreter/core.rs 55-78: [for (alias, value) in bindings_map.iter() { substitutions.insert(..) }] *)
Definition make_substitutions_hashed (env : environment) (order : iteration) (spec : alias_spec) : res (list (str * value)) :=
  let! sc := resolve_items env empty_scope (spec_items spec) in
  let! bindings := eval_items_hashed env sc order 1 [] (spec_items spec) [] in
  Ok (map_extend [] (order 0 bindings)).

(** interpreter/core.rs 95-106 *)
Definition execute_block_rewrite_hashed (env : environment) (t : thread) (order : iteration) (rw : block_rewrite (list stmt)) : res (list tt) :=
  let! subst := make_substitutions_hashed env order (fst rw) in
  substitute O Y t (snd rw) subst.

(** interpreter/core.rs 108-121 *)
Fixpoint rewrites_hashed (env : environment) (t : thread) (order : nat -> iteration) (round : nat) (l : list (block_rewrite (list stmt)))
  : res (list (list tt)) :=
  match l with
  | [] => Ok []
  | rw :: r =>
      let! stream := execute_block_rewrite_hashed env t (order round) rw in
      let! rest := rewrites_hashed env t order (S round) r in
      Ok (stream :: rest)
  end.
Definition execute_hashed (env : environment) (t : thread) (order : nat -> iteration) (ast : raw_ast (list stmt)) : res (list tt) :=
  let! expanded := expand ast in
  let! result := rewrites_hashed env t order 0 expanded in
  Ok (concat result).

(** lib.rs 31-68 *)
Definition compose_core_hashed (order : nat -> iteration) (t : thread) (inv : invocation) : thread * output :=
  let t1 := maybe_set_global (new_service (inv_prefix inv)) t in
  match scoped t1 with
  | Err e => (t1, CompileError e)   (* does not happen *)
  | Panic p => (t1, Panicked p)
  | Ok t2 =>
      let env := new_initialized O (inv_seed inv) (inv_first_id inv) in
      match run_parser (inv_parsed inv) t2 with
      | Err e => close t2 (CompileError e)   (* does not happen *)
      | Panic p => close t2 (Panicked p)
      | Ok t3 =>
          match p_ast (inv_parsed inv) with
          | Panic p => close t3 (Panicked p)
          | Err e => close t3 (CompileError e)
          | Ok None => close t3 SyntaxError
          | Ok (Some ast) =>
              close t3 (match execute_hashed env t3 order ast with
                        | Ok ts => Code ts
                        | Err e => CompileError e
                        | Panic p => Panicked p
                        end)
          end
      end
  end.
Fixpoint run_hashed (order : nat -> nat -> iteration) (k : nat) (t : thread) (invs : list invocation) : thread * list output :=
  match invs with
  | [] => (t, [])
  | inv :: r =>
      let (t1, o) := compose_core_hashed (order k) t inv in
      let (t2, os) := run_hashed order (S k) t1 r in
      (t2, o :: os)
  end.

(** All the uses in a compilation, expanded by one thread. *)
Definition expand_uses_hashed (order : nat -> nat -> iteration) (uses : list use) : list output :=
  snd (run_hashed order 0 None (map (invocation_for O P) uses)).
End Hashed.

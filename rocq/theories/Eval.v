(** Model of the eval phase: /repo/src/eval/*.rs. *)
From Verif Require Import Base Token Types Values Ast Env Resolve.

(** eval/core.rs 20-23: variables, newest first, and the resolve phase's metadata. *)
Definition context := list (str * value).

Section Eval.
Context (O : oracles) (env : environment) (meta : scope).

(** eval/value.rs 8-29: [Value::eval]. *)
Definition eval_value (ctx : context) (id : N) (v : value) : res value :=
  let v' := match v with
            | VIdent x => match assoc_str x ctx with Some w => w | None => v end
            | _ => v
            end in
  match assoc_N id (sc_values meta) with
  | None => Err InternalError
  | Some m => match try_cast O v' (vm_target m) with
              | Ok w => Ok w
              | Err _ => Panic PCoercion
              | Panic p => Panic p
              end
  end.

(** eval/expr.rs 8-13, eval/call.rs 8-36.  The arguments evaluated are those stored
    in the call's metadata, hence the fuel. *)
Fixpoint eval_expr (fuel : nat) (ctx : context) (e : expr) : res value :=
  match fuel with
  | 0 => Panic PFuel
  | S fuel' =>
      match e with
      | EValue id v => eval_value ctx id v
      | ECall id _ _ _ =>
          match assoc_N id (sc_calls meta) with
          | None => Err InternalError
          | Some m =>
              let! args := mapM (eval_expr fuel' ctx) (cm_args m) in
              let! r := f_impl (cm_func m) (e_seed env) args in
              try_cast O r (cm_target m)
          end
      end
  end.

Fixpoint expr_depth (e : expr) : nat :=
  match e with
  | EValue _ _ => 1
  | ECall _ _ args _ => S (fold_right (fun a n => Nat.max (expr_depth a) n) 1 args)
  end.

(** eval/alias_spec.rs 8-19, eval/alias_spec_item.rs 8-16: the bindings in the order
    of definition (a HashMap keyed by alias in the code; the resolve phase has
    rejected duplicate names). *)
Fixpoint eval_items (ctx : context) (items : list spec_item) : res (list (str * value)) :=
  match items with
  | [] => Ok []
  | (name, e) :: rest =>
      let! v := eval_expr (S (expr_depth e)) ctx e in
      let! bs := eval_items ((name, v) :: ctx) rest in
      Ok ((name, v) :: bs)
  end.
End Eval.

(** interpreter/core.rs 55-78: [make_substitutions]. *)
Definition make_substitutions (O : oracles) (env : environment) (spec : alias_spec)
  : res (list (str * value)) :=
  let! sc := resolve_items env empty_scope (spec_items spec) in
  eval_items O env sc [] (spec_items spec).

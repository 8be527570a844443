(** Model of the resolver with the arithmetic of its costs made explicit.  The costs in
    resolve/call.rs are [u32]; Resolve.v computes them exactly.  This is Resolve.v with
    [cost + c * mult] replaced by a parameter; C51 says when that makes no difference. *)
From Verif Require Import Base Token Types Values Ast Env Resolve Eval.

Definition u32_end : N := 2 ^ 32.
(** resolve/call.rs 43 with overflow checks (a debug build of the macro)... *)
Definition checked (cost c mult : N) : res N :=
  if ((c * mult <? u32_end) && (cost + c * mult <? u32_end))%N then Ok (cost + c * mult)%N else Panic POverflow.
(** ... and without. *)
Definition wrapping (cost c mult : N) : res N := Ok ((cost + c * mult) mod u32_end)%N.

Section Arith.
Context (arith : N -> N -> N -> res N).

(** resolve/call.rs 8-48. *)
Definition resolve_arg_with (mult : N) (t : ty) (arg : expr * resolver)
  (st : scope * N * list expr) : res (scope * N * list expr) :=
  let '(sc, cost, args) := st in
  let! sc' := snd arg sc (Some t) in
  let! c := recorded_cost sc' (fst arg) in
  let! cost' := arith cost c mult in
  Ok (sc', cost', args ++ [fst arg]).

(** resolve/call.rs 109-119. *)
Fixpoint resolve_fixed_with (ts : list ty) (args : list (expr * resolver))
  (st : scope * N * list expr) : res (scope * N * list expr) :=
  match ts, args with
  | t :: ts', a :: args' =>
      let! st' := resolve_arg_with 1 t a st in resolve_fixed_with ts' args' st'
  | _, _ => Ok st
  end.

(** resolve/call.rs 121-133. *)
Fixpoint resolve_variadic_with (t : ty) (args : list (expr * resolver))
  (st : scope * N * list expr) : res (scope * N * list expr) :=
  match args with
  | [] => Ok st
  | a :: args' => let! st' := resolve_arg_with 2 t a st in resolve_variadic_with t args' st'
  end.

(** resolve/call.rs 58-136. *)
Definition resolve_call_for_func_with (f : func) (args : list (expr * resolver))
  (raw : option (N * list tt)) (sc : scope) (expected : option ty)
  : res (scope * N * list expr) :=
  let out_cost := match expected with
                  | Some t => coercion_cost (f_out_type f) t
                  | None => Some 0%N
                  end in
  match out_cost with
  | None => Err TypeError
  | Some c0 =>
      match f_arg_types f, raw with
      | [TyRaw], Some (rid, ts) =>
          let! sc' := resolve_value sc rid (VRaw ts) (Some TyRaw) in
          Ok (sc', c0, [EValue rid (VRaw ts)])
      | _, _ =>
          let arity_ok :=
            if is_variadic f then Nat.leb (num_args f) (length args)
            else Nat.eqb (num_args f) (length args) in
          if arity_ok then
            let fixed := non_variadic_arg_types f in
            let! st := resolve_fixed_with fixed args (sc, c0, []) in
            match variadic_arg_type f with
            | Some t => resolve_variadic_with t (skipn (length fixed) args) st
            | None => Ok st
            end
          else Err (SignatureError (f_name f))
      end
  end.

(** resolve/call.rs 162-177. *)
Fixpoint try_candidates_with (fs : list func) (args : list (expr * resolver))
  (raw : option (N * list tt)) (sc : scope) (expected : option ty) : res (list candidate) :=
  match fs with
  | [] => Ok []
  | f :: fs' =>
      match resolve_call_for_func_with f args raw sc expected with
      | Ok (sc', cost, rargs) =>
          let! rest := try_candidates_with fs' args raw sc expected in
          Ok ((cost, sc', f, rargs) :: rest)
      | Err InternalError => Err InternalError
      | Err _ => try_candidates_with fs' args raw sc expected
      | Panic p => Panic p
      end
  end.

Context (env : environment).

(** resolve/call.rs 143-206. *)
Definition resolve_call_with (id : N) (name : str) (args : list (expr * resolver))
  (raw : option (N * list tt)) (sc : scope) (expected : option ty) : res scope :=
  match get_func_variants env name with
  | None => Err (UndefinedFunctionError name)
  | Some fs =>
      let! cands := try_candidates_with fs args raw sc expected in
      match sort_by_key cands with
      | (cost, sc', f, rargs) :: _ =>
          Ok (set_call_meta sc' id
                {| cm_args := rargs; cm_func := f;
                   cm_target := match expected with Some t => t | None => f_out_type f end;
                   cm_cost := cost |})
      | [] => Err (SignatureError name)
      end
  end.

(** resolve/expr.rs 9-19. *)
Fixpoint resolve_expr_with (e : expr) : resolver :=
  match e with
  | EValue id v => fun sc expected => resolve_value sc id v expected
  | ECall id name args raw =>
      let rargs := map (fun a => (a, resolve_expr_with a)) args in
      fun sc expected => resolve_call_with id name rargs raw sc expected
  end.

(** resolve/alias_spec_item.rs 9-21 and resolve/alias_spec.rs 9-19. *)
Definition resolve_item_with (sc : scope) (item : spec_item) : res scope :=
  let! sc' := resolve_expr_with (snd item) sc None in
  try_add_name sc' (fst item) (expr_id (snd item)).
Fixpoint resolve_items_with (sc : scope) (items : list spec_item) : res scope :=
  match items with
  | [] => Ok sc
  | item :: rest => let! sc' := resolve_item_with sc item in resolve_items_with sc' rest
  end.

(** interpreter/core.rs 55-78. *)
Definition make_substitutions_with (O : oracles) (spec : alias_spec) : res (list (str * value)) :=
  let! sc := resolve_items_with empty_scope (spec_items spec) in
  eval_items O env sc [] (spec_items spec).
End Arith.

(** Model of the resolve phase: /repo/src/resolve/*.rs. *)
From Verif Require Import Base Token Types Values Ast Env.

(** ast/value.rs 309-314, ast/call.rs 82-91. *)
Record value_meta := { vm_target : ty; vm_cost : N }.
Record call_meta := { cm_args : list expr; cm_func : func; cm_target : ty; cm_cost : N }.

Fixpoint assoc_N {A} (k : N) (l : list (N * A)) : option A :=
  match l with
  | [] => None
  | (k', a) :: r => if N.eqb k k' then Some a else assoc_N k r
  end.

(** ast/core.rs 19-22 and resolve/core.rs 10-13: the scope with its metadata.
    HashMaps are association lists, the newest binding first; the alias map keeps
    the id of the alias's expression, the only thing that is read of it. *)
Record scope := {
  sc_aliases : list (str * N);
  sc_values : list (N * value_meta);
  sc_calls : list (N * call_meta);
}.

Definition empty_scope : scope := {| sc_aliases := []; sc_values := []; sc_calls := [] |}.

(** ast/core.rs 25-37, 44-65. *)
Definition set_value_meta (sc : scope) (id : N) (t : ty) (c : N) : scope :=
  {| sc_aliases := sc_aliases sc;
     sc_values := (id, {| vm_target := t; vm_cost := c |}) :: sc_values sc;
     sc_calls := sc_calls sc |}.
Definition set_call_meta (sc : scope) (id : N) (m : call_meta) : scope :=
  {| sc_aliases := sc_aliases sc; sc_values := sc_values sc;
     sc_calls := (id, m) :: sc_calls sc |}.

(** resolve/core.rs 17-23: [try_add_name]. *)
Definition try_add_name (sc : scope) (name : str) (id : N) : res scope :=
  match assoc_str name (sc_aliases sc) with
  | Some _ => Err (RedefinedNameError name)
  | None => Ok {| sc_aliases := (name, id) :: sc_aliases sc;
                  sc_values := sc_values sc; sc_calls := sc_calls sc |}
  end.

(** resolve/value.rs 16-34: the type a value has before coercion. *)
Definition from_type (sc : scope) (v : value) : res ty :=
  match v with
  | VIdent x =>
      match assoc_str x (sc_aliases sc) with
      | Some id =>
          match assoc_N id (sc_values sc) with
          | Some m => Ok (vm_target m)
          | None => match assoc_N id (sc_calls sc) with
                    | Some m => Ok (cm_target m)
                    | None => Panic PMetadata
                    end
          end
      | None => Ok (type_of v)
      end
  | _ => Ok (type_of v)
  end.

(** resolve/value.rs 9-48: [Value::resolve]. *)
Definition resolve_value (sc : scope) (id : N) (v : value) (expected : option ty) : res scope :=
  let! from := from_type sc v in
  let target := match expected with Some t => t | None => from end in
  match coercion_cost from target with
  | Some c => Ok (set_value_meta sc id target c)
  | None => Err TypeError
  end.

(** An argument together with its own [resolve]. *)
Definition resolver := scope -> option ty -> res scope.

(** resolve/call.rs 25-42: the cost recorded by the argument's resolution. *)
Definition recorded_cost (sc : scope) (e : expr) : res N :=
  match e with
  | EValue id _ => match assoc_N id (sc_values sc) with
                   | Some m => Ok (vm_cost m)
                   | None => Err InternalError
                   end
  | ECall id _ _ _ => match assoc_N id (sc_calls sc) with
                      | Some m => Ok (cm_cost m)
                      | None => Err InternalError
                      end
  end.

(** resolve/call.rs 8-48: [resolve_arg]; returns the new scope, cost and arguments. *)
Definition resolve_arg (mult : N) (t : ty) (arg : expr * resolver)
  (st : scope * N * list expr) : res (scope * N * list expr) :=
  let '(sc, cost, args) := st in
  let! sc' := snd arg sc (Some t) in
  let! c := recorded_cost sc' (fst arg) in
  Ok (sc', (cost + c * mult)%N, args ++ [fst arg]).

(** resolve/call.rs 109-119: arguments zipped with the non-variadic types. *)
Fixpoint resolve_fixed (ts : list ty) (args : list (expr * resolver))
  (st : scope * N * list expr) : res (scope * N * list expr) :=
  match ts, args with
  | t :: ts', a :: args' =>
      let! st' := resolve_arg 1 t a st in resolve_fixed ts' args' st'
  | _, _ => Ok st
  end.

(** resolve/call.rs 121-133: the remaining arguments. *)
Fixpoint resolve_variadic (t : ty) (args : list (expr * resolver))
  (st : scope * N * list expr) : res (scope * N * list expr) :=
  match args with
  | [] => Ok st
  | a :: args' => let! st' := resolve_arg 2 t a st in resolve_variadic t args' st'
  end.

(** resolve/call.rs 58-136: [resolve_call_for_func]. *)
Definition resolve_call_for_func (f : func) (args : list (expr * resolver))
  (raw : option (N * list tt)) (sc : scope) (expected : option ty)
  : res (scope * N * list expr) :=
  let out_cost := match expected with
                  | Some t => coercion_cost (f_out_type f) t
                  | None => Some 0%N
                  end in
  match out_cost with
  | None => Err TypeError
  | Some c0 =>
      match f_arg_types f, raw with
      | [TyRaw], Some (rid, ts) =>
          let! sc' := resolve_value sc rid (VRaw ts) (Some TyRaw) in
          Ok (sc', c0, [EValue rid (VRaw ts)])
      | _, _ =>
          let arity_ok :=
            if is_variadic f then Nat.leb (num_args f) (length args)
            else Nat.eqb (num_args f) (length args) in
          if arity_ok then
            let fixed := non_variadic_arg_types f in
            let! st := resolve_fixed fixed args (sc, c0, []) in
            match variadic_arg_type f with
            | Some t => resolve_variadic t (skipn (length fixed) args) st
            | None => Ok st
            end
          else Err (SignatureError (f_name f))
      end
  end.

Definition candidate := (N * scope * func * list expr)%type.

(** resolve/call.rs 162-177: the loop over the overloads; every candidate works on
    its own clone of the scope. *)
Fixpoint try_candidates (fs : list func) (args : list (expr * resolver))
  (raw : option (N * list tt)) (sc : scope) (expected : option ty) : res (list candidate) :=
  match fs with
  | [] => Ok []
  | f :: fs' =>
      match resolve_call_for_func f args raw sc expected with
      | Ok (sc', cost, rargs) =>
          let! rest := try_candidates fs' args raw sc expected in
          Ok ((cost, sc', f, rargs) :: rest)
      | Err InternalError => Err InternalError
      | Err _ => try_candidates fs' args raw sc expected
      | Panic p => Panic p
      end
  end.

(** resolve/call.rs 180: the sort key, compared lexicographically
    ([false < true] for the variadic flag). *)
Definition key := (N * bool * nat * N)%type.
Definition cand_key (x : candidate) : key :=
  let '(cost, _, f, _) := x in (cost, is_variadic f, num_args f, f_id f).
Definition key_ltb (a b : key) : bool :=
  let '(c1, v1, n1, i1) := a in
  let '(c2, v2, n2, i2) := b in
  (c1 <? c2)%N ||
  ((c1 =? c2)%N &&
   ((negb v1 && v2) ||
    (Bool.eqb v1 v2 && ((n1 <? n2) || ((n1 =? n2) && (i1 <? i2)%N))))).

(** resolve/call.rs 180: [sort_by_key] is a stable sort: insertion sort that inserts after equal keys. *)
Fixpoint insert_sorted (x : candidate) (l : list candidate) : list candidate :=
  match l with
  | [] => [x]
  | y :: r => if key_ltb (cand_key x) (cand_key y) then x :: y :: r else y :: insert_sorted x r
  end.
Definition sort_by_key (l : list candidate) : list candidate :=
  fold_left (fun acc x => insert_sorted x acc) l [].

Section Resolve.
Context (env : environment).

(** resolve/call.rs 143-206: [Call::resolve]. *)
Definition resolve_call (id : N) (name : str) (args : list (expr * resolver))
  (raw : option (N * list tt)) (sc : scope) (expected : option ty) : res scope :=
  match get_func_variants env name with
  | None => Err (UndefinedFunctionError name)
  | Some fs =>
      let! cands := try_candidates fs args raw sc expected in
      match sort_by_key cands with
      | (cost, sc', f, rargs) :: _ =>
          Ok (set_call_meta sc' id
                {| cm_args := rargs; cm_func := f;
                   cm_target := match expected with Some t => t | None => f_out_type f end;
                   cm_cost := cost |})
      | [] => Err (SignatureError name)
      end
  end.

(** resolve/expr.rs 9-19: [Expr::resolve]. *)
Fixpoint resolve_expr (e : expr) : resolver :=
  match e with
  | EValue id v => fun sc expected => resolve_value sc id v expected
  | ECall id name args raw =>
      let rargs := map (fun a => (a, resolve_expr a)) args in
      fun sc expected => resolve_call id name rargs raw sc expected
  end.

(** resolve/alias_spec_item.rs 9-21. *)
Definition resolve_item (sc : scope) (item : spec_item) : res scope :=
  let! sc' := resolve_expr (snd item) sc None in
  try_add_name sc' (fst item) (expr_id (snd item)).

(** resolve/alias_spec.rs 9-19. *)
Fixpoint resolve_items (sc : scope) (items : list spec_item) : res scope :=
  match items with
  | [] => Ok sc
  | item :: rest => let! sc' := resolve_item sc item in resolve_items sc' rest
  end.
End Resolve.

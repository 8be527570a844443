(** Model of the resolver with a counter: Resolve.v, where every result comes with the number
    of times [Expr::resolve] was called (resolve/expr.rs 9-19).  C52 says that the results
    are those of Resolve.v. *)
From Verif Require Import Base Token Types Values Ast Env Resolve.

Definition counted (A : Type) := (res A * N)%type.
Definition cret {A} (r : res A) : counted A := (r, 0%N).
Definition cbind {A B} (x : counted A) (f : A -> counted B) : counted B :=
  match x with
  | (Ok a, n) => let (r, m) := f a in (r, (n + m)%N)
  | (Err e, n) => (Err e, n)
  | (Panic p, n) => (Panic p, n)
  end.

Definition cresolver := scope -> option ty -> counted scope.

(** resolve/call.rs 8-48. *)
Definition cresolve_arg (mult : N) (t : ty) (arg : expr * cresolver)
  (st : scope * N * list expr) : counted (scope * N * list expr) :=
  let '(sc, cost, args) := st in
  cbind (snd arg sc (Some t)) (fun sc' =>
  cret (let! c := recorded_cost sc' (fst arg) in Ok (sc', (cost + c * mult)%N, args ++ [fst arg]))).

(** resolve/call.rs 109-119. *)
Fixpoint cresolve_fixed (ts : list ty) (args : list (expr * cresolver))
  (st : scope * N * list expr) : counted (scope * N * list expr) :=
  match ts, args with
  | t :: ts', a :: args' => cbind (cresolve_arg 1 t a st) (cresolve_fixed ts' args')
  | _, _ => cret (Ok st)
  end.

(** resolve/call.rs 121-133. *)
Fixpoint cresolve_variadic (t : ty) (args : list (expr * cresolver))
  (st : scope * N * list expr) : counted (scope * N * list expr) :=
  match args with
  | [] => cret (Ok st)
  | a :: args' => cbind (cresolve_arg 2 t a st) (cresolve_variadic t args')
  end.

(** resolve/call.rs 58-136; resolving the raw argument counts. *)
Definition cresolve_call_for_func (f : func) (args : list (expr * cresolver))
  (raw : option (N * list tt)) (sc : scope) (expected : option ty)
  : counted (scope * N * list expr) :=
  let out_cost := match expected with
                  | Some t => coercion_cost (f_out_type f) t
                  | None => Some 0%N
                  end in
  match out_cost with
  | None => cret (Err TypeError)
  | Some c0 =>
      match f_arg_types f, raw with
      | [TyRaw], Some (rid, ts) =>
          cbind (resolve_value sc rid (VRaw ts) (Some TyRaw), 1%N) (fun sc' =>
          cret (Ok (sc', c0, [EValue rid (VRaw ts)])))
      | _, _ =>
          let arity_ok :=
            if is_variadic f then Nat.leb (num_args f) (length args)
            else Nat.eqb (num_args f) (length args) in
          if arity_ok then
            let fixed := non_variadic_arg_types f in
            cbind (cresolve_fixed fixed args (sc, c0, [])) (fun st =>
            match variadic_arg_type f with
            | Some t => cresolve_variadic t (skipn (length fixed) args) st
            | None => cret (Ok st)
            end)
          else cret (Err (SignatureError (f_name f)))
      end
  end.

(** resolve/call.rs 162-177. *)
Fixpoint ctry_candidates (fs : list func) (args : list (expr * cresolver))
  (raw : option (N * list tt)) (sc : scope) (expected : option ty) : counted (list candidate) :=
  match fs with
  | [] => cret (Ok [])
  | f :: fs' =>
      match cresolve_call_for_func f args raw sc expected with
      | (Ok (sc', cost, rargs), n) =>
          cbind (Ok Datatypes.tt, n) (fun _ =>
          cbind (ctry_candidates fs' args raw sc expected) (fun rest =>
          cret (Ok ((cost, sc', f, rargs) :: rest))))
      | (Err InternalError, n) => (Err InternalError, n)
      | (Err _, n) => cbind (Ok Datatypes.tt, n) (fun _ => ctry_candidates fs' args raw sc expected)
      | (Panic p, n) => (Panic p, n)
      end
  end.

Section Resolve.
Context (env : environment).

(** resolve/call.rs 143-206. *)
Definition cresolve_call (id : N) (name : str) (args : list (expr * cresolver))
  (raw : option (N * list tt)) (sc : scope) (expected : option ty) : counted scope :=
  match get_func_variants env name with
  | None => cret (Err (UndefinedFunctionError name))
  | Some fs =>
      cbind (ctry_candidates fs args raw sc expected) (fun cands =>
      cret match sort_by_key cands with
      | (cost, sc', f, rargs) :: _ =>
          Ok (set_call_meta sc' id
                {| cm_args := rargs; cm_func := f;
                   cm_target := match expected with Some t => t | None => f_out_type f end;
                   cm_cost := cost |})
      | [] => Err (SignatureError name)
      end)
  end.

(** resolve/expr.rs 9-19: the place that counts. *)
Fixpoint cresolve_expr (e : expr) : cresolver :=
  match e with
  | EValue id v => fun sc expected => (resolve_value sc id v expected, 1%N)
  | ECall id name args raw =>
      let rargs := map (fun a => (a, cresolve_expr a)) args in
      fun sc expected => let (r, n) := cresolve_call id name rargs raw sc expected in (r, (1 + n)%N)
  end.

(** resolve/alias_spec_item.rs 9-21 and resolve/alias_spec.rs 9-19. *)
Definition cresolve_item (sc : scope) (item : spec_item) : counted scope :=
  cbind (cresolve_expr (snd item) sc None) (fun sc' => cret (try_add_name sc' (fst item) (expr_id (snd item)))).
Fixpoint cresolve_items (sc : scope) (items : list spec_item) : counted scope :=
  match items with
  | [] => cret (Ok sc)
  | item :: rest => cbind (cresolve_item sc item) (fun sc' => cresolve_items sc' rest)
  end.
End Resolve.

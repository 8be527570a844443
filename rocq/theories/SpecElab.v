(** Specification of alias definitions: type-directed elaboration without node ids,
    scopes or side tables, followed by evaluation of the elaborated terms. *)
From Verif Require Import Base Token Types Values Ast Env.

(** Elaborated expressions: every node knows its final type, calls their overload. *)
Inductive texpr :=
| TEVal (v : value) (target : ty)
| TECall (f : func) (args : list texpr) (target : ty).

Definition target_of (t : texpr) : ty :=
  match t with TEVal _ t => t | TECall _ _ t => t end.

(** Types of the aliases defined so far, newest first. *)
Definition tenv := list (str * ty).

Definition static_type (G : tenv) (v : value) : ty :=
  match v with
  | VIdent x => match assoc_str x G with Some t => t | None => TyIdent end
  | _ => type_of v
  end.

(** The parameter type and cost multiplier for each of [n] arguments, if the overload
    takes [n] arguments. *)
Definition params (f : func) (n : nat) : option (list (ty * N)) :=
  let fixed := non_variadic_arg_types f in
  match variadic_arg_type f with
  | Some t =>
      if Nat.leb (num_args f) n
      then Some (map (fun t => (t, 1%N)) fixed ++ repeat (t, 2%N) (n - length fixed))
      else None
  | None => if Nat.eqb (num_args f) n then Some (map (fun t => (t, 1%N)) fixed) else None
  end.

(** What elaboration of an argument at an expected type gives. *)
Definition outcome := (texpr * N + error)%type.
Definition elaborator := option ty -> outcome.

Fixpoint elab_args (ps : list (ty * N)) (args : list elaborator) : option (N * list texpr) :=
  match ps, args with
  | (t, m) :: ps', a :: args' =>
      match a (Some t), elab_args ps' args' with
      | inl (te, c), Some (c', tes) => Some ((c * m + c')%N, te :: tes)
      | _, _ => None
      end
  | _, _ => Some (0%N, [])
  end.

(** Does an overload accept the arguments, and at which cost? *)
Definition elab_func (f : func) (args : list elaborator) (raw : option (list tt))
  (expected : option ty) : option (N * list texpr) :=
  match match expected with Some t => coercion_cost (f_out_type f) t | None => Some 0%N end with
  | None => None
  | Some c0 =>
      match f_arg_types f, raw with
      | [TyRaw], Some ts => Some (c0, [TEVal (VRaw ts) TyRaw])
      | _, _ =>
          match params f (length args) with
          | None => None
          | Some ps => match elab_args ps args with
                       | Some (c, tes) => Some ((c0 + c)%N, tes)
                       | None => None
                       end
          end
      end
  end.

(** Comparison of overloads: cost, then non-variadic first, then fewer parameters, then
    declaration order. *)
Definition better (a b : N * func) : Prop :=
  let '(c1, f1) := a in
  let '(c2, f2) := b in
  (c1 < c2)%N \/
  (c1 = c2 /\
   ((is_variadic f1 = false /\ is_variadic f2 = true) \/
    (is_variadic f1 = is_variadic f2 /\
     (num_args f1 < num_args f2 \/
      (num_args f1 = num_args f2 /\ (f_id f1 < f_id f2)%N))))).
Definition betterb (a b : N * func) : bool :=
  let '(c1, f1) := a in
  let '(c2, f2) := b in
  (c1 <? c2)%N ||
  ((c1 =? c2)%N &&
   ((negb (is_variadic f1) && is_variadic f2) ||
    (Bool.eqb (is_variadic f1) (is_variadic f2) &&
     ((num_args f1 <? num_args f2) ||
      ((num_args f1 =? num_args f2) && (f_id f1 <? f_id f2)%N))))).

(** All accepting overloads, and the best one (the first of equals). *)
Fixpoint viable (fs : list func) (args : list elaborator) (raw : option (list tt))
  (expected : option ty) : list (N * func * list texpr) :=
  match fs with
  | [] => []
  | f :: fs' =>
      match elab_func f args raw expected with
      | Some (c, tes) => (c, f, tes) :: viable fs' args raw expected
      | None => viable fs' args raw expected
      end
  end.
Fixpoint best (l : list (N * func * list texpr)) : option (N * func * list texpr) :=
  match l with
  | [] => None
  | x :: r =>
      match best r with
      | None => Some x
      | Some y => if betterb (fst y) (fst x) then Some y else Some x
      end
  end.

Section Elab.
Context (env : environment) (G : tenv).

Fixpoint elab (e : expr) : elaborator :=
  match e with
  | EValue _ v => fun expected =>
      let target := match expected with Some t => t | None => static_type G v end in
      match coercion_cost (static_type G v) target with
      | Some c => inl (TEVal v target, c)
      | None => inr TypeError
      end
  | ECall _ name args raw =>
      let eargs := map elab args in
      fun expected =>
        match get_func_variants env name with
        | None => inr (UndefinedFunctionError name)
        | Some fs =>
            match best (viable fs eargs (option_map snd raw) expected) with
            | None => inr (SignatureError name)
            | Some (c, f, tes) =>
                inl (TECall f tes (match expected with Some t => t | None => f_out_type f end), c)
            end
        end
  end.
End Elab.

(** The definitions of one combination, in order. *)
Fixpoint elab_items (env : environment) (G : tenv) (items : list spec_item)
  : res (list (str * texpr)) :=
  match items with
  | [] => Ok []
  | (name, e) :: rest =>
      match elab env G e None with
      | inr er => Err er
      | inl (te, _) =>
          match assoc_str name G with
          | Some _ => Err (RedefinedNameError name)
          | None => let! r := elab_items env ((name, target_of te) :: G) rest in Ok ((name, te) :: r)
          end
      end
  end.

(** The types of elaborated definitions, the last one first. *)
Definition tenv_of (tis : list (str * texpr)) : tenv :=
  rev (map (fun ti => (fst ti, target_of (snd ti))) tis).

Section Run.
Context (O : oracles) (seed : N).

Definition venv := list (str * value).

(** A value that cannot be coerced although typing said so would be a panic. *)
Definition coerced (r : res value) : res value :=
  match r with Err _ => Panic PCoercion | r => r end.

Fixpoint run (ctx : venv) (t : texpr) : res value :=
  match t with
  | TEVal v target =>
      let v' := match v with
                | VIdent x => match assoc_str x ctx with Some w => w | None => v end
                | _ => v
                end in
      coerced (try_cast O v' target)
  | TECall f args target =>
      let! vs := mapM (run ctx) args in
      let! r := f_impl f seed vs in
      try_cast O r target
  end.

Fixpoint run_items (ctx : venv) (items : list (str * texpr)) : res venv :=
  match items with
  | [] => Ok []
  | (name, te) :: rest =>
      let! v := run ctx te in
      let! bs := run_items ((name, v) :: ctx) rest in
      Ok ((name, v) :: bs)
  end.
End Run.

(** The bindings of one combination. *)
Definition bindings (O : oracles) (env : environment) (items : list spec_item) : res venv :=
  let! tis := elab_items env [] items in
  run_items O (e_seed env) [] tis.

Section texpr_ind'.
  Variable P : texpr -> Prop.
  Hypothesis Hv : forall v t, P (TEVal v t).
  Hypothesis Hc : forall f args t, Forall P args -> P (TECall f args t).
  Fixpoint texpr_ind' (e : texpr) : P e :=
    match e with
    | TEVal v t => Hv v t
    | TECall f args t =>
        Hc f args t
           ((fix go (l : list texpr) : Forall P l :=
               match l with
               | [] => Forall_nil P
               | x :: r => Forall_cons x (texpr_ind' x) (go r)
               end) args)
    end.
End texpr_ind'.

(** All node ids of an expression (fresh for every node the parser builds). *)
Fixpoint ids (e : expr) : list N :=
  match e with
  | EValue id _ => [id]
  | ECall id _ args raw =>
      id :: flat_map ids args ++ match raw with Some (rid, _) => [rid] | None => [] end
  end.
Definition item_ids (items : list spec_item) : list N := flat_map (fun it => ids (snd it)) items.

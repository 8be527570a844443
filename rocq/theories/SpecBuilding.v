(** Vocabulary for uses that build on the values of a use around them. *)
From Coq Require Import String.
From Verif Require Import Base Token Types Values Ast Env Item Deprecation Interpreter Parse Macro SpecPrograms SpecParse SpecElab SpecFormat SpecSubst SpecItem SpecDeprecation SpecMacro SpecRepro SpecNaming SpecNested.
Open Scope list_scope.

(** An expression with the values of aliases in the place of their names. *)
Definition put_value (f : str -> option value) (v : value) : value :=
  match v with VIdent x => match f x with Some w => w | None => v end | _ => v end.
Fixpoint put_in (O : oracles) (f : str -> option value) (e : expr) : expr :=
  match e with
  | EValue id v => EValue id (put_value f v)
  | ECall id name args raw => ECall id name (map (put_in O f) args) (option_map (fun r => (fst r, substituted O f (snd r))) raw)
  end.

(** What [raw] and [normalize] are given is not changed by this. *)
Fixpoint raw_kept (O : oracles) (f : str -> option value) (e : expr) : Prop :=
  match e with
  | EValue _ _ => True
  | ECall _ name args raw => (takes_raw name -> forall id ts, raw = Some (id, ts) -> substituted O f ts = ts) /\ fold_right and True (map (raw_kept O f) args)
  end.

(** The loops of the inner use mention no definition of the outer one (they may mention its loop
    variables), and these no loop variable of the inner one. *)
Definition built_on {B} (outer inner : raw_ast B) : Prop :=
  (forall l e it, In l (loops_of inner) -> In e (loop_exprs l) -> In it (own_items outer) -> ~ In (fst it) (mentions e)) /\
  (forall l x it, In l (loops_of inner) -> In x (pattern_aliases (loop_pattern l)) -> In it (own_items outer) -> ~ In x (mentions (snd it))).

(** The use that the compiler finds in the code made for the bindings [bs] of the outer one:
    they stand in its loops and definitions as in its block. *)
Definition remaining_on (O : oracles) (P : parsers) (flat header : raw_ast (list stmt)) (seed : N) (bs : venv) (u : use) : Prop :=
  let f := fun x => assoc_str x bs in
  raised (invocation_for O P u) = [] /\ (u_seed u = seed \/ hash_free flat) /\
  exists inner, p_ast (inv_parsed (invocation_for O P u)) = Ok (Some inner) /\
                ast_loops (erase_ast inner) = ast_loops (map_ast (put_in O f) header) /\ own_items (erase_ast inner) = own_items (map_ast (put_in O f) header) /\
                code inner = substituted O f (code flat).
Definition nested_on (O : oracles) (P : parsers) (T : list tt) (flat header : raw_ast (list stmt)) (seed : N) (bs : venv) (u : use) : Prop :=
  u_source u = Compose (substituted O (fun x => assoc_str x bs) T) /\ remaining_on O P flat header seed bs u.
Definition stacked_on (O : oracles) (P : parsers) (T item : list tt) (flat header : raw_ast (list stmt)) (seed : N) (bs : venv) (u : use) : Prop :=
  u_source u = ComposeItem (substituted O (fun x => assoc_str x bs) T) (substituted O (fun x => assoc_str x bs) item) /\ remaining_on O P flat header seed bs u.

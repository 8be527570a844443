(** Specification of how the substitution in a block ends: the parts of the block that are
    parsed again, in source order; the failure of a part; and with it the outcome of a use,
    failures included. *)
From Coq Require Import String Bool.
From Verif Require Import Base Token Types Values Ast Env Item Interpreter SpecElab SpecSubst SpecItem SpecMacro.
Open Scope list_scope.

Inductive failure := Fails (e : error) | Panics (p : panic).

(** What is replaced and parsed again on its own. *)
Inductive part :=
| PartNode (k : kind) (ts : list tt)
| PartName (x : str)
| PartAttributes (l : list attr)
| PartAbi (value suffix : str)
| PartStatement (ts : list tt).

Definition optional {A B} (f : A -> list B) (x : option A) : list B := match x with Some a => f a | None => [] end.
Definition field_parts (f : field) : list part :=
  [PartAttributes (f_attrs f); PartNode KVis (f_vis f)] ++ optional (fun x => [PartName x]) (f_ident f) ++ [PartNode KType (f_ty f)].
Definition fields_parts (f : fields) : list part :=
  match f with FNamed l _ | FUnnamed l _ => flat_map field_parts l | FUnit => [] end.
Definition variant_parts (v : variant) : list part :=
  [PartAttributes (v_attrs v); PartName (v_ident v)] ++ fields_parts (v_fields v) ++ optional (fun e => [PartNode KExpr e]) (v_disc v).
(** Attributes, visibility, name and generics. *)
Definition head_parts (a : list attr) (v : list tt) (x : str) (g : generics) : list part :=
  [PartAttributes a; PartNode KVis v; PartName x; PartNode KGenerics (g_params g)].

Fixpoint item_parts (i : item) : list part :=
  match i with
  | IFn a v s b => [PartAttributes a; PartNode KVis v; PartNode KSig s] ++ flat_map stmt_parts b
  | IStruct a v x g f => head_parts a v x g ++ fields_parts f
  | IEnum a v x g l _ => head_parts a v x g ++ flat_map variant_parts l
  | IUnion a v x g l _ => head_parts a v x g ++ flat_map field_parts l
  | ITrait a v _ _ x g s _ l => head_parts a v x g ++ map (PartNode KBound) s ++ flat_map trait_item_parts l
  | IImpl a _ _ g tr ty l =>
      [PartAttributes a; PartNode KGenerics (g_params g)] ++ optional (fun p => [PartNode KPath (snd p)]) tr ++
      [PartNode KType ty] ++ flat_map impl_item_parts l
  | IMod a v _ x c => [PartAttributes a; PartNode KVis v; PartName x] ++ match c with Some l => flat_map item_parts l | None => [] end
  | IForeign a _ abi l => [PartAttributes a] ++ optional (fun s => [PartAbi (fst s) (snd s)]) abi ++ map (PartNode KForeignItem) l
  | IOther ts => [PartNode KItem ts]
  end
with stmt_parts (s : stmt) : list part :=
  match s with
  | SItem (IOther ts) | SOther ts => [PartStatement ts]
  | SItem i => item_parts i
  end
with trait_item_parts (i : trait_item) : list part :=
  match i with
  | TFn a s b => [PartAttributes a; PartNode KSig s] ++ match b with Some l => flat_map stmt_parts l | None => [] end
  | TOther k ts => [PartNode k ts]
  end
with impl_item_parts (i : impl_item) : list part :=
  match i with
  | MFn a v _ s b => [PartAttributes a; PartNode KVis v; PartNode KSig s] ++ flat_map stmt_parts b
  | MOther k ts => [PartNode k ts]
  end.
Definition block_parts (l : list stmt) : list part := flat_map stmt_parts l.

Section Failure.
Context (O : oracles) (lookup : str -> option value) (reparse : kind -> list tt -> option (list tt)).

Definition accepted {N} (x : option N) : bool := match x with Some _ => true | None => false end.
(** Attributes: [#] and brackets around a meta, any number of times. *)
Fixpoint attributes_accepted (ts : list tt) : bool :=
  match ts with
  | [] => true
  | TPunct c _ :: TGroup Bracket m :: r => N.eqb c 35 && (accepted (reparse KMeta m) && attributes_accepted r)
  | _ => false
  end.

(** The first stage that is not accepted is blamed on the alias replaced last; if only string
    literals have been replaced, or if nothing was replaced and the part itself is not
    accepted, the macro panics. *)
Fixpoint stage_failure (accepts : list tt -> bool) (alias : option str) (l : list (option str * list tt)) (final : list tt) : option failure :=
  match l with
  | [] => if accepts final then None else Some (Panics PUnreachable)
  | (name, ts) :: r =>
      let alias := match name with Some x => Some x | None => alias end in
      if accepts ts then stage_failure accepts alias r final
      else Some (match alias with Some x => Fails (SubstitutionError x) | None => Panics PErrorData end)
  end.
Definition tokens_failure (accepts : list tt -> bool) (ts : list tt) : option failure :=
  stage_failure accepts None (substitution_stages O lookup ts) (substituted O lookup ts).

Definition part_failure (p : part) : option failure :=
  match p with
  | PartNode k ts => tokens_failure (fun ts => accepted (reparse k ts)) ts
  | PartName x => tokens_failure (fun ts => accepted (parse_ident O ts)) [TIdent x]
  | PartAttributes l => tokens_failure attributes_accepted (attrs_tokens l)
  | PartAbi v s => tokens_failure (fun ts => accepted (parse_lit_str O ts)) [TLit (LStr v s)]
  | PartStatement ts =>
      if accepted (reparse KBlock [TGroup Brace ts])
      then tokens_failure (fun ts => accepted (reparse KBlock ts)) [TGroup Brace ts] else Some (Panics PUnreachable)
  end.
Fixpoint first_part_failure (l : list part) : option failure :=
  match l with
  | [] => None
  | p :: r => match part_failure p with Some f => Some f | None => first_part_failure r end
  end.
End Failure.

Definition ends_with {A} (f : option failure) (a : A) : res A :=
  match f with None => Ok a | Some (Fails e) => Err e | Some (Panics p) => Panic p end.

(** The meaning of a use ([meaning] in SpecMacro) with the failures of substitution. *)
Definition round_outcome (O : oracles) (reparse : kind -> list tt -> option (list tt)) (env : environment) (block : list stmt)
    (items : list spec_item) : res (list tt) :=
  let! bs := bindings O env items in
  let lookup x := assoc_str x bs in
  ends_with (first_part_failure O lookup reparse (block_parts block)) (substituted O lookup (block_tokens (map drop_where_stmt block))).
Definition exact_meaning (O : oracles) (reparse : kind -> list tt -> option (list tt)) (env : environment) (finish : list tt -> list tt)
    (ast : raw_ast (list stmt)) : res (list tt) :=
  match all_some (rounds ast) with
  | None => Err TypeError
  | Some rs => let! codes := mapM (round_outcome O reparse env (ast_block ast)) rs in Ok (concat (map finish codes))
  end.

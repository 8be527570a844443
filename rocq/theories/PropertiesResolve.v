(** C06-C10, C12: name and overload resolution of alias definitions.  Node ids are
    distinct within the definitions of one combination ([NoDup (item_ids ..)]): the parser
    draws a new id for every node. *)
From Coq Require Import String.
From Verif Require Import Base Token Types SpecTypes Values Ast Env Resolve Eval SpecElab SpecScope SpecPrograms SpecCalls ElabProofs ElabFacts ResolveFacts Concrete ConcreteSpecs.
Open Scope list_scope.

(** C06 *)
Theorem C06_redefinition_iff_duplicate : forall O seed n spec x,
  NoDup (item_ids (spec_items spec)) ->
  (make_substitutions O (new_initialized O seed n) spec = Err (RedefinedNameError x) <->
   exists pre e post sc sc',
     spec_items spec = pre ++ (x, e) :: post /\ In x (map fst pre) /\
     resolve_items (new_initialized O seed n) empty_scope pre = Ok sc /\
     resolve_expr (new_initialized O seed n) e sc None = Ok sc').
Proof. exact redefined_iff. Qed.
Print Assumptions C06_redefinition_iff_duplicate.

Theorem C06_distinct_names_never_rejected : forall O seed n spec x,
  NoDup (item_ids (spec_items spec)) -> NoDup (map fst (spec_items spec)) ->
  make_substitutions O (new_initialized O seed n) spec <> Err (RedefinedNameError x).
Proof. exact distinct_never. Qed.
Print Assumptions C06_distinct_names_never_rejected.

Theorem C06_success_means_distinct : forall O env spec bs,
  NoDup (item_ids (spec_items spec)) -> make_substitutions O env spec = Ok bs ->
  NoDup (map fst (spec_items spec)) /\ map fst bs = map fst (spec_items spec).
Proof. exact success_distinct. Qed.
Print Assumptions C06_success_means_distinct.

Example C06_example :
  let items := [(txt "a", id_ 1 "x"); (txt "b", ECall 2 (txt "upper") [id_ 3 "a"] None); (txt "a", id_ 4 "y")] in
  make_substitutions ascii env0 (spec_of items) = Err (RedefinedNameError (txt "a")) /\
  make_substitutions ascii env0 (spec_of (firstn 2 items)) =
    Ok [(txt "a", VIdent (txt "x")); (txt "b", VIdent (txt "X"))].
Proof. split; vm_compute; reflexivity. Qed.

(** C07 *)
Theorem C07_later_definitions_do_not_matter : forall O env c c' pre post bs,
  NoDup (item_ids (pre ++ post)) ->
  make_substitutions O env {| spec_items := pre ++ post; is_comma_used := c |} = Ok bs ->
  make_substitutions O env {| spec_items := pre; is_comma_used := c' |} = Ok (firstn (List.length pre) bs).
Proof. exact prefix_stable. Qed.
Print Assumptions C07_later_definitions_do_not_matter.

(** An expression that mentions no earlier alias evaluates as if it stood alone; its own
    name and later names may occur in it. *)
Theorem C07_unmentioned_definitions_do_not_matter : forall O env c c' pre a e bs v,
  NoDup (item_ids (pre ++ [(a, e)])) ->
  (forall x, In x (mentions e) -> ~ In x (map fst pre)) ->
  make_substitutions O env {| spec_items := pre ++ [(a, e)]; is_comma_used := c |} = Ok (bs ++ [(a, v)]) ->
  make_substitutions O env {| spec_items := [(a, e)]; is_comma_used := c' |} = Ok [(a, v)].
Proof. exact unmentioned. Qed.
Print Assumptions C07_unmentioned_definitions_do_not_matter.

(** A plain value is replaced by an earlier alias's value, otherwise it stands for itself. *)
Theorem C07_plain_value : forall O seed n pre a id v bs c c',
  NoDup (item_ids (pre ++ [(a, EValue id v)])) -> ~ In a (map fst pre) ->
  make_substitutions O (new_initialized O seed n) {| spec_items := pre; is_comma_used := c |} = Ok bs ->
  make_substitutions O (new_initialized O seed n)
    {| spec_items := pre ++ [(a, EValue id v)]; is_comma_used := c' |} =
  Ok (bs ++ [(a, lookup_value bs v)]).
Proof. exact plain_call. Qed.
Print Assumptions C07_plain_value.

Example C07_example :
  make_substitutions ascii env0
    (spec_of [(txt "a", id_ 1 "b"); (txt "c", id_ 2 "c"); (txt "b", id_ 3 "a"); (txt "d", id_ 4 "b")]) =
  Ok [(txt "a", VIdent (txt "b")); (txt "c", VIdent (txt "c")); (txt "b", VIdent (txt "b")); (txt "d", VIdent (txt "b"))].
Proof. vm_compute. reflexivity. Qed.

(** C08: the phases with their scopes, metadata and candidate lists compute the
    elaboration semantics of SpecElab.v. *)
Theorem C08_definitions_follow_elaboration : forall O env spec,
  NoDup (item_ids (spec_items spec)) ->
  make_substitutions O env spec = bindings O env (spec_items spec).
Proof. exact make_substitutions_spec. Qed.
Print Assumptions C08_definitions_follow_elaboration.

(** The recorded overload accepts the arguments at the recorded cost, and every other
    accepting overload is worse; failure means that no overload accepts them. *)
Theorem C08_best_overload : forall env G sc id name args raw ex fs,
  ready G sc (ECall id name args raw) -> get_func_variants env name = Some fs -> NoDup (map f_id fs) ->
  let accepts f := elab_func f (map (elab env G) args) (option_map snd raw) ex in
  (forall sc', resolve_expr env (ECall id name args raw) sc ex = Ok sc' ->
    exists m tes, assoc_N id (sc_calls sc') = Some m /\ In (cm_func m) fs /\
      accepts (cm_func m) = Some (cm_cost m, tes) /\
      forall g d tes', In g fs -> accepts g = Some (d, tes') -> g = cm_func m \/ better (cm_cost m, cm_func m) (d, g)) /\
  (forall er, resolve_expr env (ECall id name args raw) sc ex = Err er <->
    er = SignatureError name /\ forall f, In f fs -> accepts f = None).
Proof. exact call_resolution. Qed.
Print Assumptions C08_best_overload.

(** Its hypotheses hold wherever a definition is resolved, and for the built-in table. *)
Theorem C08_ready_after_prefix : forall env pre a e sc,
  NoDup (item_ids (pre ++ [(a, e)])) -> resolve_items env empty_scope pre = Ok sc ->
  exists tis, elab_items env [] pre = Ok tis /\ ready (tenv_of tis) sc e.
Proof. exact ready_after. Qed.
Print Assumptions C08_ready_after_prefix.

Theorem C08_builtin_ids_distinct : forall O seed n, distinct_ids (new_initialized O seed n).
Proof. exact builtin_ids. Qed.
Print Assumptions C08_builtin_ids_distinct.

Theorem C08_order_of_overloads_irrelevant : forall O env env' spec,
  reordered env env' -> distinct_ids env -> NoDup (item_ids (spec_items spec)) ->
  make_substitutions O env spec = make_substitutions O env' spec.
Proof. exact make_subst_reordered. Qed.
Print Assumptions C08_order_of_overloads_irrelevant.

Example C08_example :
  let e := ECall 1 (txt "concat") [id_ 2 "a"; EValue 3 (VLitInt (txt "1") (txt "1"))] None in
  ready [] empty_scope e /\
  match resolve_expr env0 e empty_scope None with
  | Ok sc => match assoc_N 1 (sc_calls sc) with
             | Some m => cm_cost m = 8%N /\ f_arg_types (cm_func m) = [TyIdent; TyVariadic TyTokens]
             | None => False
             end
  | _ => False
  end /\
  resolve_expr env0 (ECall 1 (txt "upper") [] None) empty_scope None = Err (SignatureError (txt "upper")).
Proof.
  split; [|vm_compute; repeat split].
  repeat split; [constructor| |intros ? []]. cbn.
  repeat constructor; cbn; intuition discriminate.
Qed.

(** C09 *)
Theorem C09_renumbering : forall O env rho spec spec',
  order_preserving rho ->
  NoDup (item_ids (spec_items spec)) -> NoDup (item_ids (spec_items spec')) ->
  erase_items (spec_items spec) = erase_items (spec_items spec') ->
  make_substitutions O env spec = make_substitutions O (renumber rho env) spec'.
Proof. exact make_subst_renumber. Qed.
Print Assumptions C09_renumbering.

Theorem C09_invocations_agree : forall O seed n n' spec spec',
  NoDup (item_ids (spec_items spec)) -> NoDup (item_ids (spec_items spec')) ->
  erase_items (spec_items spec) = erase_items (spec_items spec') ->
  make_substitutions O (new_initialized O seed n) spec = make_substitutions O (new_initialized O seed n') spec'.
Proof. exact invocations_agree. Qed.
Print Assumptions C09_invocations_agree.

Example C09_example :
  let items k := [(txt "a", ECall k (txt "concat") [id_ (k + 1) "x"; id_ (k + 2) "y"] (Some ((k + 3)%N, [])))] in
  erase_items (items 1%N) = erase_items (items 50%N) /\
  make_substitutions ascii (new_initialized ascii 7 100) (spec_of (items 1%N)) = Ok [(txt "a", VIdent (txt "xy"))] /\
  make_substitutions ascii (new_initialized ascii 7 3) (spec_of (items 50%N)) = Ok [(txt "a", VIdent (txt "xy"))].
Proof. repeat split; vm_compute; reflexivity. Qed.

(** C10 *)
Theorem C10_types_decide : forall env G G' sc sc' e e' ex,
  ready G sc e -> ready G' sc' e' -> similar G G' e e' ->
  match resolve_expr env e sc ex, resolve_expr env e' sc' ex with
  | Ok s, Ok s' => recorded_cost s e = recorded_cost s' e' /\
                   exists te te', encodes s te e /\ encodes s' te' e' /\ same_plan te te'
  | Err a, Err b => a = b
  | _, _ => False
  end.
Proof. exact types_only. Qed.
Print Assumptions C10_types_decide.

Theorem C10_types_decide_definitions : forall env items items',
  NoDup (item_ids items) -> NoDup (item_ids items') -> similar_items [] items items' ->
  match resolve_items env empty_scope items, resolve_items env empty_scope items' with
  | Ok s, Ok s' => exists tis tis',
      Forall2 (fun it ti => fst it = fst ti /\ encodes s (snd ti) (snd it)) items tis /\
      Forall2 (fun it ti => fst it = fst ti /\ encodes s' (snd ti) (snd it)) items' tis' /\
      Forall2 (fun a b => fst a = fst b /\ same_plan (snd a) (snd b)) tis tis'
  | Err a, Err b => a = b
  | _, _ => False
  end.
Proof. exact types_only_items. Qed.
Print Assumptions C10_types_decide_definitions.

(** A value's recorded coercion is the documented one, and a type error means there is none. *)
Theorem C10_documented_coercion : forall env G sc id v ex,
  ready G sc (EValue id v) ->
  let target := match ex with Some t => t | None => static_type G v end in
  match resolve_expr env (EValue id v) sc ex with
  | Ok sc' => exists c, assoc_N id (sc_values sc') = Some {| vm_target := target; vm_cost := c |} /\
                        coerces_param (static_type G v) target c
  | Err er => er = TypeError /\ forall c, ~ coerces_param (static_type G v) target c
  | Panic _ => False
  end.
Proof. exact leaf_coercion. Qed.
Print Assumptions C10_documented_coercion.

Example C10_example :
  similar_items []
    [(txt "a", EValue 1 (VLitStr (txt "x") [])); (txt "b", ECall 2 (txt "upper") [id_ 3 "a"] None)]
    [(txt "a", EValue 1 (VLitStr (txt "other") [])); (txt "b", ECall 2 (txt "upper") [id_ 3 "a"] None)] /\
  make_substitutions ascii env0 (spec_of
    [(txt "a", EValue 1 (VLitStr (txt "other") [])); (txt "b", ECall 2 (txt "upper") [id_ 3 "a"] None)]) =
  Ok [(txt "a", VLitStr (txt "other") []); (txt "b", VLitStr (txt "OTHER") [])].
Proof.
  split; [|vm_compute; reflexivity].
  constructor; [constructor; reflexivity|]. intros t. constructor; [|intros; constructor].
  constructor; [|tauto]. constructor; [|constructor]. constructor. reflexivity.
Qed.

(** C12 *)
Theorem C12_resolved_definitions_evaluate : forall O seed n spec sc,
  NoDup (item_ids (spec_items spec)) ->
  resolve_items (new_initialized O seed n) empty_scope (spec_items spec) = Ok sc ->
  match make_substitutions O (new_initialized O seed n) spec with
  | Ok bs => Forall2 (fun it b => fst it = fst b /\
               exists te, encodes sc te (snd it) /\ type_of (snd b) = target_of te) (spec_items spec) bs
  | Err e => e = TypeError \/ e = EvalError
  | Panic p => p = PIdentNew \/ p = PLitNew
  end.
Proof. exact well_typed_evaluation. Qed.
Print Assumptions C12_resolved_definitions_evaluate.

(** All five outcomes occur. *)
Example C12_example :
  make_substitutions ascii env0 (spec_of [(txt "a", ECall 1 (txt "upper") [id_ 2 "x"] None)]) = Ok [(txt "a", VIdent (txt "X"))] /\
  make_substitutions ascii env0 (spec_of [(txt "a", ECall 1 (txt "to_int") [id_ 2 "x"] None)]) = Err TypeError /\
  make_substitutions ascii env0 (spec_of [(txt "a", ECall 1 (txt "concat") [id_ 2 "x"; EValue 3 (VTokens colons)] None)]) = Err EvalError /\
  make_substitutions ascii env0 (spec_of [(txt "a", ECall 1 (txt "pascal_case") [id_ 2 "_1"] None)]) = Panic PIdentNew /\
  make_substitutions ascii env0 (spec_of [(txt "a", ECall 1 (txt "concat")
     [EValue 2 (VLitInt (txt "1") (txt "1")); EValue 3 (VLitInt (txt "-2") (txt "-2"))] None)]) = Panic PLitNew.
Proof. repeat split; vm_compute; reflexivity. Qed.

(** C70: nested calls mean what the table of functions says of the values of their arguments.
    [independent_items], [first_misfit] and [denote_items] are in SpecNesting, the table
    [call_meaning] in SpecFunctions, [expanded_items] in SpecNaming. *)
From Coq Require Import String.
From Verif Require Import Base Token Types Values Ast Env Eval SpecPrograms SpecElab SpecCalls SpecFunctions SpecNaming SpecNesting
  NestingRuns NestingLaws Concrete ConcreteSpecs ConcreteRuns.
Open Scope list_scope.

(** Definitions in which no call depends on what is wanted of it: the first one that does not
    fit is an error, and otherwise each has the value of its expression, computed from the
    inside out.  Conversions and overloads play no role. *)
Theorem C70_definitions : forall O seed first_id spec,
  NoDup (item_ids (spec_items spec)) -> independent_items [] (spec_items spec) = true ->
  make_substitutions O (new_initialized O seed first_id) spec =
  match first_misfit [] (spec_items spec) with Some er => Err er | None => denote_items O seed [] (spec_items spec) end.
Proof. exact definitions_mean. Qed.
Print Assumptions C70_definitions.

(** [a = upper(concat(x, to_path(y), 1)), b = concat(to_str(a), "s"), c = concat(concat(a, x), normalize2(lower(a)))]. *)
Example C70_example :
  let items :=
    [ (txt "a", ECall 0 (txt "upper") [ECall 1 (txt "concat") [id_ 2 "x"; ECall 3 (txt "to_path") [id_ 4 "y"] None; EValue 5 (VLitInt (txt "1") (txt "1"))] None] None);
      (txt "b", ECall 6 (txt "concat") [ECall 7 (txt "to_str") [id_ 8 "a"] None; EValue 9 (VLitStr (txt "s") [])] None);
      (txt "c", ECall 10 (txt "concat") [ECall 11 (txt "concat") [id_ 12 "a"; id_ 13 "x"] None; ECall 14 (txt "normalize2") [ECall 15 (txt "lower") [id_ 16 "a"] None] None] None) ] in
  NoDup (item_ids items) /\ independent_items [] items = true /\ first_misfit [] items = None /\
  denote_items ascii 7 [] items = Ok [(txt "a", VIdent (txt "XY1")); (txt "b", VLitStr (txt "XY1s") []); (txt "c", VIdent (txt "XY1xxy1"))].
Proof.
  cbv zeta. split; [vm_compute; repeat constructor; cbn; intuition discriminate|]. repeat split; vm_compute; reflexivity.
Qed.

(** A call that does not fit, inside of another: the outermost call of the definition is
    blamed.  [a = concat(x, upper(1))]. *)
Example C70_misfit_example :
  let items := [ (txt "a", ECall 0 (txt "concat") [id_ 1 "x"; ECall 2 (txt "upper") [EValue 3 (VLitInt (txt "1") (txt "1"))] None] None) ] in
  independent_items [] items = true /\ first_misfit [] items = Some (SignatureError (txt "concat")) /\
  make_substitutions ascii env0 (spec_of items) = Err (SignatureError (txt "concat")).
Proof. repeat split; vm_compute; reflexivity. Qed.

(** The first exception: [hash] of a string is a string, or an identifier where one is wanted.
    [a = concat(x, hash("s"))]. *)
Theorem C70_hash_refuted : exists items,
  NoDup (item_ids items) /\ first_misfit [] items = None /\ denote_items ascii 7 [] items = Err EvalError /\
  exists x, make_substitutions ascii env0 (spec_of items) = Ok [(txt "a", VIdent x)].
Proof.
  exists [ (txt "a", ECall 0 (txt "concat") [id_ 1 "x"; ECall 2 (txt "hash") [EValue 3 (VLitStr (txt "s") [])] None] None) ].
  split; [vm_compute; repeat constructor; cbn; intuition discriminate|]. split; [vm_compute; reflexivity|]. split; [vm_compute; reflexivity|].
  eexists. vm_compute. reflexivity.
Qed.
Print Assumptions C70_hash_refuted.

(** The second exception: [concat] of identifiers the first of which needs many conversions.
    It is cheaper to convert the others to tokens than to count those conversions twice, so the
    overload for an identifier and tokens is chosen, which does not accept keywords:
    [a = concat(concat(w, to_path(hil)), e)] is an error, but [b = concat(w, to_path(hil)), a =
    concat(b, e)] composes [while]. *)
Theorem C70_cost_refuted : exists inner,
  let items := [ (txt "a", ECall 10 (txt "concat") [inner; id_ 11 "e"] None) ] in
  let named := [ (txt "b", inner); (txt "a", ECall 10 (txt "concat") [id_ 12 "b"; id_ 11 "e"] None) ] in
  first_misfit [] items = None /\ denote_items ascii 7 [] items = Ok [(txt "a", VIdent (txt "while"))] /\
  make_substitutions ascii env0 (spec_of items) = Err EvalError /\
  make_substitutions ascii env0 (spec_of named) = Ok [(txt "b", VIdent (txt "whil")); (txt "a", VIdent (txt "while"))].
Proof.
  exists (ECall 0 (txt "concat") [id_ 1 "w"; ECall 2 (txt "to_path") [id_ 3 "hil"] None] None).
  repeat split; vm_compute; reflexivity.
Qed.
Print Assumptions C70_cost_refuted.

(** Giving a call a name, or writing it out where the name is used, makes no difference in
    such definitions, with conversions or without. *)
Theorem C70_naming : forall O seed first_id pre a d post post' c,
  NoDup (item_ids (pre ++ (a, d) :: post)) -> NoDup (item_ids (pre ++ (a, d) :: post')) ->
  independent_items [] (pre ++ (a, d) :: post) = true -> independent_items [] (pre ++ (a, d) :: post') = true ->
  expanded_items a d post post' -> (forall y, In y (mentions d) -> y <> a /\ ~ In y (map fst post)) ->
  make_substitutions O (new_initialized O seed first_id) {| spec_items := pre ++ (a, d) :: post; is_comma_used := c |} =
  make_substitutions O (new_initialized O seed first_id) {| spec_items := pre ++ (a, d) :: post'; is_comma_used := c |}.
Proof. exact naming_independent. Qed.
Print Assumptions C70_naming.

(** [a = concat(x, to_path(y)), b = concat(z, a)] and [..., b = concat(z, concat(x, to_path(y)))]. *)
Example C70_naming_example :
  let d k := ECall k (txt "concat") [id_ (k + 1) "x"; ECall (k + 2) (txt "to_path") [id_ (k + 3) "y"] None] None in
  let named := [(txt "a", d 0%N); (txt "b", ECall 10 (txt "concat") [id_ 11 "z"; id_ 12 "a"] None)] in
  let inline := [(txt "a", d 0%N); (txt "b", ECall 10 (txt "concat") [id_ 11 "z"; d 20%N] None)] in
  independent_items [] named = true /\ independent_items [] inline = true /\
  make_substitutions ascii env0 (spec_of named) = Ok [(txt "a", VIdent (txt "xy")); (txt "b", VIdent (txt "zxy"))] /\
  make_substitutions ascii env0 (spec_of inline) = Ok [(txt "a", VIdent (txt "xy")); (txt "b", VIdent (txt "zxy"))].
Proof. repeat split; vm_compute; reflexivity. Qed.

(** Expressions of the same kind and meaning may be exchanged. *)
Theorem C70_exchange : forall O seed first_id pre a e e' post c c',
  NoDup (item_ids (pre ++ (a, e) :: post)) -> NoDup (item_ids (pre ++ (a, e') :: post)) ->
  independent_items [] (pre ++ (a, e) :: post) = true -> independent_items [] (pre ++ (a, e') :: post) = true ->
  (forall G, types_after [] pre = Some G -> kind G e = kind G e' /\ (kind G e = None -> misfit e = misfit e')) ->
  (forall bs, denote_items O seed [] pre = Ok bs -> denote O seed bs e = denote O seed bs e') ->
  make_substitutions O (new_initialized O seed first_id) {| spec_items := pre ++ (a, e) :: post; is_comma_used := c |} =
  make_substitutions O (new_initialized O seed first_id) {| spec_items := pre ++ (a, e') :: post; is_comma_used := c' |}.
Proof. exact exchange_meaning. Qed.
Print Assumptions C70_exchange.

(** [x = to_ident("fOo"), a = lower(upper(x))] and [..., a = lower(x)]. *)
Example C70_exchange_example :
  let pre := [(txt "x", ECall 0 (txt "to_ident") [EValue 1 (VLitStr (txt "fOo") [])] None)] in
  let e := ECall 2 (txt "lower") [ECall 3 (txt "upper") [id_ 4 "x"] None] None in
  let e' := ECall 2 (txt "lower") [id_ 4 "x"] None in
  independent_items [] (pre ++ [(txt "a", e)]) = true /\ independent_items [] (pre ++ [(txt "a", e')]) = true /\
  types_after [] pre = Some [(txt "x", TyIdent)] /\ kind [(txt "x", TyIdent)] e = Some TyIdent /\ kind [(txt "x", TyIdent)] e' = Some TyIdent /\
  denote_items ascii 7 [] pre = Ok [(txt "x", VIdent (txt "fOo"))] /\
  denote ascii 7 [(txt "x", VIdent (txt "fOo"))] e = Ok (VIdent (txt "foo")) /\ denote ascii 7 [(txt "x", VIdent (txt "fOo"))] e' = Ok (VIdent (txt "foo")).
Proof. repeat split; vm_compute; reflexivity. Qed.

(** [concat] within [concat] may be written as one, for strings, and for identifiers if what is
    inside composes one. *)
Theorem C70_concat_flat : forall O seed first_id pre a post xs ys zs i j raw raw' raw'' t c c',
  let nested := ECall i (txt "concat") (xs ++ ECall j (txt "concat") ys raw' :: zs) raw in
  let flat := ECall i (txt "concat") (xs ++ ys ++ zs) raw'' in
  NoDup (item_ids (pre ++ (a, nested) :: post)) -> NoDup (item_ids (pre ++ (a, flat) :: post)) ->
  independent_items [] (pre ++ (a, nested) :: post) = true -> independent_items [] (pre ++ (a, flat) :: post) = true ->
  ys <> [] -> (forall G, types_after [] pre = Some G -> Forall (fun e => kind G e = Some t) (xs ++ ys ++ zs)) ->
  t = TyLitStr \/ t = TyIdent /\ (forall bs vs, denote_items O seed [] pre = Ok bs -> mapM (denote O seed bs) ys = Ok vs -> exists w, concat_meaning O vs = Ok w) ->
  make_substitutions O (new_initialized O seed first_id) {| spec_items := pre ++ (a, nested) :: post; is_comma_used := c |} =
  make_substitutions O (new_initialized O seed first_id) {| spec_items := pre ++ (a, flat) :: post; is_comma_used := c' |}.
Proof. exact concat_flat. Qed.
Print Assumptions C70_concat_flat.

(** [a = concat(concat(x, y), upper(z))] and [a = concat(x, y, upper(z))]. *)
Example C70_flat_example :
  let up := ECall 3 (txt "upper") [id_ 4 "z"] None in
  let nested := [(txt "a", ECall 0 (txt "concat") [ECall 1 (txt "concat") [id_ 2 "x"; id_ 5 "y"] None; up] None)] in
  let flat := [(txt "a", ECall 0 (txt "concat") [id_ 2 "x"; id_ 5 "y"; up] None)] in
  independent_items [] nested = true /\ independent_items [] flat = true /\
  make_substitutions ascii env0 (spec_of nested) = Ok [(txt "a", VIdent (txt "xyZ"))] /\
  make_substitutions ascii env0 (spec_of flat) = Ok [(txt "a", VIdent (txt "xyZ"))].
Proof. repeat split; vm_compute; reflexivity. Qed.

(** Not for arguments of different kinds: [concat("a", concat(b, c))] is the tokens ["a" bc],
    [concat("a", b, c)] is ["a" b c]. *)
Theorem C70_flat_kinds_refuted : exists s,
  let nested := [(txt "a", ECall 0 (txt "concat") [EValue 1 s; ECall 2 (txt "concat") [id_ 3 "b"; id_ 4 "c"] None] None)] in
  let flat := [(txt "a", ECall 0 (txt "concat") [EValue 1 s; id_ 3 "b"; id_ 4 "c"] None)] in
  independent_items [] nested = true /\ independent_items [] flat = true /\
  make_substitutions ascii env0 (spec_of nested) <> make_substitutions ascii env0 (spec_of flat).
Proof.
  exists (VLitStr (txt "a") []). split; [vm_compute; reflexivity|]. split; [vm_compute; reflexivity|]. vm_compute. discriminate.
Qed.
Print Assumptions C70_flat_kinds_refuted.

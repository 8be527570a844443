(** C30, C31 and C37.  The specifications are in SpecParse; [ascii_parsers], [compose0] and
    [compose_item0] (the result of parsing, if any) in ConcreteParse. *)
From Coq Require Import String.
From Verif Require Import Base Token Types Values Ast Env Resolve Eval Item Expand Deprecation Interpreter Parse Macro TokenDistance
  SpecElab SpecDistance SpecSubst SpecParse DistanceProofs ParseProofs ParseIds SeparatorProofs MacroProofs
  Concrete ConcreteSpecs ConcreteRuns ConcreteParse.
Open Scope list_scope.

(** C30: the list part of a macro's input is accepted exactly if it is a list of
    definitions with one kind of separator. *)
Theorem C30_lists : forall P hf n ts items used rest u,
  (exists n', parse_spec P hf (map (ann P hf) ts) None None n = (n', Some (items, used, map (ann P hf) rest, u))) <->
  exists c trailing, definition_list P hf c n ts items trailing u rest /\
    used = (if trailing : bool then Some c else match items with [_] => None | _ => Some c end).
Proof. exact list_iff. Qed.
Print Assumptions C30_lists.

(** Partial: the values must be such that the value parser stops at the separator.  Calls of
    the built-in functions are (for both separators); other values are, for commas, if the
    external parsers stop there; for semicolons they are not: C30_refuted. *)
Theorem C30_accepted_partial : forall P hf c n ds body block trailing,
  let end_ := if trailing : bool then [sep c] else [] in
  ident_allowed P (txt "for") = false -> ds <> [] ->
  Forall (fun d => ident_allowed P (fst d) = true /\ stands_alone P hf (before c) (snd d)) ds ->
  pre_block P (TGroup Brace body :: end_) = Some (block, 1, false) ->
  exists items, Forall2 (value_of P hf c) ds items /\
    p_ast (parse_func_macro P hf n (list_text c ds ++ sep c :: TGroup Brace body :: end_)) =
    Ok (Some {| ast_loops := None; ast_spec := Some {| spec_items := items; is_comma_used := Some c |}; ast_block := block |}).
Proof. exact func_list. Qed.
Print Assumptions C30_accepted_partial.

Theorem C30_accepted_item_partial : forall P hf c n ds item block trailing,
  ident_allowed P (txt "for") = false -> ds <> [] ->
  Forall (fun d => ident_allowed P (fst d) = true /\ stands_alone P hf (before c) (snd d)) ds ->
  pre_block P [TGroup Brace item] = Some (block, 1, false) ->
  exists items used, Forall2 (value_of P hf c) ds items /\
    p_ast (parse_attr_macro P hf n (list_text c ds ++ (if trailing : bool then [sep c] else [])) item) =
    Ok (Some {| ast_loops := None; ast_spec := Some {| spec_items := items; is_comma_used := used |}; ast_block := block |}).
Proof. exact attr_list. Qed.
Print Assumptions C30_accepted_item_partial.

Theorem C30_calls_stand_alone : forall P hf f args follow, ident_allowed P f = true -> hf f = true ->
  stands_alone P hf follow [TIdent f; TGroup Paren args].
Proof. exact call_alone. Qed.
Print Assumptions C30_calls_stand_alone.

(** Two definitions or more, then the other separator. *)
Theorem C30_mixed_rejected : forall P hf c ds rest n, ident_allowed P (txt "for") = false -> 2 <= List.length ds ->
  Forall (fun d => ident_allowed P (fst d) = true /\
                   stands_alone P hf (fun r => before true r \/ before false r) (snd d)) ds ->
  p_ast (parse_func_macro P hf n (list_text c ds ++ sep (negb c) :: rest)) = Ok None /\
  (forall item, p_ast (parse_attr_macro P hf n (list_text c ds ++ sep (negb c) :: rest) item) = Ok None).
Proof. exact func_mixed. Qed.
Print Assumptions C30_mixed_rejected.

(** The other separator only after the block. *)
Theorem C30_trailing_rejected : forall P hf c n ds body rest block,
  ident_allowed P (txt "for") = false -> ds <> [] ->
  Forall (fun d => ident_allowed P (fst d) = true /\ stands_alone P hf (before c) (snd d)) ds ->
  pre_block P (TGroup Brace body :: sep (negb c) :: rest) = Some (block, 1, false) ->
  p_ast (parse_func_macro P hf n (list_text c ds ++ sep c :: TGroup Brace body :: sep (negb c) :: rest)) = Ok None.
Proof. exact func_list_trailing_mixed. Qed.
Print Assumptions C30_trailing_rejected.

(** [a = concat(x, y); b = upper(z); { fn a() {} };] *)
Example C30_example : let ds := [(txt "a", [i "concat"; paren [i "x"; p1 ","; i "y"]]); (txt "b", [i "upper"; paren [i "z"]])] in
  Forall (fun d => ident_allowed ascii_parsers (fst d) = true /\ stands_alone ascii_parsers known0 (before false) (snd d)) ds /\
  exists items, compose0 (list_text false ds ++ [sep false; brace (fn_named "a"); sep false]) =
    Some {| ast_loops := None; ast_spec := Some {| spec_items := items; is_comma_used := Some false |}; ast_block := [fn_stmt "a"] |} /\
    map fst items = [txt "a"; txt "b"].
Proof.
  cbv zeta. split.
  - repeat (constructor; [split; [reflexivity|apply call_alone; reflexivity]|]). constructor.
  - eexists. split; [vm_compute; reflexivity|reflexivity].
Qed.
(** [a = x, b = y, { fn a() {} }] and the same with a semicolon at either place. *)
Example C30_example_commas :
  (exists ast, compose0 [i "a"; p1 "="; i "x"; p1 ","; i "b"; p1 "="; i "y"; p1 ","; brace (fn_named "a")] = Some ast) /\
  compose0 [i "a"; p1 "="; i "x"; p1 ","; i "b"; p1 "="; i "y"; p1 ";"; brace (fn_named "a")] = None /\
  compose0 [i "a"; p1 "="; i "x"; p1 ","; i "b"; p1 "="; i "y"; p1 ","; brace (fn_named "a"); p1 ";"] = None.
Proof. split; [eexists|split]; vm_compute; reflexivity. Qed.

(** A list of ordinary values separated by semicolons, [a = x; b = y; { fn a() {} }], is
    rejected, and in compose_item [a = x; b = y] defines one alias. *)
Theorem C30_refuted :
  exists ds, 2 <= List.length ds /\
    Forall (fun d => ident_allowed ascii_parsers (fst d) = true /\ exists x, snd d = [TIdent x] /\ ident_allowed ascii_parsers x = true) ds /\
    compose0 (list_text false ds ++ [sep false; brace (fn_named "a")]) = None /\
    compose0 (list_text true ds ++ [sep true; brace (fn_named "a")]) <> None /\
    exists ast items, compose_item0 (list_text false ds) (fn_named "a") = Some ast /\
      ast_spec ast = Some items /\ map fst (spec_items items) = [txt "a"].
Proof.
  exists [(txt "a", [i "x"]); (txt "b", [i "y"])]. split; [cbn; lia|]. split.
  { repeat (constructor; [split; [reflexivity|eexists; split; reflexivity]|]). constructor. }
  split; [vm_compute; reflexivity|]. split; [vm_compute; discriminate|].
  eexists. eexists. split; [vm_compute; reflexivity|]. split; reflexivity.
Qed.
Print Assumptions C30_refuted.

(** In compose_item a list that ends in both separators is accepted: [a = concat(b);,]. *)
Theorem C30_item_mixed_refuted : exists d, ident_allowed ascii_parsers (fst d) = true /\
  stands_alone ascii_parsers known0 (fun _ => True) (snd d) /\
  compose_item0 (list_text false [d] ++ [sep false; sep true]) (fn_named "a") <> None.
Proof.
  exists (txt "a", [i "concat"; paren [i "b"]]). split; [reflexivity|]. split; [apply call_alone; reflexivity|].
  vm_compute. discriminate.
Qed.
Print Assumptions C30_item_mixed_refuted.

(** C31: the value is that of the class that gets furthest, measured by [distance_to], the
    earlier class if two get equally far; if none gets to a separator, all the tokens up to
    the separator. *)
Theorem C31_best : forall P term ts n n' e k u, parse_value P term n ts = (n', (e, k, u)) ->
  (exists c v id, e = EValue id v /\ takes P c ts v k u /\ ends_at term ts k /\
     forall c' v' k' u', takes P c' ts v' k' u' -> ends_at term ts k' ->
       distance_to k' ts < distance_to k ts \/ (distance_to k' ts = distance_to k ts /\ rank c <= rank c')) \/
  ((forall c v k u, takes P c ts v k u -> ~ ends_at term ts k) /\
   exists id tokens rest, e = EValue id (VTokens tokens) /\ k = List.length tokens /\ u = false /\ ts = tokens ++ rest /\
     Forall (fun t => term t = false) tokens /\ (rest = [] \/ exists t r, rest = t :: r /\ term t = true)).
Proof. exact value_best. Qed.
Print Assumptions C31_best.

(** The measure is the distance of token_distance.rs (see C32). *)
Theorem C31_measure : forall ts c l k, position (buffer ts) c -> reads (buffer ts) c l -> k <= List.length l ->
  exists c', advance k (buffer ts) c = Some c' /\ reads (buffer ts) c' (skipn k l) /\ token_distance (buffer ts) c c' = Ok (distance_to k l).
Proof. exact distance_to_cursor. Qed.
Print Assumptions C31_measure.

(** If the separator is a single token, the class that gets furthest is the one that consumes
    the most. *)
Theorem C31_longest : forall P term ts n n' e k u, within P -> (forall t, term t = true -> leaf_count t = 1) ->
  parse_value P term n ts = (n', (e, k, u)) ->
  (exists c v id, e = EValue id v /\ takes P c ts v k u /\ ends_at term ts k /\
     forall c' v' k' u', takes P c' ts v' k' u' -> ends_at term ts k' -> k' < k \/ (k' = k /\ rank c <= rank c')) \/
  ((forall c v k u, takes P c ts v k u -> ~ ends_at term ts k) /\
   exists id tokens rest, e = EValue id (VTokens tokens) /\ k = List.length tokens /\ u = false /\ ts = tokens ++ rest /\
     Forall (fun t => term t = false) tokens /\ (rest = [] \/ exists t r, rest = t :: r /\ term t = true)).
Proof. exact value_longest. Qed.
Print Assumptions C31_longest.
Theorem C31_comma : forall t, is_comma t = true -> leaf_count t = 1.
Proof. exact comma_leaf. Qed.
Print Assumptions C31_comma.

(** What is consumed ends at the end or a separator. *)
Theorem C31_ends : forall P term ts n n' e k u, parse_value P term n ts = (n', (e, k, u)) ->
  skipn k ts = [] \/ exists t r, skipn k ts = t :: r /\ term t = true.
Proof. exact value_ends. Qed.
Print Assumptions C31_ends.

(** Unless a parser left tokens unread inside a group, the value's tokens are those consumed;
    an integer literal may be spelt differently ([-1] is two tokens), a [_] given as a
    punctuation becomes an identifier. *)
Theorem C31_nothing_lost : forall P term ts n n' e k, printing P -> parse_value P term n ts = (n', (e, k, false)) ->
  exists id v, e = EValue id v /\
    (type_of v = TyLitInt \/ (exists j r, ts = TPunct 95%N j :: r) \/ to_tokens v = firstn k ts).
Proof. exact value_nothing_lost. Qed.
Print Assumptions C31_nothing_lost.

(** [x, ..] is an identifier, [a::b, ..] a path, [a + b, ..] an expression, [a =>, ..] tokens. *)
Example C31_example :
  parse_value ascii_parsers is_comma 0 [i "x"; p1 ","; i "y"] = (1%N, (EValue 0 (VIdent (txt "x")), 1, false)) /\
  snd (fst (snd (parse_value ascii_parsers is_comma 0 (i "a" :: colons ++ [i "b"; p1 ","])))) = 4 /\
  (exists id, fst (fst (snd (parse_value ascii_parsers is_comma 0 (i "a" :: colons ++ [i "b"; p1 ","])))) =
     EValue id (VPath (i "a" :: colons ++ [i "b"]))) /\
  (exists id, fst (fst (snd (parse_value ascii_parsers is_comma 0 [i "a"; p1 "+"; i "b"; p1 ","]))) =
     EValue id (VExpr [i "a"; p1 "+"; i "b"])) /\
  (exists id, fst (fst (snd (parse_value ascii_parsers is_comma 0 [i "a"; pj "="; p1 ">"; p1 ","]))) =
     EValue id (VTokens [i "a"; pj "="; p1 ">"])).
Proof. split; [reflexivity|]. split; [reflexivity|]. split; [|split]; eexists; vm_compute; reflexivity. Qed.

(** When tokens are left unread, something can be lost: syn reads [(b * c)] as the type [(b)],
    so [a = (b * c), ..] is an error, although [(b * c)] is an expression, and [concat((b * c))]
    silently becomes [concat()]. *)
Theorem C31_unread_refuted : exists ts, takes ascii_parsers ClExpr ts (VExpr ts) (List.length ts) false /\
  compose0 ([i "a"; p1 "="] ++ ts ++ [p1 ","; brace (fn_named "a")]) = None /\
  exists ast spec id rid, compose0 ([i "a"; p1 "="; i "concat"; paren ts; p1 ","; brace (fn_named "a")]) = Some ast /\
    ast_spec ast = Some spec /\ spec_items spec = [(txt "a", ECall id (txt "concat") [] (Some (rid, ts)))].
Proof.
  exists [paren [i "b"; p1 "*"; i "c"]]. split; [constructor; reflexivity|]. split; [vm_compute; reflexivity|].
  do 4 eexists. split; [vm_compute; reflexivity|]. split; reflexivity.
Qed.
Print Assumptions C31_unread_refuted.

(** C37: a value that looks like a call of an unknown function is parsed as a value; a call of
    a known one becomes a call. *)
Theorem C37_unknown : forall P hf n x r, hf x = false -> expr_at P hf n (TIdent x :: r) = parse_value P is_comma n (TIdent x :: r).
Proof. exact unknown_is_value. Qed.
Print Assumptions C37_unknown.
Theorem C37_known : forall P hf n x args r, ident_allowed P x = true -> hf x = true ->
  exists n' id rid es, expr_at P hf n (TIdent x :: TGroup Paren args :: r) = (n', (ECall id x es (Some (rid, args)), 2, false)).
Proof. exact known_is_call. Qed.
Print Assumptions C37_known.

(** Every call that parsing yields, at any depth, names a known function, and ids are distinct. *)
Theorem C37_calls_known : forall P hf n ts ast, p_ast (parse_func_macro P hf n ts) = Ok (Some ast) ->
  exists n', drawn n n' (flat_map ids (ast_exprs ast)) /\ Forall (calls_known hf) (ast_exprs ast).
Proof. exact func_macro_drawn. Qed.
Print Assumptions C37_calls_known.
Theorem C37_calls_known_item : forall P hf n attr item ast, p_ast (parse_attr_macro P hf n attr item) = Ok (Some ast) ->
  exists n', drawn n n' (flat_map ids (ast_exprs ast)) /\ Forall (calls_known hf) (ast_exprs ast).
Proof. exact attr_macro_drawn. Qed.
Print Assumptions C37_calls_known_item.

(** So with one table for both phases resolving never reports an undefined function. *)
Theorem C37_unreachable : forall P env n ast rws rw x,
  (exists ts, p_ast (parse_func_macro P (has_func env) n ts) = Ok (Some ast)) \/
  (exists attr item, p_ast (parse_attr_macro P (has_func env) n attr item) = Ok (Some ast)) ->
  expand ast = Ok rws -> In rw rws ->
  resolve_items env empty_scope (spec_items (fst rw)) <> Err (UndefinedFunctionError x).
Proof. exact parsed_resolves. Qed.
Print Assumptions C37_unreachable.

(** And the tables of different invocations list the same names, so the whole program never
    reports one either. *)
Theorem C37_same_table : forall O seed k x, has_func (new_initialized O seed k) x = known O x.
Proof. exact known_table. Qed.
Print Assumptions C37_same_table.
Theorem C37_never_reported : forall O P Y uses x, ~ In (CompileError (UndefinedFunctionError x)) (expand_uses O P Y uses).
Proof. exact undefined_unreachable. Qed.
Print Assumptions C37_never_reported.

(** [a = foo(x, y), ..] with no function [foo] is an expression; with [concat], a call. *)
Example C37_example : known0 (txt "foo") = false /\ known0 (txt "concat") = true /\
  (exists ast spec id, compose0 [i "a"; p1 "="; i "foo"; paren [i "x"; p1 ","; i "y"]; p1 ","; brace (fn_named "a")] = Some ast /\
     ast_spec ast = Some spec /\ spec_items spec = [(txt "a", EValue id (VExpr [i "foo"; paren [i "x"; p1 ","; i "y"]]))]) /\
  (exists ast spec id es raw, compose0 [i "a"; p1 "="; i "concat"; paren [i "x"; p1 ","; i "y"]; p1 ","; brace (fn_named "a")] = Some ast /\
     ast_spec ast = Some spec /\ spec_items spec = [(txt "a", ECall id (txt "concat") es raw)] /\ List.length es = 2).
Proof.
  split; [reflexivity|]. split; [reflexivity|]. split.
  - do 3 eexists. split; [vm_compute; reflexivity|]. split; reflexivity.
  - do 5 eexists. split; [vm_compute; reflexivity|]. split; [reflexivity|]. split; reflexivity.
Qed.

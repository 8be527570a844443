(** C41, C42, C43: the macros as a whole, from source tokens.  [reported], [panicking],
    [rounds], [meaning], [ast_aliases] and [with_warnings] are in SpecMacro. *)
From Coq Require Import String.
From Verif Require Import Base Token Types Values Ast Env Item Deprecation Interpreter Parse Macro
  SpecElab SpecItem SpecParse SpecDeprecation SpecMacro MacroProofs MeaningProofs ItemFacts RunFacts
  Concrete ConcreteSpecs ConcreteRuns ConcreteParse.
Open Scope list_scope.

(** C41 *)
Theorem C41_outcomes : forall O P Y uses, Forall (fun o => match o with
  | Code _ | SyntaxError => True
  | CompileError e => reported O e
  | Panicked p => panicking p
  end) (expand_uses O P Y uses).
Proof. exact uses_reported. Qed.
Print Assumptions C41_outcomes.

(** A syntax error is reported exactly if the input does not parse. *)
Theorem C41_syntax : forall O P Y uses i u, nth_error uses i = Some u ->
  (nth_error (expand_uses O P Y uses) i = Some SyntaxError <-> p_ast (inv_parsed (invocation_for O P u)) = Ok None).
Proof. exact use_syntax. Qed.
Print Assumptions C41_syntax.

(** One use for each outcome, in one thread: [a = x, { fn a() {} }], [a = x, a = y, ..],
    [a = concat(b, "-"), ..], [a = upper(), ..], [a = 1, { fn a() {} }],
    [for a in [(x)] { .. }], [a b], [a = concat(1, -2), ..] and [a = concat(r#x, y), ..]. *)
Example C41_example :
  let run ts := use_of (Compose (ts ++ [brace (fn_named "a")])) in
  map (fun o => match o with Code _ => Code [] | o => o end)
    (expand_uses ascii ascii_parsers syntax1
      [run [i "a"; p1 "="; i "x"; p1 ","];
       run [i "a"; p1 "="; i "x"; p1 ","; i "a"; p1 "="; i "y"; p1 ","];
       run [i "a"; p1 "="; i "concat"; paren [i "b"; p1 ","; ls "-"]; p1 ","];
       run [i "a"; p1 "="; i "upper"; paren []; p1 ","];
       run [i "a"; p1 "="; li "1"; p1 ","];
       run [i "for"; i "a"; i "in"; bracket [paren [i "x"]]];
       run [i "a"; i "b"];
       run [i "a"; p1 "="; i "concat"; paren [li "1"; p1 ","; p1 "-"; li "2"]; p1 ","];
       run [i "a"; p1 "="; i "concat"; paren [i "r#x"; p1 ","; i "y"]; p1 ","]]) =
  [Code []; CompileError (RedefinedNameError (txt "a")); CompileError EvalError; CompileError (SignatureError (txt "upper"));
   CompileError (SubstitutionError (txt "a")); CompileError TypeError; SyntaxError; Panicked PLitNew; Panicked PIdentNew].
Proof. vm_compute. reflexivity. Qed.

(** C42: what a use produces is its meaning; it can in addition find that the code does not
    parse at some stage of the replacement (C24) or fail at an inner attribute (C25). *)
Theorem C42_meaning : forall O P Y uses i u ast, faithful O (reparse Y) -> nth_error uses i = Some u ->
  p_ast (inv_parsed (invocation_for O P u)) = Ok (Some ast) ->
  (forall x, In x item_keywords -> ~ In x (ast_aliases ast)) ->
  let means := meaning O (new_initialized O (u_seed u) (u_first_id u))
                 (with_warnings Y (prefix_of (u_source (hd u uses))) (raised (invocation_for O P u))) ast in
  exists o, nth_error (expand_uses O P Y uses) i = Some o /\
    match o with
    | Code ts => means = Ok ts
    | SyntaxError => False
    | CompileError (SubstitutionError _) => True
    | CompileError e => means = Err e
    | Panicked p => p = PErrorData \/ p = PUnreachable \/ means = Panic p
    end.
Proof. exact use_meaning. Qed.
Print Assumptions C42_meaning.

(** Without semicolons: nothing is done to the code of the rounds. *)
Theorem C42_meaning_without_warnings : forall O P Y uses i u ast, faithful O (reparse Y) -> covers Y -> nth_error uses i = Some u ->
  p_ast (inv_parsed (invocation_for O P u)) = Ok (Some ast) -> raised (invocation_for O P u) = [] ->
  (forall x, In x item_keywords -> ~ In x (ast_aliases ast)) ->
  let means := meaning O (new_initialized O (u_seed u) (u_first_id u)) (fun ts => ts) ast in
  exists o, nth_error (expand_uses O P Y uses) i = Some o /\
    match o with
    | Code ts => means = Ok ts
    | SyntaxError => False
    | CompileError (SubstitutionError _) => True
    | CompileError e => means = Err e
    | Panicked p => p = PErrorData \/ p = PUnreachable \/ means = Panic p
    end.
Proof. exact use_meaning_quiet. Qed.
Print Assumptions C42_meaning_without_warnings.

(** [for (x, n) in [(u, 1), (v, 2)] f = concat(x, n), { fn f() {} }] *)
Example C42_example :
  let u := use_of (Compose [i "for"; paren [i "x"; p1 ","; i "n"]; i "in";
      bracket [paren [i "u"; p1 ","; li "1"]; p1 ","; paren [i "v"; p1 ","; li "2"]];
      i "f"; p1 "="; i "concat"; paren [i "x"; p1 ","; i "n"]; p1 ","; brace (fn_named "f")]) in
  exists ast, p_ast (inv_parsed (invocation_for ascii ascii_parsers u)) = Ok (Some ast) /\
    raised (invocation_for ascii ascii_parsers u) = [] /\ ast_aliases ast = [txt "x"; txt "n"; txt "f"] /\
    faithful ascii (reparse syntax0) /\ covers syntax0 /\
    meaning ascii (new_initialized ascii 7 100) (fun ts => ts) ast = Ok (fn_named "u1" ++ fn_named "v2") /\
    expand_uses ascii ascii_parsers syntax0 [u] = [Code (fn_named "u1" ++ fn_named "v2")].
Proof.
  eexists. split; [vm_compute; reflexivity|]. split; [vm_compute; reflexivity|]. split; [vm_compute; reflexivity|].
  split; [exact (proj1 (proj2 (proj2 (proj2 ItemFacts.every_part_example))))|]. split; [exact RunFacts.syntax0_covers|]. split; vm_compute; reflexivity.
Qed.

(** C43: the warning about semicolons is raised exactly if the list is separated by them (see
    C30_lists for the flag). *)
Theorem C43_semicolons : forall O P u ast, p_ast (inv_parsed (invocation_for O P u)) = Ok (Some ast) ->
  (exists spec, ast_spec ast = Some spec /\ is_comma_used spec = Some false) /\ raised (invocation_for O P u) = [semicolon_warning] \/
  ~ (exists spec, ast_spec ast = Some spec /\ is_comma_used spec = Some false) /\ raised (invocation_for O P u) = [].
Proof. exact raised_iff. Qed.
Print Assumptions C43_semicolons.

Example C43_example :
  let run sep := use_of (Compose [i "a"; p1 "="; i "concat"; paren [i "x"; p1 ","; i "y"]; p1 sep; brace (fn_named "a")]) in
  raised (invocation_for ascii ascii_parsers (run ";"%string)) = [semicolon_warning] /\
  raised (invocation_for ascii ascii_parsers (run ","%string)) = [] /\
  expand_uses ascii ascii_parsers syntax0 [run ";"; run ","]%string =
    [Code ([p1 "#"; bracket (meta (deprecation (txt "compose!: ") semicolon_warning))] ++ fn_named "xy"); Code (fn_named "xy")].
Proof. split; [|split]; vm_compute; reflexivity. Qed.

(** C29: the names the macros give themselves in their warnings. *)
Theorem C29_announced : forall O P u, inv_prefix (invocation_for O P u) =
  match u_source u with
  | Compose _ => txt "compose!: "
  | ComposeIdents _ => txt "compose_idents!: "
  | ComposeItem _ _ => txt "compose_item!: "
  end.
Proof. exact announced. Qed.
Print Assumptions C29_announced.

Example C29_announced_example :
  let a := [i "a"; p1 "="; i "concat"; paren [i "x"; p1 ","; i "y"]; p1 ";"] in
  let warned m := [Code ([p1 "#"; bracket (meta (deprecation (txt m) semicolon_warning))] ++ fn_named "xy")] in
  expand_uses ascii ascii_parsers syntax0 [use_of (Compose (a ++ [brace (fn_named "a")]))] = warned "compose!: "%string /\
  expand_uses ascii ascii_parsers syntax0 [use_of (ComposeIdents (a ++ [brace (fn_named "a")]))] = warned "compose_idents!: "%string /\
  expand_uses ascii ascii_parsers syntax0 [use_of (ComposeItem a (fn_named "a"))] = warned "compose_item!: "%string.
Proof. split; [|split]; vm_compute; reflexivity. Qed.

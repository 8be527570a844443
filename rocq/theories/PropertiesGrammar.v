(** C59: the grammar of the input (SpecGrammar). *)
From Coq Require Import String.
From Verif Require Import Base Token Types Values Ast Item Interpreter Parse SpecElab SpecParse SpecPrograms SpecRepro SpecGrammar
  ReproProofs GrammarProofs Concrete ConcreteParse.
Open Scope list_scope.

(** C59: [compose!] accepts the texts of the grammar and reads them as it says. *)
Theorem C59_function_input : forall P has_func n ts a,
  func_input P has_func ts a <-> exists ast, p_ast (parse_func_macro P has_func n ts) = Ok (Some ast) /\ erase_ast ast = a.
Proof. exact func_spec. Qed.
Print Assumptions C59_function_input.

(** C59: and so does [#[compose_item]]. *)
Theorem C59_attribute_input : forall P has_func n ts item a,
  attr_input P has_func ts item a <-> exists ast, p_ast (parse_attr_macro P has_func n ts item) = Ok (Some ast) /\ erase_ast ast = a.
Proof. exact attr_spec. Qed.
Print Assumptions C59_attribute_input.

(** C59: a text has one meaning at most. *)
Theorem C59_unambiguous : forall P has_func,
  (forall ts a a', func_input P has_func ts a -> func_input P has_func ts a' -> a = a') /\
  (forall ts item a a', attr_input P has_func ts item a -> attr_input P has_func ts item a' -> a = a').
Proof. exact (fun P hf => conj (func_unambiguous P hf) (attr_unambiguous P hf)). Qed.
Print Assumptions C59_unambiguous.

(** C59: every other text is a syntax error. *)
Theorem C59_otherwise : forall P has_func n,
  (forall ts, (forall a, ~ func_input P has_func ts a) <-> p_ast (parse_func_macro P has_func n ts) = Ok None) /\
  (forall ts item, (forall a, ~ attr_input P has_func ts item a) <-> p_ast (parse_attr_macro P has_func n ts item) = Ok None).
Proof. exact (fun P hf n => conj (func_otherwise P hf n) (attr_otherwise P hf n)). Qed.
Print Assumptions C59_otherwise.

(** C59: an expression stands at the head of any tokens, and only one. *)
Theorem C59_expression : forall P has_func n ts e k u,
  reads P has_func ts e k u <->
  exists n' e0, parse_expr P has_func n (map (ann P has_func) ts) = (n', (e0, k, u)) /\ erase e0 = e.
Proof. exact reads_exactly. Qed.
Print Assumptions C59_expression.

(** [for (a, (b, c)) in [(x, (y, z),)] d = concat(a, lower(b),), { fn f() {} },] *)
Example C59_example :
  func_input ascii_parsers known0
    ([i "for"; paren [i "a"; p1 ","; paren [i "b"; p1 ","; i "c"]]; i "in";
      TGroup Bracket [paren [i "x"; p1 ","; paren [i "y"; p1 ","; i "z"]; p1 ","]]] ++
     [i "d"; p1 "="; i "concat"; paren [i "a"; p1 ","; i "lower"; paren [i "b"]; p1 ","]; p1 ","; brace (fn_named "f"); p1 ","])
    {| ast_loops := Some [{| loop_pattern := LATuple [TVValue (txt "a"); TVTuple [TVValue (txt "b"); TVValue (txt "c")]];
                             loop_values := [LSTuple [TVValue (EValue 0 (VIdent (txt "x")));
                                               TVTuple [TVValue (EValue 0 (VIdent (txt "y"))); TVValue (EValue 0 (VIdent (txt "z")))]]] |}];
       ast_spec := Some {| spec_items := [(txt "d", ECall 0 (txt "concat")
                             [EValue 0 (VIdent (txt "a")); ECall 0 (txt "lower") [EValue 0 (VIdent (txt "b"))] (Some (0%N, [i "b"]))]
                             (Some (0%N, [i "a"; p1 ","; i "lower"; paren [i "b"]; p1 ","])))];
                           is_comma_used := Some true |};
       ast_block := [fn_stmt "f"] |}.
Proof. apply (func_spec _ _ 0%N). eexists. split; vm_compute; reflexivity. Qed.

(** The same by hand for [a = concat(), { fn f() {} }]. *)
Example C59_by_hand :
  func_input ascii_parsers known0 [i "a"; p1 "="; i "concat"; paren []; p1 ","; brace (fn_named "f")]
    {| ast_loops := None;
       ast_spec := Some {| spec_items := [(txt "a", ECall 0 (txt "concat") [] (Some (0%N, [])))]; is_comma_used := Some true |};
       ast_block := [fn_stmt "f"] |}.
Proof.
  eapply func_input_ with (k := 1).
  - eapply (header_at_ _ _ _ [] false).
    + apply no_loop. intros r H. discriminate H.
    + apply (some_spec _ _ _ true); [eexists _, _; split; reflexivity|].
      eapply last_definition_sep with (s := p1 ",") (r := [brace (fn_named "f")]); [|apply comma_separates|intros (x & r & H & _); discriminate H].
      apply (definition_at_ _ _ (txt "a") false [i "concat"; paren []; p1 ","; brace (fn_named "f")] _ 2); [reflexivity|]. apply reads_call; [reflexivity|vm_compute; reflexivity|constructor].
  - vm_compute. reflexivity.
  - left. reflexivity.
Qed.

(** Not in the grammar: two separators, a separator behind loops alone, a loop without
    brackets, a definition without a value of its own. *)
Example C59_rejected :
  (forall a, ~ func_input ascii_parsers known0 [i "a"; p1 "="; i "x"; p1 ","; p1 ","; brace (fn_named "f")] a) /\
  (forall a, ~ attr_input ascii_parsers known0 [i "for"; i "a"; i "in"; TGroup Bracket [i "x"]; p1 ","] (fn_named "f") a) /\
  (exists a, attr_input ascii_parsers known0 [i "for"; i "a"; i "in"; TGroup Bracket [i "x"]] (fn_named "f") a) /\
  (forall a, ~ func_input ascii_parsers known0 [i "for"; i "a"; i "in"; paren [i "x"]; brace (fn_named "f")] a) /\
  (forall a, ~ func_input ascii_parsers known0 [i "a"; p1 "="; i "x"; i "y"; brace (fn_named "f")] a).
Proof.
  split; [apply (func_otherwise _ _ 0%N); vm_compute; reflexivity|].
  split; [apply (attr_otherwise _ _ 0%N); vm_compute; reflexivity|].
  split; [eexists; apply (attr_spec _ _ 0%N); eexists; split; [vm_compute; reflexivity|reflexivity]|].
  split; apply (func_otherwise _ _ 0%N); vm_compute; reflexivity.
Qed.

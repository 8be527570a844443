(** C101: strings and identifiers are not taken for each other.  [spelled], [literal_value], [requoted]
    and the laws are in SpecStrings, [kind], [independent_items] and [denote] in SpecNesting,
    [declares] and [declares_fn] in SpecBrackets. *)
From Coq Require Import String.
From Verif Require Import Base Token Types Values Ast Env Eval Expand Item Interpreter Parse Macro Concrete ConcreteSpecs ConcreteRuns ConcreteParse RustLexer RustGrammar RustInstance RustLaws RustSignature RustStrings
  SpecElab SpecPrograms SpecCalls SpecFunctions SpecNaming SpecNesting SpecBrackets SpecStrings StringProofs.
Open Scope list_scope.

(** C101: [concat] of an identifier and further identifiers and strings composes nothing: the
    quotation marks are part of what it puts together. *)
Theorem C101_mixed : forall O seed first pre a e es post i raw c G bs vs, names_print O -> quotes_end_names O ->
  let items := pre ++ (a, ECall i (txt "concat") (e :: es) raw) :: post in
  NoDup (item_ids items) -> independent_items [] items = true -> types_after [] pre = Some G ->
  kind G e = Some TyIdent -> Exists (fun d => kind G d = Some TyLitStr) es ->
  denote_items O seed [] pre = Ok bs -> mapM (denote O seed bs) (e :: es) = Ok vs -> Forall (spelled O) vs ->
  make_substitutions O (new_initialized O seed first) {| spec_items := items; is_comma_used := c |} =
  Err (match first_misfit [] items with Some er => er | None => EvalError end).
Proof. exact mixed_definition. Qed.
Print Assumptions C101_mixed.

(** C101: an alias has a value of the kind of its definition, so one that is defined by a
    string, or by functions of strings, stands for a string. *)
Theorem C101_kind : forall O seed first pre a e post c G t bd,
  let items := pre ++ (a, e) :: post in
  NoDup (item_ids items) -> independent_items [] items = true -> types_after [] pre = Some G -> kind G e = Some t ->
  make_substitutions O (new_initialized O seed first) {| spec_items := items; is_comma_used := c |} = Ok bd ->
  exists v, assoc_str a bd = Some v /\ type_of v = t.
Proof. exact kind_bound. Qed.
Print Assumptions C101_kind.

(** C101: and no use gives code in which such an alias, or one for an integer, was the name of
    an item, in any round of its loops. *)
Theorem C101_declared : forall O P Y uses i u ast rws rw bd a v it ts,
  (forall l x, parse_ident O l = Some x -> l = [TIdent x]) -> reserves_fn P -> fn_takes_name Y ->
  nth_error uses i = Some u -> p_ast (inv_parsed (invocation_for O P u)) = Ok (Some ast) -> expand ast = Ok rws -> In rw rws ->
  make_substitutions O (new_initialized O (inv_seed (invocation_for O P u)) (inv_first_id (invocation_for O P u))) (fst rw) = Ok bd ->
  assoc_str a bd = Some v -> literal_value v ->
  In (SItem it) (ast_block ast) -> declares a it \/ declares_fn a it -> nth_error (expand_uses O P Y uses) i <> Some (Code ts).
Proof. exact literal_declared. Qed.
Print Assumptions C101_declared.

(** C101: what is to be taken for the other is converted: [to_ident] of a string means the
    identifier, and [to_str] of an identifier the string, wherever it stands in a definition. *)
Theorem C101_converted : forall O seed first pre a e e' post c c', requoted O (map fst pre) e e' ->
  NoDup (item_ids (pre ++ (a, e) :: post)) -> NoDup (item_ids (pre ++ (a, e') :: post)) ->
  independent_items [] (pre ++ (a, e) :: post) = true -> independent_items [] (pre ++ (a, e') :: post) = true ->
  make_substitutions O (new_initialized O seed first) {| spec_items := pre ++ (a, e) :: post; is_comma_used := c |} =
  make_substitutions O (new_initialized O seed first) {| spec_items := pre ++ (a, e') :: post; is_comma_used := c' |}.
Proof. exact requoted_same. Qed.
Print Assumptions C101_converted.

Example C101_instance : names_print rust /\ quotes_end_names rust /\ fn_takes_name rust_syntax /\ reserves_fn rust_parsers /\ forall x, spelled rust (VLitStr x []).
Proof.
  split; [exact rust_names_print|]. split; [exact rust_quotes_end_names|]. split; [exact rust_fn_takes_name|]. split; [exact rust_reserves_fn|exact rust_composed].
Qed.

(** [s = upper("b"), a = concat(x, lower(Y), s)]. *)
Example C101_mixed_example :
  let pre := [(txt "s", ECall 0 (txt "upper") [EValue 1 (VLitStr (txt "b") [])] None)] in
  let args := [id_ 3 "x"; ECall 4 (txt "lower") [id_ 5 "Y"] None; id_ 6 "s"] in
  let items := pre ++ [(txt "a", ECall 2 (txt "concat") args None)] in
  independent_items [] items = true /\ types_after [] pre = Some [(txt "s", TyLitStr)] /\ map (kind [(txt "s", TyLitStr)]) args = [Some TyIdent; Some TyIdent; Some TyLitStr] /\
  mapM (denote rust 1 [(txt "s", VLitStr (txt "B") [])]) args = Ok [VIdent (txt "x"); VIdent (txt "y"); VLitStr (txt "B") []] /\
  Forall (spelled rust) [VIdent (txt "x"); VIdent (txt "y"); VLitStr (txt "B") []] /\
  make_substitutions rust (new_initialized rust 1 0) (spec_of items) = Err EvalError.
Proof.
  cbv zeta. split; [vm_compute; reflexivity|]. split; [vm_compute; reflexivity|]. split; [vm_compute; reflexivity|]. split; [vm_compute; reflexivity|]. split; [|vm_compute; reflexivity].
  constructor; [left; vm_compute; reflexivity|]. constructor; [left; vm_compute; reflexivity|]. constructor; [exact (rust_composed (txt "B"))|constructor].
Qed.

(** A loop over an identifier and a string: the function of the second round has no name. *)
Example C101_declared_example :
  map (fun l => expand_uses rust rust_parsers rust_syntax [use_of (Compose (lex (("for x in [" ++ l ++ "] a = upper(x), { fn a() {} },")%string)))])
    ["b"; "b, c"; "b, ""c"""; """c"""]%string =
  [[Code (lex "fn B() {}")]; [Code (lex "fn B() {} fn C() {}")]; [CompileError (SubstitutionError (txt "a"))]; [CompileError (SubstitutionError (txt "a"))]].
Proof. vm_compute. reflexivity. Qed.

(** [a = concat(x, to_ident("y"), upper(to_ident("z")))] and [a = concat(x, y, upper(z))]; with [y]
    defined before they are not the same. *)
Example C101_converted_example :
  let e := ECall 0 (txt "concat") [id_ 1 "x"; ECall 2 (txt "to_ident") [EValue 3 (VLitStr (txt "y") [])] None; ECall 4 (txt "upper") [ECall 5 (txt "to_ident") [EValue 6 (VLitStr (txt "z") [])] None] None] None in
  let e' := ECall 0 (txt "concat") [id_ 1 "x"; id_ 2 "y"; ECall 4 (txt "upper") [id_ 5 "z"] None] None in
  let pre := [(txt "y", id_ 10 "w")] in
  requoted rust [] e e' /\ independent_items [] [(txt "a", e)] = true /\ independent_items [] [(txt "a", e')] = true /\
  make_substitutions rust (new_initialized rust 1 0) (spec_of [(txt "a", e)]) = Ok [(txt "a", VIdent (txt "xyZ"))] /\
  make_substitutions rust (new_initialized rust 1 0) (spec_of (pre ++ [(txt "a", e)])) = Ok [(txt "y", VIdent (txt "w")); (txt "a", VIdent (txt "xyZ"))] /\
  make_substitutions rust (new_initialized rust 1 0) (spec_of (pre ++ [(txt "a", e')])) = Ok [(txt "y", VIdent (txt "w")); (txt "a", VIdent (txt "xwZ"))].
Proof.
  cbv zeta. split; [|repeat split; vm_compute; reflexivity].
  apply RqCall; [|intros [K|K]; discriminate K]. constructor; [apply RqLeaf|]. constructor; [apply RqIdent; [reflexivity|vm_compute; reflexivity|intros []]|].
  constructor; [|constructor]. apply RqCall; [|intros [K|K]; discriminate K]. constructor; [apply RqIdent; [reflexivity|vm_compute; reflexivity|intros []]|constructor].
Qed.

(** Not every text that was put together before can be converted: the changelog's advice does
    not help with [concat(x, "1")].  The number itself does. *)
Theorem C101_suffix_refuted : exists s,
  let with_ e := spec_of [(txt "a", ECall 0 (txt "concat") [id_ 1 "x"; e] None)] in
  ident_ok rust (txt "x" ++ s) = true /\
  make_substitutions rust (new_initialized rust 1 0) (with_ (EValue 2 (VLitStr s []))) = Err EvalError /\
  make_substitutions rust (new_initialized rust 1 0) (with_ (ECall 2 (txt "to_ident") [EValue 3 (VLitStr s [])] None)) = Err TypeError /\
  make_substitutions rust (new_initialized rust 1 0) (with_ (EValue 2 (VLitInt s s))) = Ok [(txt "a", VIdent (txt "x" ++ s))].
Proof. exists (txt "1"). repeat split; vm_compute; reflexivity. Qed.
Print Assumptions C101_suffix_refuted.

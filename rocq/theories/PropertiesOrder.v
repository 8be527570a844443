(** C66-C68: definitions that are not used, the order of definitions, and blocks statement by
    statement.  [items_without], [block_without], [rearranged], [same_otherwise] and
    [with_definitions] are in SpecOrder, [bindings] in SpecElab, [rounds] in SpecMacro,
    [outputs_in_sequence] in SpecUnroll. *)
From Coq Require Import String Permutation.
From Verif Require Import Base Token Types Values Ast Env Item Deprecation Interpreter Parse Macro
  SpecPrograms SpecFormat SpecElab SpecItem SpecMacro SpecRepro SpecParse SpecDeprecation SpecForms SpecUnroll SpecOutcome SpecOrder OutcomeProofs OrderProofs
  Concrete ConcreteSpecs ConcreteRuns ConcreteParse.
Open Scope list_scope.

(** C66: a definition that can be evaluated and is not mentioned later may be left out: the
    other aliases get the same values, or the same error is reported. *)
Theorem C66_definitions : forall O env pre a e post b1, bindings O env (pre ++ [(a, e)]) = Ok b1 -> items_without a post ->
  bindings O env (pre ++ post) = let! bs := bindings O env (pre ++ (a, e) :: post) in Ok (bindings_without a bs).
Proof. exact unused_definition. Qed.
Print Assumptions C66_definitions.

(** Two uses, with and without a definition that no later one and nothing in the block
    mentions and that can be evaluated in every round: the same output. *)
Theorem C66_use : forall O P Y uses i j u u' ast ast' pre a e post,
  faithful O (reparse Y) -> nth_error uses i = Some u -> nth_error uses j = Some u' -> u_seed u = u_seed u' ->
  p_ast (inv_parsed (invocation_for O P u)) = Ok (Some ast) -> p_ast (inv_parsed (invocation_for O P u')) = Ok (Some ast') ->
  raised (invocation_for O P u) = raised (invocation_for O P u') -> same_otherwise ast ast' ->
  erase_items (own_items ast) = pre ++ (a, e) :: post -> erase_items (own_items ast') = pre ++ post ->
  items_without a post -> block_without O a (ast_block ast) ->
  (forall items, In (Some items) (rounds (with_definitions (erase_ast ast) (pre ++ [(a, e)]))) ->
     exists bs, bindings O (new_initialized O (u_seed u) 0) items = Ok bs) ->
  nth_error (expand_uses O P Y uses) i = nth_error (expand_uses O P Y uses) j.
Proof. exact unused_in_use. Qed.
Print Assumptions C66_use.

(** [for x in [p, q] c = concat(x, y), a = upper(c), b = concat(c, z), { fn b() {} }] with and
    without [a]. *)
Example C66_example :
  let text (d : list tt) := [i "for"; i "x"; i "in"; bracket [i "p"; p1 ","; i "q"]; i "c"; p1 "="; i "concat"; paren [i "x"; p1 ","; i "y"]; comma] ++ d ++
    [i "b"; p1 "="; i "concat"; paren [i "c"; p1 ","; i "z"]; comma; brace (fn_named "b")] in
  let u := use_of (Compose (text [i "a"; p1 "="; i "upper"; paren [i "c"]; comma])) in
  let u' := use_of (Compose (text [])) in
  let pre := [(txt "c", ECall 0 (txt "concat") [id_ 0 "x"; id_ 0 "y"] (Some (0%N, [i "x"; p1 ","; i "y"])))] in
  let e := ECall 0 (txt "upper") [id_ 0 "c"] (Some (0%N, [i "c"])) in
  let post := [(txt "b", ECall 0 (txt "concat") [id_ 0 "c"; id_ 0 "z"] (Some (0%N, [i "c"; p1 ","; i "z"])))] in
  faithful ascii (reparse syntax1) /\ u_seed u = u_seed u' /\
  raised (invocation_for ascii ascii_parsers u) = raised (invocation_for ascii ascii_parsers u') /\
  (exists ast ast', p_ast (inv_parsed (invocation_for ascii ascii_parsers u)) = Ok (Some ast) /\ p_ast (inv_parsed (invocation_for ascii ascii_parsers u')) = Ok (Some ast') /\
    same_otherwise ast ast' /\ erase_items (own_items ast) = pre ++ (txt "a", e) :: post /\ erase_items (own_items ast') = pre ++ post /\
    block_without ascii (txt "a") (ast_block ast) /\
    (forall items, In (Some items) (rounds (with_definitions (erase_ast ast) (pre ++ [(txt "a", e)]))) ->
       exists bs, bindings ascii (new_initialized ascii (u_seed u) 0) items = Ok bs)) /\
  items_without (txt "a") post /\
  expand_uses ascii ascii_parsers syntax1 [u; u'] = [Code (fn_named "pyz" ++ fn_named "qyz"); Code (fn_named "pyz" ++ fn_named "qyz")].
Proof.
  intros text u u' pre e post. split; [exact named_faithful|]. split; [reflexivity|]. split; [reflexivity|]. split; [|split; [|vm_compute; reflexivity]].
  - eexists. eexists. split; [vm_compute; reflexivity|]. split; [vm_compute; reflexivity|]. split; [split; vm_compute; reflexivity|].
    split; [vm_compute; reflexivity|]. split; [vm_compute; reflexivity|]. split.
    + cbn [ast_block]. unfold block_without. cbn. repeat constructor; cbn; vm_compute; discriminate.
    + intros items Hin. vm_compute in Hin. destruct Hin as [E|[E|[]]]; injection E as <-; eexists; vm_compute; reflexivity.
  - repeat constructor; [vm_compute; discriminate|]. intros H. cbn in H. repeat destruct H as [H|H]; vm_compute in H; try discriminate; contradiction.
Qed.

(** A definition that cannot be evaluated is reported although nothing uses it:
    [a = upper(x, y), b = z, { fn b() {} }]. *)
Theorem C66_failing_refuted : exists e rest,
  expand_uses ascii ascii_parsers syntax1 (map use_of [Compose ([i "a"; p1 "="] ++ e ++ comma :: rest); Compose rest]) =
  [CompileError (SignatureError (txt "upper")); Code (fn_named "z")].
Proof.
  exists [i "upper"; paren [i "x"; p1 ","; i "y"]], [i "b"; p1 "="; i "z"; comma; brace (fn_named "b")]. vm_compute. reflexivity.
Qed.
Print Assumptions C66_failing_refuted.

(** C67: definitions that do not mention each other may be exchanged, any number of times:
    every alias gets the same value. *)
Theorem C67_definitions : forall O env items items', rearranged items items' -> forall bs, bindings O env items = Ok bs ->
  exists bs', bindings O env items' = Ok bs' /\ Permutation bs bs' /\ (forall x, assoc_str x bs = assoc_str x bs').
Proof. exact rearranged_bindings. Qed.
Print Assumptions C67_definitions.

(** Two uses that differ in the order of independent definitions only: the same output if
    the definitions can be evaluated, *)
Theorem C67_use : forall O P Y uses i j u u' ast ast',
  nth_error uses i = Some u -> nth_error uses j = Some u' -> u_seed u = u_seed u' ->
  p_ast (inv_parsed (invocation_for O P u)) = Ok (Some ast) -> p_ast (inv_parsed (invocation_for O P u')) = Ok (Some ast') ->
  raised (invocation_for O P u) = raised (invocation_for O P u') -> same_otherwise ast ast' ->
  rearranged (erase_items (own_items ast)) (erase_items (own_items ast')) ->
  (forall items, In (Some items) (rounds (erase_ast ast)) -> exists bs, bindings O (new_initialized O (u_seed u) 0) items = Ok bs) ->
  nth_error (expand_uses O P Y uses) i = nth_error (expand_uses O P Y uses) j.
Proof. exact rearranged_in_use. Qed.
Print Assumptions C67_use.

(** and so the same code if one of them yields code. *)
Theorem C67_code : forall O P Y uses i j u u' ast ast',
  nth_error uses i = Some u -> nth_error uses j = Some u' -> u_seed u = u_seed u' ->
  p_ast (inv_parsed (invocation_for O P u)) = Ok (Some ast) -> p_ast (inv_parsed (invocation_for O P u')) = Ok (Some ast') ->
  raised (invocation_for O P u) = raised (invocation_for O P u') -> same_otherwise ast ast' ->
  rearranged (erase_items (own_items ast)) (erase_items (own_items ast')) -> forall ts,
  nth_error (expand_uses O P Y uses) i = Some (Code ts) -> nth_error (expand_uses O P Y uses) j = Some (Code ts).
Proof. exact rearranged_code. Qed.
Print Assumptions C67_code.

(** [a = lower(x); b = upper(y); c = concat(a, b);] with [a] and [b] exchanged (with semicolons, so that
    there is a warning as well). *)
Example C67_example :
  let a := [i "a"; p1 "="; i "lower"; paren [i "x"]; p1 ";"] in let b := [i "b"; p1 "="; i "upper"; paren [i "y"]; p1 ";"] in
  let rest := [i "c"; p1 "="; i "concat"; paren [i "a"; p1 ","; i "b"]; p1 ";"; brace (fn_named "c")] in
  let u := use_of (Compose (a ++ b ++ rest)) in let u' := use_of (Compose (b ++ a ++ rest)) in
  u_seed u = u_seed u' /\ raised (invocation_for ascii ascii_parsers u) = raised (invocation_for ascii ascii_parsers u') /\
  raised (invocation_for ascii ascii_parsers u) <> [] /\
  (exists ast ast', p_ast (inv_parsed (invocation_for ascii ascii_parsers u)) = Ok (Some ast) /\ p_ast (inv_parsed (invocation_for ascii ascii_parsers u')) = Ok (Some ast') /\
    same_otherwise ast ast' /\ rearranged (erase_items (own_items ast)) (erase_items (own_items ast')) /\ own_items ast <> own_items ast') /\
  exists ts, expand_uses ascii ascii_parsers syntax1 [u; u'] = [Code ts; Code ts].
Proof.
  intros a b rest u u'. split; [reflexivity|]. split; [reflexivity|]. split; [vm_compute; discriminate|]. split; [|eexists; vm_compute; reflexivity].
  eexists. eexists. split; [vm_compute; reflexivity|]. split; [vm_compute; reflexivity|]. split; [split; vm_compute; reflexivity|]. split; [|intros E; apply (f_equal (map fst)) in E; vm_compute in E; discriminate E].
  match goal with |- rearranged ?x ?y => let x' := eval vm_compute in x in let y' := eval vm_compute in y in change (rearranged x' y') end.
  match goal with |- rearranged (?d :: ?d' :: ?r) _ => apply (rearranged_step [] d d' r); [|apply rearranged_same] end.
  split; intros H; vm_compute in H; intuition discriminate.
Qed.

(** Definitions that mention each other: another alias is replaced, or none.
    [a = x, b = concat(a, y)]. *)
Theorem C67_dependent_refuted : exists a b block,
  expand_uses ascii ascii_parsers syntax1 (map use_of [Compose (a ++ b ++ block); Compose (b ++ a ++ block)]) = [Code (fn_named "xy"); Code (fn_named "ay")].
Proof.
  exists [i "a"; p1 "="; i "x"; comma], [i "b"; p1 "="; i "concat"; paren [i "a"; p1 ","; i "y"]; comma], [brace (fn_named "b")]. vm_compute. reflexivity.
Qed.
Print Assumptions C67_dependent_refuted.

(** Errors: the first is reported. *)
Theorem C67_errors_refuted : exists a b block,
  expand_uses ascii ascii_parsers syntax1 (map use_of [Compose (a ++ b ++ block); Compose (b ++ a ++ block)]) =
  [CompileError (SignatureError (txt "upper")); CompileError (SignatureError (txt "lower"))].
Proof.
  exists [i "a"; p1 "="; i "upper"; paren [i "x"; p1 ","; i "y"]; comma], [i "b"; p1 "="; i "lower"; paren []; comma], [brace (fn_named "b")]. vm_compute. reflexivity.
Qed.
Print Assumptions C67_errors_refuted.

(** C68: without loops and warnings a block yields what its statements yield one after the
    other, the first failure included. *)
Theorem C68_blocks : forall O P Y uses i i1 i2 u u1 u2 ast ast1 ast2, covers Y ->
  nth_error uses i = Some u -> nth_error uses i1 = Some u1 -> nth_error uses i2 = Some u2 -> u_seed u1 = u_seed u -> u_seed u2 = u_seed u ->
  p_ast (inv_parsed (invocation_for O P u)) = Ok (Some ast) -> p_ast (inv_parsed (invocation_for O P u1)) = Ok (Some ast1) -> p_ast (inv_parsed (invocation_for O P u2)) = Ok (Some ast2) ->
  raised (invocation_for O P u) = [] -> raised (invocation_for O P u1) = [] -> raised (invocation_for O P u2) = [] ->
  ast_loops ast = None -> ast_loops ast1 = None -> ast_loops ast2 = None ->
  erase_items (own_items ast1) = erase_items (own_items ast) -> erase_items (own_items ast2) = erase_items (own_items ast) ->
  ast_block ast = ast_block ast1 ++ ast_block ast2 ->
  nth_error (expand_uses O P Y uses) i =
  match nth_error (expand_uses O P Y uses) i1, nth_error (expand_uses O P Y uses) i2 with
  | Some o1, Some o2 => Some (outputs_in_sequence [o1; o2])
  | _, _ => None
  end.
Proof. exact blocks_in_sequence. Qed.
Print Assumptions C68_blocks.

(** [a = x, { fn a() {} fn b() {} }]. *)
Example C68_example :
  let text block := Compose [i "a"; p1 "="; i "x"; comma; brace block] in
  let us := map use_of [text (fn_named "a" ++ fn_named "b"); text (fn_named "a"); text (fn_named "b")] in
  Forall (fun u => raised (invocation_for ascii ascii_parsers u) = []) us /\
  match map (fun u => p_ast (inv_parsed (invocation_for ascii ascii_parsers u))) us with
  | [Ok (Some ast); Ok (Some ast1); Ok (Some ast2)] => ast_block ast = ast_block ast1 ++ ast_block ast2
  | _ => False
  end /\
  expand_uses ascii ascii_parsers syntax0 us = [Code (fn_named "x" ++ fn_named "b"); Code (fn_named "x"); Code (fn_named "b")].
Proof. split; [repeat constructor|]. split; vm_compute; reflexivity. Qed.

(** Warnings are attached once per block: [a = upper(x); { fn a() {} fn b() {} }]. *)
Theorem C68_warnings_refuted : exists text b1 b2,
  match expand_uses ascii ascii_parsers syntax0 (map use_of [Compose (text ++ [brace (b1 ++ b2)]); Compose (text ++ [brace b1]); Compose (text ++ [brace b2])]) with
  | [Code ts; Code ts1; Code ts2] => ts <> ts1 ++ ts2
  | _ => False
  end.
Proof. exists [i "a"; p1 "="; i "upper"; paren [i "x"]; p1 ";"], (fn_named "a"), (fn_named "b"). vm_compute. discriminate. Qed.
Print Assumptions C68_warnings_refuted.

(** Loops repeat the whole block. *)
Theorem C68_loops_refuted : exists text b1 b2,
  expand_uses ascii ascii_parsers syntax0 (map use_of [Compose (text ++ [brace (b1 ++ b2)]); Compose (text ++ [brace b1]); Compose (text ++ [brace b2])]) =
  [Code (fn_named "p" ++ fn_named "f" ++ fn_named "q" ++ fn_named "f"); Code (fn_named "p" ++ fn_named "q"); Code (fn_named "f" ++ fn_named "f")].
Proof. exists [i "for"; i "x"; i "in"; bracket [i "p"; p1 ","; i "q"]], (fn_named "x"), (fn_named "f"). vm_compute. reflexivity. Qed.
Print Assumptions C68_loops_refuted.

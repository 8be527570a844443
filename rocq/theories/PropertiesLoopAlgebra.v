(** C72: the algebra of loops.  [with_loops], [loop], [codes], [shuffled], [unrelated] and
    [exchanged_loops] are in SpecLoops. *)
From Coq Require Import String Permutation.
From Verif Require Import Base Token Types Values Ast Env Item Deprecation Interpreter Parse Macro
  SpecMacro SpecPrograms SpecParse SpecElab SpecDeprecation SpecRepro SpecForms SpecUnroll SpecLoops LoopAlgebra Concrete ConcreteSpecs ConcreteRuns ConcreteParse ConcreteForms.
Open Scope list_scope.

(** The output is that of the rounds, one after the other. *)
Theorem C72_sequence : forall O Y env t ast,
  execute O Y env t ast = match codes O Y env t ast with Some l => in_sequence l | None => Err TypeError end.
Proof. exact execute_codes. Qed.
Print Assumptions C72_sequence.

(** The values of the first loop may be split at any place: the rounds of both parts, one
    after the other. *)
Theorem C72_split : forall O Y env t p vs ws ls ast,
  codes O Y env t (with_loops (loop p (vs ++ ws) :: ls) ast) =
  match codes O Y env t (with_loops (loop p vs :: ls) ast), codes O Y env t (with_loops (loop p ws :: ls) ast) with
  | Some a, Some b => Some (a ++ b)
  | _, _ => None
  end.
Proof. exact codes_split. Qed.
Print Assumptions C72_split.

Theorem C72_output_split : forall O Y env t p vs ws ls ast ts,
  execute O Y env t (with_loops (loop p (vs ++ ws) :: ls) ast) = Ok ts <->
  exists a b, execute O Y env t (with_loops (loop p vs :: ls) ast) = Ok a /\
              execute O Y env t (with_loops (loop p ws :: ls) ast) = Ok b /\ ts = a ++ b.
Proof. exact output_split. Qed.
Print Assumptions C72_output_split.

(** Those of any other loop too, but then the rounds are interleaved. *)
Theorem C72_split_anywhere : forall O Y env t pre p vs ws post ast,
  match codes O Y env t (with_loops (pre ++ loop p vs :: post) ast), codes O Y env t (with_loops (pre ++ loop p ws :: post) ast) with
  | Some a, Some b => exists l, codes O Y env t (with_loops (pre ++ loop p (vs ++ ws) :: post) ast) = Some l /\ Permutation l (a ++ b)
  | _, _ => codes O Y env t (with_loops (pre ++ loop p (vs ++ ws) :: post) ast) = None
  end.
Proof. exact codes_split_any. Qed.
Print Assumptions C72_split_anywhere.

(** Values in another order: the same rounds in another order. *)
Theorem C72_shuffled : forall O Y env t ls ls' ast, Forall2 shuffled ls ls' ->
  match codes O Y env t (with_loops ls ast), codes O Y env t (with_loops ls' ast) with
  | Some x, Some y => Permutation x y
  | None, None => True
  | _, _ => False
  end.
Proof. exact codes_shuffled. Qed.
Print Assumptions C72_shuffled.

(** Unrelated loops may be exchanged: the same code, round by round in another order. *)
Theorem C72_exchange : forall O Y env t ls ls' ast ts, exchanged_loops ls ls' ->
  NoDup (flat_map ids (ast_exprs (with_loops ls ast))) -> execute O Y env t (with_loops ls ast) = Ok ts ->
  exists cs cs', codes O Y env t (with_loops ls ast) = Some (map Ok cs) /\ Permutation cs cs' /\
                 ts = concat cs /\ execute O Y env t (with_loops ls' ast) = Ok (concat cs').
Proof. exact exchange_output. Qed.
Print Assumptions C72_exchange.

(** Two uses that differ in such an exchange: the code of the one consists of the rounds of
    the other. *)
Theorem C72_use : forall O P Y uses i j u u' ast ast' ls ls' A ts, exchanged_loops ls ls' ->
  nth_error uses i = Some u -> nth_error uses j = Some u' -> u_seed u = u_seed u' ->
  p_ast (inv_parsed (invocation_for O P u)) = Ok (Some ast) -> p_ast (inv_parsed (invocation_for O P u')) = Ok (Some ast') ->
  raised (invocation_for O P u) = raised (invocation_for O P u') ->
  erase_ast ast = with_loops ls A -> erase_ast ast' = with_loops ls' A ->
  nth_error (expand_uses O P Y uses) i = Some (Code ts) ->
  exists t cs cs', codes O Y (new_initialized O (u_seed u) (u_first_id u)) t ast = Some (map Ok cs) /\
    codes O Y (new_initialized O (u_seed u') (u_first_id u')) t ast' = Some (map Ok cs') /\ Permutation cs cs' /\
    ts = concat cs /\ nth_error (expand_uses O P Y uses) j = Some (Code (concat cs')).
Proof. exact loops_in_use. Qed.
Print Assumptions C72_use.

(** [for x in [p, q] for (y, z) in [(r, upper(s)), (t, v)] a = concat(x, y, z), { fn a() {} }] as
    parsed, its loops exchanged and the values of the first reversed. *)
Example C72_example :
  let l := [i "for"; i "x"; i "in"; bracket [i "p"; comma; i "q"]] in
  let l' := [i "for"; paren [i "y"; comma; i "z"]; i "in"; bracket [paren [i "r"; comma; i "upper"; paren [i "s"]]; comma; paren [i "t"; comma; i "v"]]] in
  let rest := [i "a"; p1 "="; i "concat"; paren [i "x"; comma; i "y"; comma; i "z"]; comma; brace (fn_named "a")] in
  let u := use_of (Compose (l ++ l' ++ rest)) in
  exists ast l1 l2, p_ast (inv_parsed (invocation_for ascii ascii_parsers u)) = Ok (Some ast) /\ ast = with_loops [l1; l2] ast /\
    List.length (loop_values l1) = 2 /\ List.length (loop_values l2) = 2 /\
    exchanged_loops [l1; l2] [l2; l1] /\ NoDup (flat_map ids (ast_exprs ast)) /\
    Forall2 shuffled [l1; l2] [loop (loop_pattern l1) (rev (loop_values l1)); l2] /\
    let yields a := execute ascii syntax1 (new_initialized ascii 0 0) None a in
    yields ast = Ok (fn_named "prS" ++ fn_named "ptv" ++ fn_named "qrS" ++ fn_named "qtv") /\
    yields (with_loops [l2; l1] ast) = Ok (fn_named "prS" ++ fn_named "qrS" ++ fn_named "ptv" ++ fn_named "qtv") /\
    yields (with_loops [loop (loop_pattern l1) (rev (loop_values l1)); l2] ast) = Ok (fn_named "qrS" ++ fn_named "qtv" ++ fn_named "prS" ++ fn_named "ptv").
Proof.
  intros l l' rest u. destruct (p_ast (inv_parsed (invocation_for ascii ascii_parsers u))) as [[ast|]|k|m] eqn:E; try (vm_compute in E; discriminate E).
  exists ast. vm_compute in E. injection E as <-. do 2 eexists. split; [reflexivity|]. split; [reflexivity|]. split; [reflexivity|]. split; [reflexivity|]. split.
  { apply (exchanged_step [] _ _ []); [|apply exchanged_none]. split; intros x e Hx He; vm_compute in Hx, He; intuition subst; vm_compute in *; intuition discriminate. }
  split; [vm_compute; repeat (constructor; [cbn; intuition discriminate|]); constructor|]. split.
  { constructor; [split; [reflexivity|]|constructor; [split; reflexivity|constructor]]. cbn [loop loop_values rev app]. apply perm_swap. }
  vm_compute. repeat split; reflexivity.
Qed.

(** Its two uses. *)
Example C72_use_example :
  let l := [i "for"; i "x"; i "in"; bracket [i "p"; comma; i "q"]] in
  let l' := [i "for"; paren [i "y"; comma; i "z"]; i "in"; bracket [paren [i "r"; comma; i "upper"; paren [i "s"]]; comma; paren [i "t"; comma; i "v"]]] in
  let rest := [i "a"; p1 "="; i "concat"; paren [i "x"; comma; i "y"; comma; i "z"]; comma; brace (fn_named "a")] in
  let u := use_of (Compose (l ++ l' ++ rest)) in
  let u' := use_of (Compose (l' ++ l ++ rest)) in
  (exists ast ast' l1 l2, p_ast (inv_parsed (invocation_for ascii ascii_parsers u)) = Ok (Some ast) /\ p_ast (inv_parsed (invocation_for ascii ascii_parsers u')) = Ok (Some ast') /\
    exchanged_loops [l1; l2] [l2; l1] /\ erase_ast ast = with_loops [l1; l2] (erase_ast ast) /\ erase_ast ast' = with_loops [l2; l1] (erase_ast ast)) /\
  u_seed u = u_seed u' /\ raised (invocation_for ascii ascii_parsers u) = raised (invocation_for ascii ascii_parsers u') /\
  expand_uses ascii ascii_parsers syntax1 [u; u'] =
  [Code (fn_named "prS" ++ fn_named "ptv" ++ fn_named "qrS" ++ fn_named "qtv"); Code (fn_named "prS" ++ fn_named "qrS" ++ fn_named "ptv" ++ fn_named "qtv")].
Proof.
  intros l l' rest u u'. split; [|split; [reflexivity|split; [reflexivity|vm_compute; reflexivity]]].
  destruct (p_ast (inv_parsed (invocation_for ascii ascii_parsers u))) as [[ast|]|k|m] eqn:E; try (vm_compute in E; discriminate E).
  destruct (p_ast (inv_parsed (invocation_for ascii ascii_parsers u'))) as [[ast'|]|k|m] eqn:E'; try (vm_compute in E'; discriminate E').
  exists ast, ast'. vm_compute in E. injection E as <-. vm_compute in E'. injection E' as <-. do 2 eexists. split; [reflexivity|]. split; [reflexivity|]. split; [|split; vm_compute; reflexivity].
  apply (exchanged_step [] _ _ []); [|apply exchanged_none]. split; intros x e Hx He; vm_compute in Hx, He; intuition subst; vm_compute in *; intuition discriminate.
Qed.

(** Not if a value of the second mentions the first: [for x in [p] for y in [concat(x, q)] { fn y() {} }]
    and the loops exchanged. *)
Theorem C72_exchange_refuted : exists l l' block,
  expand_uses ascii ascii_parsers syntax0 (map use_of [Compose (l ++ l' ++ block); Compose (l' ++ l ++ block)]) = [Code (fn_named "pq"); Code (fn_named "xq")].
Proof.
  exists (loop_text (txt "x") [[i "p"]]), (loop_text (txt "y") [[i "concat"; paren [i "x"; p1 ","; i "q"]]]), [brace (fn_named "y")]. vm_compute. reflexivity.
Qed.
Print Assumptions C72_exchange_refuted.

(** Nor is the report of a failing part that of the whole: [for x in [concat(), (p, q)] { fn x() {} }] is a
    type error, although its first value alone is a signature error. *)
Theorem C72_report_refuted : exists x v w block,
  expand_uses ascii ascii_parsers syntax0 (map use_of [Compose (loop_text x [v; w] ++ block); Compose (loop_text x [v] ++ block)]) =
  [CompileError TypeError; CompileError (SignatureError (txt "concat"))].
Proof.
  exists (txt "x"), [i "concat"; paren []], [paren [i "p"; comma; i "q"]], [brace (fn_named "x")]. vm_compute. reflexivity.
Qed.
Print Assumptions C72_report_refuted.

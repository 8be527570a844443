(** C33, C34: whole expansions.  [loops_over] and [one_round] are in SpecInterpreter. *)
From Coq Require Import String.
From Verif Require Import Base Token Types Values Ast Env Expand SpecProduct Item Deprecation Interpreter
  SpecInterpreter InterpreterProofs Concrete ConcreteSpecs ConcreteRuns RunFacts.
Open Scope list_scope.

(** C33: all the outputs in order, or nothing. *)
Theorem C33_all_outputs_in_order : forall O Y env t ast ts,
  execute O Y env t ast = Ok ts <->
  exists rws outs, expand ast = Ok rws /\
    Forall2 (fun rw o => execute_block_rewrite O Y env t rw = Ok o) rws outs /\ ts = concat outs.
Proof. exact execute_ok. Qed.
Print Assumptions C33_all_outputs_in_order.

(** The error is that of the first combination that cannot be expanded or, if all can, of
    the first one that cannot be executed. *)
Theorem C33_first_error : forall O Y env t ast e,
  execute O Y env t ast = Err e <->
  expand ast = Err e \/
  exists rws pre rw post, expand ast = Ok rws /\ rws = pre ++ rw :: post /\
    Forall (fun r => exists o, execute_block_rewrite O Y env t r = Ok o) pre /\
    execute_block_rewrite O Y env t rw = Err e.
Proof. exact execute_err. Qed.
Print Assumptions C33_first_error.

Theorem C33_first_expansion_error : forall (B : Type) (ast : raw_ast B) loops e, ast_loops ast = Some loops ->
  (expand ast = Err e <-> exists pre c post, all_combinations (map loop_values loops) = pre ++ c :: post /\
     Forall (fun d => exists rw, rewrite_for ast loops d = Ok rw) pre /\ rewrite_for ast loops c = Err e).
Proof. intros B; exact expand_err. Qed.
Print Assumptions C33_first_expansion_error.

(** So a mismatched tuple in a later combination hides the error of an earlier one. *)
Theorem C33_first_combination_refuted : exists ast first later e1 e2,
  ast = loops_over [LASimple (txt "a")] [[first; later]] (Some (spec_of [(txt "a", id_ 3 "z")])) [] /\
  execute ascii syntax0 env0 None (one_round [LASimple (txt "a")] [first] (Some (spec_of [(txt "a", id_ 3 "z")])) []) = Err e1 /\
  execute ascii syntax0 env0 None ast = Err e2 /\ e1 <> e2.
Proof. exact later_error_wins. Qed.
Print Assumptions C33_first_combination_refuted.

Example C33_example :
  let block := [SItem (IFn [] [] [i "fn"; i "a"; paren []] [])] in
  let f x := [i "fn"; i x; paren []; brace []] in
  execute ascii syntax0 env0 None (loops_over [LASimple (txt "a")] [[LSValue (id_ 1 "x"); LSValue (id_ 2 "y")]] None block) =
    Ok (f "x"%string ++ f "y"%string) /\
  execute ascii syntax0 env0 None (loops_over [LASimple (txt "a")]
      [[LSValue (id_ 1 "x"); LSValue (ECall 3 (txt "concat") [id_ 4 "b"; EValue 5 (VLitStr (txt "-") [])] None)]] None block) =
    Err EvalError.
Proof. split; vm_compute; reflexivity. Qed.

(** C34: the output of a choice of values is what it is alone, whatever the other values. *)
Theorem C34_rounds_are_independent : forall O Y env t ps vals spec block ts, ps <> [] -> length vals = length ps ->
  (execute O Y env t (loops_over ps vals spec block) = Ok ts <->
   exists outs, Forall2 (fun c o => execute O Y env t (one_round ps c spec block) = Ok o) (all_combinations vals) outs /\
     ts = concat outs).
Proof. exact rounds_ok. Qed.
Print Assumptions C34_rounds_are_independent.

Theorem C34_more_values : forall O Y env t p ps v1 v2 vals spec block ts, length vals = length ps ->
  (execute O Y env t (loops_over (p :: ps) ((v1 ++ v2) :: vals) spec block) = Ok ts <->
   exists t1 t2, execute O Y env t (loops_over (p :: ps) (v1 :: vals) spec block) = Ok t1 /\
     execute O Y env t (loops_over (p :: ps) (v2 :: vals) spec block) = Ok t2 /\ ts = t1 ++ t2).
Proof. exact outer_values. Qed.
Print Assumptions C34_more_values.

(** The same call takes another overload and type in each round. *)
Example C34_example :
  let spec := Some (spec_of [(txt "b", ECall 9 (txt "concat") [id_ 10 "a"; id_ 11 "a"] None)]) in
  let run vals := execute ascii syntax0 env0 None (loops_over [LASimple (txt "a")] [vals] spec [SOther [i "b"]]) in
  let x := LSValue (id_ 1 "x") in let s := LSValue (EValue 2 (VLitStr (txt "s") [])) in
  run [x] = Ok [i "xx"] /\ run [s] = Ok [ls "ss"] /\ run [x; s] = Ok [i "xx"; ls "ss"] /\ run [s; x; s] = Ok [ls "ss"; i "xx"; ls "ss"].
Proof. repeat split; vm_compute; reflexivity. Qed.

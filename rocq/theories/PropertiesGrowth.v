(** C78: how large values and code get.  [bulk] (tokens and the letters in them), [modest],
    [extent], [growth] and [doubling] are in SpecGrowth; [rounds] is in SpecMacro. *)
From Coq Require Import String.
From Verif Require Import Base Token Types Values Ast Env Eval Item Deprecation Interpreter Parse Macro
  SpecElab SpecItem SpecDeprecation SpecMacro SpecGrowth GrowthProofs DoublingProofs GrowthInstance RustModest
  Concrete ConcreteSpecs ConcreteRuns ConcreteParse RustLexer RustInstance.
Open Scope list_scope.

(** A value is at most as large as the product of the sizes of the definitions up to its own. *)
Theorem C78_values : forall c O seed first_id spec bs n x v, modest c O -> NoDup (item_ids (spec_items spec)) ->
  make_substitutions O (new_initialized O seed first_id) spec = Ok bs -> nth_error bs n = Some (x, v) ->
  (bulk (to_tokens v) <= growth (30 * c ^ 4) (firstn (S n) (spec_items spec)))%N.
Proof. exact values_grow. Qed.
Print Assumptions C78_values.

(** The code of a use: for each round the product of the sizes of its definitions times that of
    the block, and the attributes of the warnings. *)
Theorem C78_code : forall c O P Y uses i u ast ts, modest c O -> faithful O (reparse Y) -> covers Y -> nth_error uses i = Some u ->
  p_ast (inv_parsed (invocation_for O P u)) = Ok (Some ast) ->
  nth_error (expand_uses O P Y uses) i = Some (Code ts) ->
  exists rs, all_some (rounds ast) = Some rs /\
    (bulk ts <= sum (map (fun items => c ^ 2 * growth (30 * c ^ 4) items * bulk (block_tokens (map drop_where_stmt (ast_block ast))) +
       attributes_bulk (prefix_of (u_source (hd u uses))) (raised (invocation_for O P u))) rs))%N.
Proof. exact use_grows. Qed.
Print Assumptions C78_code.

(** The product is needed: a name can double with every definition. *)
Theorem C78_doubling : forall O seed first_id name x, (forall a b, name a = name b -> a = b) ->
  (forall k, ident_ok O (times (S k) x) = true) ->
  forall n, exists bs y,
    make_substitutions O (new_initialized O seed first_id) {| spec_items := doubling name x n; is_comma_used := Some true |} = Ok bs /\
    nth_error bs n = Some (name n, VIdent y) /\ List.length y = 2 ^ n * List.length x.
Proof. exact doubling_last. Qed.
Print Assumptions C78_doubling.

(** The hypothesis on the external functions can be met, also with the grammar of Rust. *)
Theorem C78_modest : modest 3 ascii /\ modest 5 rust.
Proof. exact (conj ascii_modest rust_modest). Qed.
Print Assumptions C78_modest.

(** [a = xy, b = concat(a, a), c = concat(b, b), d = upper(concat(c, 1)), { fn d() {} }] *)
Example C78_example :
  expand_uses ascii ascii_parsers syntax1
    [use_of (Compose [i "a"; p1 "="; i "xy"; p1 ","; i "b"; p1 "="; i "concat"; paren [i "a"; p1 ","; i "a"]; p1 ",";
       i "c"; p1 "="; i "concat"; paren [i "b"; p1 ","; i "b"]; p1 ",";
       i "d"; p1 "="; i "upper"; paren [i "concat"; paren [i "c"; p1 ","; li "1"]]; p1 ","; brace (fn_named "d")])] =
  [Code (fn_named "XYXYXYXY1")].
Proof. vm_compute. reflexivity. Qed.

(** The bound of C78_values for [a0 = xy, a1 = concat(a0, a0)] and the size of the value. *)
Example C78_bound :
  let name k := txt "a" ++ decimal (N.of_nat k) in
  let items := doubling name (txt "xy") 1 in
  (growth 1 items, map (fun b => bulk (to_tokens (snd b))) (match make_substitutions ascii env0 (spec_of items) with Ok bs => bs | _ => [] end)) =
  (64%N, [3%N; 5%N]).
Proof. vm_compute. reflexivity. Qed.

(** An alias that is a keyword, and a warning: the sizes of the code, of the attribute and of
    the block. *)
Example C78_warned :
  let u := use_of (ComposeIdents (lex "union = upper(x); { union U { a: union } }")) in
  let inv := invocation_for rust rust_parsers u in
  (map (fun o => match o with Code ts => Some (skipn 2 ts, bulk ts) | _ => None end) (expand_uses rust rust_parsers rust_syntax [u]), attributes_bulk (prefix_of (u_source u)) (raised inv),
   match p_ast (inv_parsed inv) with Ok (Some ast) => bulk (block_tokens (map drop_where_stmt (ast_block ast))) | _ => 0%N end) =
  ([Some (lex "union U { a: X }", 131%N)], 117%N, 18%N).
Proof. vm_compute. reflexivity. Qed.

(** C52: the work of overload resolution, counted in calls of [Expr::resolve]. *)
From Coq Require Import String.
From Verif Require Import Base Token Types Values Ast Env Resolve Expand Item Interpreter Parse Macro Work SpecWork SpecSize WorkProofs CostUseProofs
  Concrete ConcreteSpecs ConcreteRuns ConcreteParse.
Open Scope list_scope.

(** The counted resolver does what the resolver does. *)
Theorem C52_same : forall env e sc t, fst (cresolve_expr env e sc t) = resolve_expr env e sc t.
Proof. exact expr_same. Qed.
Print Assumptions C52_same.

(** Every call resolves its arguments at most once per overload. *)
Theorem C52_at_most : forall O seed first e sc t, (snd (cresolve_expr (new_initialized O seed first) e sc t) <= work_bound 7 e)%N.
Proof. exact builtin_work. Qed.
Print Assumptions C52_at_most.
Theorem C52_at_most_any_table : forall env V, (forall name fs, get_func_variants env name = Some fs -> (N.of_nat (List.length fs) <= V)%N) ->
  forall e sc t, (snd (cresolve_expr env e sc t) <= work_bound V e)%N.
Proof. exact expr_work. Qed.
Print Assumptions C52_at_most_any_table.

(** And the work is exponential in the size of the source: a chain of [n] calls of [concat]
    has size [2 n + 1] and takes [2 ^ n] steps at least. *)
Theorem C52_exponential : forall O seed first n id,
  size (chain n id) = (2 * N.of_nat n + 1)%N /\
  (2 ^ N.of_nat n <= snd (cresolve_expr (new_initialized O seed first) (chain n id) empty_scope None))%N.
Proof. exact (fun O seed first n id => conj (chain_size n id) (chain_work O seed first n id)). Qed.
Print Assumptions C52_exponential.

(** [concat(concat(concat(x, x), x), x)] and [a = upper(x)] *)
Example C52_example :
  map (fun n => snd (cresolve_expr env0 (chain n 0) empty_scope None)) [1; 2; 3; 4; 10] = [9; 27; 63; 133; 8275]%N /\
  snd (cresolve_expr env0 (ECall 0 (txt "upper") [EValue 1 (VIdent (txt "x"))] None) empty_scope None) = 3%N /\
  work_bound 7 (chain 3 0) = 1198%N.
Proof. repeat split; vm_compute; reflexivity. Qed.

(** [raw(...)] takes two steps whatever is inside. *)
Theorem C52_raw : forall O seed first id args rid ts sc,
  snd (cresolve_expr (new_initialized O seed first) (ECall id (txt "raw") args (Some (rid, ts))) sc None) = 2%N.
Proof. exact raw_work. Qed.
Print Assumptions C52_raw.

(** In terms of what is written: the definitions of every copy of the block take at most
    eight steps for every token outside of braces, times seven for every pair of delimiters
    around it.  So the work is linear where nothing is nested. *)
Theorem C52_uses : forall O P u ast rws rw,
  p_ast (inv_parsed (invocation_for O P u)) = Ok (Some ast) -> expand ast = Ok rws -> In rw rws ->
  let ts := written (u_source u) in
  (snd (cresolve_items (new_initialized O (u_seed u) (u_first_id u)) empty_scope (spec_items (fst rw))) <= 8 * tokens_of ts * 7 ^ nesting_of ts)%N.
Proof. exact use_work. Qed.
Print Assumptions C52_uses.
Theorem C52_definitions : forall env items sc, fst (cresolve_items env sc items) = resolve_items env sc items.
Proof. exact items_same. Qed.
Print Assumptions C52_definitions.

(** [compose!(p = to_path(x), a = concat(concat(p)), {})] *)
Example C52_uses_example : exists ast rw,
  p_ast (inv_parsed (invocation_for ascii ascii_parsers (deep_use 2%nat))) = Ok (Some ast) /\ expand ast = Ok [rw] /\
  (snd (cresolve_items env0 empty_scope (spec_items (fst rw))) = 14)%N /\
  (8 * tokens_of (written (u_source (deep_use 2%nat))) * 7 ^ nesting_of (written (u_source (deep_use 2%nat))) = 5880)%N.
Proof. do 2 eexists. split; [vm_compute; reflexivity|]. split; [vm_compute; reflexivity|]. split; vm_compute; reflexivity. Qed.

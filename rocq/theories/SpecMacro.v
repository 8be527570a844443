(** Specification of the macros as a whole: what a parsed input means, without resolver
    tables, iterators, the walker, the visitor or the deprecation service; and the ways a use
    can fail. *)
From Coq Require Import String Bool.
From Verif Require Import Base Token Types Values Ast Env Item Deprecation Interpreter Macro
  SpecProduct SpecTuple SpecElab SpecSubst SpecItem.
Open Scope list_scope.

(** ** The aliases of one round *)

(** The nodes of a tuple level by level, and the values among them. *)
Fixpoint nodes_by_level {V} (depth : nat) (level : tuple V) : tuple V :=
  match depth with
  | 0 => []
  | S d => level ++ nodes_by_level d (flat_map children level)
  end.
Definition values_in_level_order {V} (t : tuple V) : list V :=
  flat_map (fun n => match n with TVValue v => [v] | TVTuple _ => [] end) (nodes_by_level (depth t) t).

(** A pattern is matched with a value: one alias with one value; tuples with the same kinds of
    nodes, level by level, value by value. *)
Definition matched (p : loop_alias) (v : loop_source_value) : option (list spec_item) :=
  match p, v with
  | LASimple a, LSValue e => Some [(a, e)]
  | LATuple a, LSTuple e =>
      if list_eq_dec bool_dec (kinds_in_level_order a) (kinds_in_level_order e)
      then Some (combine (values_in_level_order a) (values_in_level_order e)) else None
  | _, _ => None
  end.
Fixpoint all_matched (ps : list loop_alias) (vs : list loop_source_value) : option (list spec_item) :=
  match ps, vs with
  | p :: ps', v :: vs' =>
      match matched p v, all_matched ps' vs' with Some a, Some b => Some (a ++ b) | _, _ => None end
  | _, _ => Some []
  end.

(** The definitions of every round: those of the loops, then those of the list. *)
Definition own_items {B} (ast : raw_ast B) : list spec_item :=
  match ast_spec ast with Some s => spec_items s | None => [] end.
Definition rounds {B} (ast : raw_ast B) : list (option (list spec_item)) :=
  match ast_loops ast with
  | None => [Some (own_items ast)]
  | Some loops =>
      map (fun c => option_map (fun items => items ++ own_items ast) (all_matched (map loop_pattern loops) c))
        (all_combinations (map loop_values loops))
  end.
Fixpoint all_some {A} (l : list (option A)) : option (list A) :=
  match l with
  | [] => Some []
  | Some x :: r => option_map (cons x) (all_some r)
  | None :: _ => None
  end.

(** ** The code *)

(** The block (without where clauses, see C25) with the aliases of the round replaced. *)
Definition round_code (O : oracles) (env : environment) (block : list stmt) (items : list spec_item) : res (list tt) :=
  let! bs := bindings O env items in
  Ok (substituted O (fun x => assoc_str x bs) (block_tokens (map drop_where_stmt block))).

(** All the rounds; [finish] is what is done to the code of a round. *)
Definition meaning (O : oracles) (env : environment) (finish : list tt -> list tt) (ast : raw_ast (list stmt)) : res (list tt) :=
  match all_some (rounds ast) with
  | None => Err TypeError
  | Some rs => let! codes := mapM (round_code O env (ast_block ast)) rs in Ok (concat (map finish codes))
  end.

(** The aliases of an input. *)
Definition pattern_aliases (p : loop_alias) : list str :=
  match p with LASimple a => [a] | LATuple t => values_in_level_order t end.
Definition ast_aliases {B} (ast : raw_ast B) : list str :=
  match ast_loops ast with Some ls => flat_map (fun l => pattern_aliases (loop_pattern l)) ls | None => [] end ++
  map fst (own_items ast).

(** What [emit] does to the code of a round. *)
Definition with_warnings (Y : syntax) (prefix : str) (ws : list warning) (ts : list tt) : list tt :=
  forest_tokens (emit {| warnings := ws; borrowed := 1; s_prefix := prefix |} (as_forest Y ts)).

(** ** Failures *)

(** The errors a use can report and the places where it can panic. *)
Inductive reported (O : oracles) : error -> Prop :=
| reported_type : reported O TypeError
| reported_eval : reported O EvalError
| reported_redefined : forall x, reported O (RedefinedNameError x)
| reported_signature : forall f, known O f = true -> reported O (SignatureError f)
| reported_substitution : forall x, reported O (SubstitutionError x).
Inductive panicking : panic -> Prop :=
| panic_ident : panicking PIdentNew
| panic_literal : panicking PLitNew
| panic_error_data : panicking PErrorData
| panic_unreachable : panicking PUnreachable.

(** Vocabulary for reproducibility: inputs without ids, definitions that do not hash. *)
From Coq Require Import String.
From Verif Require Import Base Token Types Values Ast Env Item Interpreter Parse Macro SpecElab SpecPrograms SpecParse.
Open Scope list_scope.

(** A function applied to every expression of an input. *)
Fixpoint map_tuple_value {V W} (f : V -> W) (t : tuple_value V) : tuple_value W :=
  match t with
  | TVValue v => TVValue (f v)
  | TVTuple l => TVTuple (map (map_tuple_value f) l)
  end.
Definition map_tuple {V W} (f : V -> W) (t : tuple V) : tuple W := map (map_tuple_value f) t.
Definition map_source (f : expr -> expr) (v : loop_source_value) : loop_source_value :=
  match v with LSValue e => LSValue (f e) | LSTuple t => LSTuple (map_tuple f t) end.
Definition map_loop (f : expr -> expr) (l : loop_item) : loop_item :=
  {| loop_pattern := loop_pattern l; loop_values := map (map_source f) (loop_values l) |}.
Definition map_items (f : expr -> expr) (l : list spec_item) : list spec_item := map (fun it => (fst it, f (snd it))) l.
Definition map_spec (f : expr -> expr) (s : alias_spec) : alias_spec :=
  {| spec_items := map_items f (spec_items s); is_comma_used := is_comma_used s |}.
Definition map_ast {B} (f : expr -> expr) (a : raw_ast B) : raw_ast B :=
  {| ast_loops := option_map (map (map_loop f)) (ast_loops a); ast_spec := option_map (map_spec f) (ast_spec a); ast_block := ast_block a |}.

(** What was parsed, without ids. *)
Definition erase_ast {B} : raw_ast B -> raw_ast B := map_ast erase.
Definition erase_parsed (p : parsed) : parsed :=
  {| p_scope := p_scope p;
     p_ast := match p_ast p with Ok o => Ok (option_map erase_ast o) | Err e => Err e | Panic x => Panic x end |}.

(** Not one call of [hash]. *)
Definition hash_free {B} (a : raw_ast B) : Prop :=
  Forall (calls_known (fun f => negb (str_eqb f (txt "hash")))) (ast_exprs a).

(** The same source, and the same seed unless nothing is hashed. *)
Definition same_use (O : oracles) (P : parsers) (u u' : use) : Prop :=
  u_source u = u_source u' /\
  (u_seed u = u_seed u' \/
   forall ast, p_ast (inv_parsed (invocation_for O P u)) = Ok (Some ast) -> hash_free ast).

(** Model of expansions in several threads.  They share the counter of
    /repo/src/util/unique_id.rs 3; the environment (core/environment/core.rs 19-21) and the
    deprecation service (util/deprecation.rs 12-14) are thread-local. *)
From Coq Require Import String.
From Verif Require Import Base Token Types Values Ast Env Item Deprecation Interpreter Parse Macro UniqueId SpecElab SpecPrograms SpecRepro.
Open Scope list_scope.

(** What a thread has yet to do, as far as others can tell: it draws ids until it has
    expanded all its uses.  Everything in between two draws touches thread-local state
    only. *)
Inductive program :=
| Return (os : list output)
| Draw (go : N -> program).

(** Draws in order; those marked [true] are kept. *)
Fixpoint draw (plan : list bool) (got : list N) (k : list N -> program) : program :=
  match plan with
  | [] => k got
  | kept :: r => Draw (fun id => draw r (if kept then got ++ [id] else got) k)
  end.

(** The id that was drawn [k]-th. *)
Definition kth (ids : list N) (k : N) : N := nth (N.to_nat k) ids 0%N.

(** Other ids for the nodes of an expression. *)
Fixpoint relabel (f : N -> N) (e : expr) : expr :=
  match e with
  | EValue id v => EValue (f id) v
  | ECall id name args raw => ECall (f id) name (map (relabel f) args) (option_map (fun p => (f (fst p), snd p)) raw)
  end.
Definition relabel_parsed (f : N -> N) (p : parsed) : parsed :=
  {| p_scope := p_scope p;
     p_ast := match p_ast p with
              | Ok o => Ok (option_map (map_ast (relabel f)) o)
              | Err e => Err e
              | Panic x => Panic x
              end |}.

Section Threads.
Context (O : oracles) (P : parsers) (Y : syntax).

(** funcs.rs 12-116: a [Func] is made for each overload. *)
Definition overloads : nat := List.length (flat_map snd (e_funcs (new_initialized O 0 0))).

(** lib.rs 36, core/environment/core.rs 27-30, core/type_.rs 112-118: the environment with
    the seed and the overload ids drawn. *)
Definition drawn_environment (seed : N) (fs : list N) : environment :=
  renumber (kth fs) (new_initialized O seed 0).

(** lib.rs 40-58: the input as it is parsed with the node ids [ns]. *)
Definition drawn_parse (ns : list N) (s : source) : parsed :=
  relabel_parsed (kth ns) (inv_parsed (invocation_of O P 0 0 0 s)).

(** lib.rs 31-68, as [compose_core] but with the environment given. *)
Definition compose_core_in (env : environment) (prefix : str) (p : parsed) (t : thread) : thread * output :=
  let t1 := maybe_set_global (new_service prefix) t in
  match scoped t1 with
  | Err e => (t1, CompileError e)
  | Panic x => (t1, Panicked x)
  | Ok t2 =>
      match run_parser p t2 with
      | Err e => close t2 (CompileError e)
      | Panic x => close t2 (Panicked x)
      | Ok t3 =>
          match p_ast p with
          | Panic x => close t3 (Panicked x)
          | Err e => close t3 (CompileError e)
          | Ok None => close t3 SyntaxError
          | Ok (Some ast) =>
              close t3 (match execute O Y env t3 ast with
                        | Ok ts => Code ts
                        | Err e => CompileError e
                        | Panic x => Panicked x
                        end)
          end
      end
  end.

(** A use of a macro and what it draws after the environment is made: an id for every node
    ([true]), and ids that nothing depends on ([false]): those of alias, loop and tuple nodes
    (parse/alias.rs 9, parse/alias_value.rs 14, parse/tuple.rs 44, ...), those of nodes the
    parser builds and drops, and those of the nodes that expansion and evaluation build
    (expand/raw_ast.rs 47-122, ast/value.rs 42-63). *)
Definition planned := (source * list bool)%type.

(** lib.rs 31-68 *)
Definition use_program (u : planned) (t : thread) (k : thread -> output -> program) : program :=
  Draw (fun seed =>
    draw (repeat true overloads) [] (fun fs =>
      draw (snd u) [] (fun ns =>
        let (t', o) := compose_core_in (drawn_environment seed fs) (prefix_of (fst u)) (drawn_parse ns (fst u)) t in
        k t' o))).

(** A thread's uses one after the other. *)
Fixpoint uses_program (us : list planned) (t : thread) (os : list output) : program :=
  match us with
  | [] => Return os
  | u :: r => use_program u t (fun t' o => uses_program r t' (os ++ [o]))
  end.
(** A thread begins without a service. *)
Definition thread_program (us : list planned) : program := uses_program us None [].
End Threads.

(** unique_id.rs 6-11: the counter and the threads; a step is one thread's [fetch_add]. *)
Definition state := (N * list program)%type.
Fixpoint replace {A} (i : nat) (x : A) (l : list A) : list A :=
  match l, i with
  | [], _ => []
  | _ :: r, 0 => x :: r
  | y :: r, S i => y :: replace i x r
  end.
Definition step (m : state) (i : nat) : state :=
  match nth_error (snd m) i with
  | Some (Draw go) => let (id, c) := next_unique_id (fst m) in (c, replace i (go id) (snd m))
  | _ => m
  end.
(** The schedule says which thread draws next; a finished thread does nothing. *)
Definition machine (m : state) (schedule : list nat) : state := fold_left step schedule m.

(** Model of the entry points of /repo/src/lib.rs: the macros applied to source tokens. *)
From Coq Require Import String.
From Verif Require Import Base Token Types Values Ast Env Item Deprecation Interpreter Parse.
Open Scope list_scope.

(** lib.rs 26-29, 111-113, 149-151, 194-196: what is written and with which macro. *)
Inductive source :=
| Compose (ts : list tt)
| ComposeIdents (ts : list tt)
| ComposeItem (attr item : list tt).

Definition prefix_of (s : source) : str :=
  match s with
  | Compose _ => txt "compose!: "
  | ComposeIdents _ => txt "compose_idents!: "
  | ComposeItem _ _ => txt "compose_item!: "
  end.

Section Macro.
Context (O : oracles) (P : parsers) (Y : syntax).

(** The functions the parser knows (parse/call.rs 16-22): those of the thread's first
    environment, which has the same functions as any other (C37_same_table). *)
Definition known (name : str) : bool := has_func (new_initialized O 0 0) name.

(** lib.rs 31-60 up to [interpreter.execute].  [seed], [first_id] and [next_id] are what the
    process-wide counter supplies for the environment's seed, its functions and the nodes. *)
Definition invocation_of (seed first_id next_id : N) (s : source) : invocation :=
  {| inv_prefix := prefix_of s;
     inv_parsed := match s with
                   | Compose ts | ComposeIdents ts => parse_func_macro P known next_id ts
                   | ComposeItem attr item => parse_attr_macro P known next_id attr item
                   end;
     inv_seed := seed; inv_first_id := first_id |}.

(** A use of a macro and the values of the counter it sees. *)
Record use := { u_source : source; u_seed : N; u_first_id : N; u_next_id : N }.
Definition invocation_for (u : use) : invocation :=
  invocation_of (u_seed u) (u_first_id u) (u_next_id u) (u_source u).

(** All the uses in a compilation, expanded by one thread. *)
Definition expand_uses (uses : list use) : list output := snd (run O Y None (map invocation_for uses)).
End Macro.

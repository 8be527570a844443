(** Model of the entry points of /repo/src/lib.rs on input with invisible groups: Macro.v with
    the parser of InvisibleParse. *)
From Verif Require Import Base Token Types Values Ast Env Item Deprecation Interpreter Parse Macro InvisibleParse.
Open Scope list_scope.

Section Macro.
Context (O : oracles) (P : parsers) (Y : syntax).

(** lib.rs 31-60 up to [interpreter.execute]. *)
Definition invocation_through (u : use) : invocation :=
  {| inv_prefix := prefix_of (u_source u);
     inv_parsed := match u_source u with
                   | Compose ts | ComposeIdents ts => parse_func_macro P (known O) (u_next_id u) ts
                   | ComposeItem attr item => parse_attr_macro P (known O) (u_next_id u) attr item
                   end;
     inv_seed := u_seed u; inv_first_id := u_first_id u |}.

(** All the uses in a compilation, expanded by one thread. *)
Definition expand_uses_through (uses : list use) : list output := snd (run O Y None (map invocation_through uses)).
End Macro.

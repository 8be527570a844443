(** The entry points of /repo/src/lib.rs with spans on input with invisible groups: SpanMacro.v
    with the parser of SpanInvisible.v. *)
From Verif Require Import Base Token Types Values Ast Env Item Deprecation Interpreter Parse Macro Failures
  SpanTokens SpanWalker SpanValues SpanEval SpanItem SpanVisitor SpanDeprecation SpanParse SpanExpand SpanMacro SpanInvisible.
Open Scope list_scope.

Section Macro.
Context (O : oracles) (SO : soracles) (P : parsers) (SP : sparsers) (SY : ssyntax).

(** lib.rs 31-60 up to [interpreter.execute]. *)
Definition sinvocation_through (u : suse) : sinvocation :=
  {| sinv_prefix := prefix_of (erase_source (su_source u));
     sinv_parsed := match su_source u with
                    | SCompose ts | SComposeIdents ts => through_func_macro P SP (known O) (su_next_id u) ts
                    | SComposeItem attr item => through_attr_macro P SP (known O) (su_next_id u) attr item
                    end;
     sinv_seed := su_seed u; sinv_first_id := su_first_id u |}.

(** lib.rs 31-60: all the uses in a compilation, expanded by one thread. *)
Definition sexpand_uses_through (uses : list suse) : list soutput := snd (srun O SO SY None (map sinvocation_through uses)).
End Macro.

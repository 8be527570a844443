(** The macros with spans: /repo/src/interpreter/core.rs and /repo/src/lib.rs, the same code as
    Interpreter.v and Macro.v, up to the tokens that the compiler is given. *)
From Coq Require Import String.
From Verif Require Import Base Token Types Values Ast Env Item Deprecation Interpreter Parse Macro Failures
  SpanTokens SpanWalker SpanValues SpanEval SpanItem SpanVisitor SpanDeprecation SpanParse SpanExpand.
Open Scope list_scope.

Record ssyntax := {
  snodes : ssyntax_nodes;
  sas_forest : list stt -> pforest;
}.

Section Interpreter.
Context (O : oracles) (SO : soracles) (SY : ssyntax).

(** interpreter/core.rs 80-93, on the emitted statements. *)
Definition ssubstitute (t : thread) (block : list pstmt) (subst : scontext) : sres (list stt) :=
  let? block' := svisit_block O SO (fun x => assoc_str x (map (fun b => (fst b, erase_value (snd b))) subst))
                   (fun x => option_map sto_tokens (assoc_str x subst)) (snodes SY) block in
  SOk (pforest_tokens (sscope_emit t (sas_forest SY (pblock_tokens block')))).

(** interpreter/core.rs 95-106 *)
Definition sexecute_block_rewrite (env : environment) (t : thread) (rw : salias_spec * list pstmt) : sres (list stt) :=
  let? subst := smake_substitutions O SO env (ss_items (fst rw)) in
  ssubstitute t (snd rw) subst.

(** interpreter/core.rs 108-121 *)
Definition sexecute (env : environment) (t : thread) (ast : sraw_ast (list pstmt)) : sres (list stt) :=
  let? expanded := sexpand SO ast in
  let? result := smapM (sexecute_block_rewrite env t) expanded in
  SOk (List.concat result).

(** What the macro makes of its input (lib.rs 31-68). *)
Inductive soutput :=
| SCode (ts : list stt)
| SSyntaxError (ms : messages)
| SCompileError (f : failure) (at_ : span)
| SPanicked (p : panic).

Definition sclose (t : thread) (o : soutput) : thread * soutput :=
  match scope_drop t with
  | Ok t' => (t', o)
  | Err _ => (t, o)   (* does not happen *)
  | Panic p => (t, SPanicked p)
  end.

Record sinvocation := { sinv_prefix : str; sinv_parsed : sparsed; sinv_seed : N; sinv_first_id : N }.

(** lib.rs 31-68 *)
Definition scompose_core (t : thread) (inv : sinvocation) : thread * soutput :=
  let t1 := maybe_set_global (new_service (sinv_prefix inv)) t in
  match scoped t1 with
  | Err _ => (t1, SCompileError FInternal call_site)   (* does not happen *)
  | Panic p => (t1, SPanicked p)
  | Ok t2 =>
      let env := new_initialized O (sinv_seed inv) (sinv_first_id inv) in
      match run_parser {| p_scope := sp_scope (sinv_parsed inv); p_ast := Ok None |} t2 with
      | Err _ => sclose t2 (SCompileError FInternal call_site)   (* does not happen *)
      | Panic p => sclose t2 (SPanicked p)
      | Ok t3 =>
          match sp_ast (sinv_parsed inv) with
          | inr e => sclose t3 (SSyntaxError e)
          | inl ast =>
              sclose t3 (match sexecute env t3 ast with
                         | SOk ts => SCode ts
                         | SErr f s => SCompileError f s
                         | SPanic p => SPanicked p
                         end)
          end
      end
  end.

Fixpoint srun (t : thread) (invs : list sinvocation) : thread * list soutput :=
  match invs with
  | [] => (t, [])
  | inv :: r =>
      let (t1, o) := scompose_core t inv in
      let (t2, os) := srun t1 r in
      (t2, o :: os)
  end.
End Interpreter.

(** [syn::Error::to_compile_error]: one [::core::compile_error!{ "text" }] per message. *)
Definition sjoint (x : string) (s : span) : stt := SPunct (hd 0%N (txt x)) true s.
Definition compile_error_tokens (m : syn_message) : list stt :=
  let a := m_start m in let b := m_end m in
  [sjoint ":" a; ssym ":" a; skw "core" a; sjoint ":" a; ssym ":" a; skw "compile_error" a; ssym "!" a;
   sgroup Brace b [SLit (LStr (m_text m) []) b]].
(** The messages of an outcome that is no code (error.rs 73-78), and the tokens that the
    compiler is given (lib.rs 43-67); a macro that panics yields none. *)
Definition said (o : soutput) : messages :=
  match o with
  | SSyntaxError ms => ms
  | SCompileError f s => [new_message s (message f)]
  | SCode _ | SPanicked _ => []
  end.
Definition emitted (o : soutput) : option (list stt) :=
  match o with
  | SCode ts => Some ts
  | SSyntaxError _ | SCompileError _ _ => Some (flat_map compile_error_tokens (said o))
  | SPanicked _ => None
  end.

(** ** The entry points *)
Inductive ssource :=
| SCompose (ts : list stt)
| SComposeIdents (ts : list stt)
| SComposeItem (attr item : list stt).
Definition erase_source (s : ssource) : source :=
  match s with
  | SCompose ts => Compose (map erase ts)
  | SComposeIdents ts => ComposeIdents (map erase ts)
  | SComposeItem attr item => ComposeItem (map erase attr) (map erase item)
  end.

Section Macro.
Context (O : oracles) (SO : soracles) (P : parsers) (SP : sparsers) (SY : ssyntax).

Definition sinvocation_of (seed first_id next_id : N) (s : ssource) : sinvocation :=
  {| sinv_prefix := prefix_of (erase_source s);
     sinv_parsed := match s with
                    | SCompose ts | SComposeIdents ts => sparse_func_macro P SP (known O) next_id ts
                    | SComposeItem attr item => sparse_attr_macro P SP (known O) next_id attr item
                    end;
     sinv_seed := seed; sinv_first_id := first_id |}.

Record suse := { su_source : ssource; su_seed : N; su_first_id : N; su_next_id : N }.
Definition sinvocation_for (u : suse) : sinvocation :=
  sinvocation_of (su_seed u) (su_first_id u) (su_next_id u) (su_source u).
Definition sexpand_uses (uses : list suse) : list soutput := snd (srun O SO SY None (map sinvocation_for uses)).
End Macro.

(** Specification of the macros with spans: what is assumed of syn's parsers, and the same
    things without the spans. *)
From Verif Require Import Base Token Types Values Ast Item Deprecation Interpreter Parse Macro SpecRepro Failures
  SpanTokens SpanWalker SpanValues SpanEval SpanItem SpanVisitor SpanDeprecation SpanParse SpanExpand SpanMacro SpecSpanEval SpecSpanItem.
Open Scope list_scope.

(** ** Without the spans *)
Definition plain_source (v : ssource_value) : loop_source_value :=
  match v with SLSValue e => LSValue (erase_expr e) | SLSTuple _ t => LSTuple (map_tuple erase_expr t) end.
Definition plain_loop (l : sloop_item) : loop_item :=
  {| loop_pattern := sl_pattern l; loop_values := map plain_source (sl_values l) |}.
Definition plain_spec (s : salias_spec) : alias_spec :=
  {| spec_items := erase_spec (ss_items s); is_comma_used := ss_comma s |}.
Definition plain_ast {B C} (f : B -> C) (a : sraw_ast B) : raw_ast C :=
  {| ast_loops := option_map (map plain_loop) (sa_loops a); ast_spec := option_map plain_spec (sa_spec a);
     ast_block := f (sa_block a) |}.
(** A syntax error without its messages. *)
Definition plain_parsed (p : sparsed) : parsed :=
  {| p_scope := sp_scope p;
     p_ast := Ok (match sp_ast p with inl a => Some (plain_ast (map erase_stmt) a) | inr _ => None end) |}.
Definition plain_output (o : soutput) : output :=
  match o with
  | SCode ts => Code (map erase ts)
  | SSyntaxError _ => SyntaxError
  | SCompileError f _ => CompileError (class f)
  | SPanicked p => Panicked p
  end.
Definition plain_use (u : suse) : use :=
  {| u_source := match su_source u with
                 | SCompose ts => Compose (map erase ts)
                 | SComposeIdents ts => ComposeIdents (map erase ts)
                 | SComposeItem attr item => ComposeItem (map erase attr) (map erase item)
                 end; u_seed := su_seed u; u_first_id := su_first_id u; u_next_id := su_next_id u |}.

(** ** syn's parsers and spans *)
(** Parsing does not look at spans. *)
Definition erase_node {A B} (f : A -> B) (x : A * nat * option syn_message) : B * nat * bool :=
  let '(a, k, u) := x in (f a, k, is_some u).
Record spanless_parsers (P : parsers) (SP : sparsers) : Prop := {
  spanless_pre_lit_int : forall ts, option_map (fun '(d, r, _, k) => (d, r, k)) (spre_lit_int SP ts) = pre_lit_int P (map erase ts);
  spanless_pre_lit_str : forall ts, option_map (fun '(v, p, _, k) => (v, p, k)) (spre_lit_str SP ts) = pre_lit_str P (map erase ts);
  spanless_pre_path : forall ts, option_map (erase_node (map erase)) (spre_path SP ts) = pre_path P (map erase ts);
  spanless_pre_type : forall ts, option_map (erase_node (map erase)) (spre_type SP ts) = pre_type P (map erase ts);
  spanless_pre_expr : forall ts, option_map (erase_node (map erase)) (spre_expr SP ts) = pre_expr P (map erase ts);
  spanless_pre_block : forall ts, option_map (erase_node (map erase_stmt)) (spre_block SP ts) = pre_block P (map erase ts);
}.
Record spanless_syntax (Y : syntax) (SY : ssyntax) : Prop := {
  spanless_snodes : spanless_nodes (reparse Y) (snodes SY);
  spanless_forest : forall ts, map erase_tree (sas_forest SY ts) = as_forest Y (map erase ts);
}.

Section In.
Context (U : span -> Prop).
Definition message_in (m : syn_message) : Prop := U (m_start m) /\ U (m_end m).
Definition expr_in (e : sexpr) : Prop := Forall U (expr_spans e).
End In.
(** A set of spans that joined spans stay in ([Span::join] does nothing on stable
    compilers). *)
Definition joins_in (SO : soracles) (U : span -> Prop) : Prop :=
  forall a b s, join SO a b = Some s -> U a -> U b -> U s.
(** What is parsed has the spans of the tokens, or [call_site] for tokens supplied in
    printing and for the end of the input; so have the messages.  The sign and the digits of a
    negative number become one literal, whose span is joined from theirs. *)
Definition node_in (SO : soracles) (ts : list stt) {A} (Q : (span -> Prop) -> A -> Prop) (x : A * nat * option syn_message) : Prop :=
  forall U : span -> Prop, U call_site -> joins_in SO U -> stream_in U ts -> let '(a, _, u) := x in Q U a /\ opt_in (message_in U) u.
Record inherited_parsers (SO : soracles) (SP : sparsers) : Prop := {
  inherited_pre_lit_int : forall ts d r s k, spre_lit_int SP ts = Some (d, r, s, k) ->
    forall U : span -> Prop, joins_in SO U -> stream_in U ts -> U s;
  inherited_pre_lit_str : forall ts v p s k, spre_lit_str SP ts = Some (v, p, s, k) -> In s (spans ts);
  inherited_pre_path : forall ts x, spre_path SP ts = Some x -> node_in SO ts stream_in x;
  inherited_pre_type : forall ts x, spre_type SP ts = Some x -> node_in SO ts stream_in x;
  inherited_pre_expr : forall ts x, spre_expr SP ts = Some x -> node_in SO ts stream_in x;
  inherited_pre_block : forall ts x, spre_block SP ts = Some x -> node_in SO ts block_in x;
  inherited_block_error : forall (U : span -> Prop) ts, U call_site -> joins_in SO U -> stream_in U ts -> Forall (message_in U) (block_error SP ts);
}.
Record inherited_syntax (SY : ssyntax) : Prop := {
  inherited_snodes : inherited_nodes (snodes SY);
  inherited_forest : forall ts, incl (spans (pforest_tokens (sas_forest SY ts))) (call_site :: spans ts);
}.

(** ** Where spans come from *)
(** The tokens that the macro is given. *)
Definition input_spans (s : ssource) : list span :=
  match s with
  | SCompose ts | SComposeIdents ts => spans ts
  | SComposeItem attr item => spans attr ++ spans item
  end.
(** The tokens that the compiler is given for a use have spans of that use only. *)
Definition own_spans (SO : soracles) (u : suse) (o : soutput) : Prop :=
  forall U : span -> Prop, U call_site -> joins_in SO U -> Forall U (input_spans (su_source u)) ->
  forall ts, emitted o = Some ts -> Forall U (spans ts).

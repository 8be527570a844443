(** Specification of moving a use of a macro: every span is replaced by another, and what is
    assumed of syn's parsers. *)
From Verif Require Import Base Token Types Values Ast Item SpecRepro Failures
  SpanTokens SpanWalker SpanValues SpanEval SpanItem SpanVisitor SpanDeprecation SpanParse SpanExpand SpanMacro.
Open Scope list_scope.

Section Shift.
Context (g : span -> span).

(** ** Tokens, values and expressions *)
Definition shift_delims (s : delim_span) : delim_span :=
  {| ds_open := g (ds_open s); ds_close := g (ds_close s); ds_entire := g (ds_entire s) |}.
Fixpoint shift1 (t : stt) : stt :=
  match t with
  | SIdent x s => SIdent x (g s)
  | SPunct c j s => SPunct c j (g s)
  | SLit l s => SLit l (g s)
  | SGroup d ts s => SGroup d (map shift1 ts) (shift_delims s)
  end.
Definition shift (ts : list stt) : list stt := map shift1 ts.
Definition shift_name (x : str * span) : str * span := (fst x, g (snd x)).
Definition shift_lit (x : str * str * span) : str * str * span := (fst x, g (snd x)).
Definition shift_value (v : svalue) : svalue :=
  match v with
  | SVIdent x s => SVIdent x (g s)
  | SVPath ts => SVPath (shift ts)
  | SVType ts => SVType (shift ts)
  | SVExpr ts => SVExpr (shift ts)
  | SVLitStr x p s => SVLitStr x p (g s)
  | SVLitInt d r s => SVLitInt d r (g s)
  | SVTokens ts => SVTokens (shift ts)
  | SVRaw ts => SVRaw (shift ts)
  end.
Fixpoint shift_expr (e : sexpr) : sexpr :=
  match e with
  | SEValue id v => SEValue id (shift_value v)
  | SECall id name head args raw =>
      SECall id name (g head) (map shift_expr args) (option_map (fun r => (fst r, shift (snd r))) raw)
  end.
Definition shift_definition (i : sitem) : sitem := (fst i, shift_expr (snd i)).
Definition shift_message (m : syn_message) : syn_message :=
  {| m_text := m_text m; m_start := g (m_start m); m_end := g (m_end m) |}.
Definition shift_messages : messages -> messages := map shift_message.

(** ** Items *)
Definition shift_attr (a : pattr) : pattr :=
  {| pa_pound := g (pa_pound a); pa_inner := option_map g (pa_inner a); pa_bracket := g (pa_bracket a); pa_meta := shift (pa_meta a) |}.
Definition shift_attrs : list pattr -> list pattr := map shift_attr.
Definition shift_field_name (x : str * span * span) : str * span * span := (shift_name (fst x), g (snd x)).
Definition shift_field (f : pfield) : pfield :=
  {| pf_attrs := shift_attrs (pf_attrs f); pf_vis := shift (pf_vis f);
     pf_ident := option_map shift_field_name (pf_ident f); pf_ty := shift (pf_ty f) |}.
Definition shift_seps (s : separators) : separators := {| sep_spans := map g (sep_spans s); sep_trailing := sep_trailing s |}.
Definition shift_fields (f : pfields) : pfields :=
  match f with
  | PNamed l t s => PNamed (map shift_field l) (shift_seps t) (g s)
  | PUnnamed l t s => PUnnamed (map shift_field l) (shift_seps t) (g s)
  | PUnit => PUnit
  end.
Definition shift_disc (d : span * list stt) : span * list stt := (g (fst d), shift (snd d)).
Definition shift_variant (v : pvariant) : pvariant :=
  {| pv_attrs := shift_attrs (pv_attrs v); pv_ident := shift_name (pv_ident v); pv_fields := shift_fields (pv_fields v);
     pv_disc := option_map shift_disc (pv_disc v) |}.
Definition shift_generics (x : pgenerics) : pgenerics := {| pg_params := shift (pg_params x); pg_where := shift (pg_where x) |}.
Definition shift_impl_trait (t : option span * list stt * span) : option span * list stt * span :=
  (option_map g (fst (fst t)), shift (snd (fst t)), g (snd t)).
Fixpoint shift_item (i : pitem) : pitem :=
  match i with
  | PFn a v s k b => PFn (shift_attrs a) (shift v) (shift s) (g k) (map shift_stmt b)
  | PStruct a v k x p f s => PStruct (shift_attrs a) (shift v) (g k) (shift_name x) (shift_generics p) (shift_fields f) (g s)
  | PEnum a v k x p s l t =>
      PEnum (shift_attrs a) (shift v) (g k) (shift_name x) (shift_generics p) (g s) (map shift_variant l) (shift_seps t)
  | PUnion a v k x p s l t =>
      PUnion (shift_attrs a) (shift v) (g k) (shift_name x) (shift_generics p) (g s) (map shift_field l) (shift_seps t)
  | PTrait a v u au k x p c s t b l =>
      PTrait (shift_attrs a) (shift v) (option_map g u) (option_map g au) (g k) (shift_name x) (shift_generics p) (g c)
        (map shift s) (shift_seps t) (g b) (map shift_trait_item l)
  | PImpl a d u k p tr ty s l =>
      PImpl (shift_attrs a) (option_map g d) (option_map g u) (g k) (shift_generics p) (option_map shift_impl_trait tr) (shift ty) (g s)
        (map shift_impl_item l)
  | PMod a v u k x s c =>
      PMod (shift_attrs a) (shift v) (option_map g u) (g k) (shift_name x) (g s)
        (match c with Some l => Some (map shift_item l) | None => None end)
  | PForeign a u k abi s l => PForeign (shift_attrs a) (option_map g u) (g k) (option_map shift_lit abi) (g s) (map shift l)
  | POther ts => POther (shift ts)
  end
with shift_stmt (s : pstmt) : pstmt :=
  match s with PSItem i => PSItem (shift_item i) | PSOther ts => PSOther (shift ts) end
with shift_trait_item (i : ptrait_item) : ptrait_item :=
  match i with
  | PTFn a s k b => PTFn (shift_attrs a) (shift s) (g k) (match b with Some l => Some (map shift_stmt l) | None => None end)
  | PTOther k ts => PTOther k (shift ts)
  end
with shift_impl_item (i : pimpl_item) : pimpl_item :=
  match i with
  | PMFn a v d s k b => PMFn (shift_attrs a) (shift v) (option_map g d) (shift s) (g k) (map shift_stmt b)
  | PMOther k ts => PMOther k (shift ts)
  end.
Definition shift_block : list pstmt -> list pstmt := map shift_stmt.
Fixpoint shift_tree (t : ptree) : ptree :=
  match t with
  | PDTok t => PDTok (shift1 t)
  | PDGroup d s l => PDGroup d (g s) (map shift_tree l)
  | PDNode a b l => PDNode (shift_attrs a) b (map shift_tree l)
  end.

(** ** Uses and what comes of them *)
Definition shift_source (s : ssource) : ssource :=
  match s with
  | SCompose ts => SCompose (shift ts)
  | SComposeIdents ts => SComposeIdents (shift ts)
  | SComposeItem attr item => SComposeItem (shift attr) (shift item)
  end.
Definition shift_use (u : suse) : suse :=
  {| su_source := shift_source (su_source u); su_seed := su_seed u; su_first_id := su_first_id u; su_next_id := su_next_id u |}.
Definition shift_output (o : soutput) : soutput :=
  match o with
  | SCode ts => SCode (shift ts)
  | SSyntaxError ms => SSyntaxError (shift_messages ms)
  | SCompileError f s => SCompileError f (g s)
  | SPanicked p => SPanicked p
  end.

(** ** What is assumed of syn: given moved tokens, it makes the same things, moved, and says
    the same. *)
Definition shift_node {A} (f : A -> A) (x : A * nat * option syn_message) : A * nat * option syn_message :=
  let '(a, k, u) := x in (f a, k, option_map shift_message u).
Definition shift_read (x : str * str * span * nat) : str * str * span * nat :=
  let '(a, b, s, k) := x in (a, b, g s, k).
(** Two spans joined, the first if they cannot be. *)
Definition joined (SO : soracles) (a b : span) : span := match join SO a b with Some s => s | None => a end.
Record moves_oracles (SO : soracles) : Prop := {
  moves_ident : forall ts, sparse_ident SO (shift ts) = option_map shift_name (sparse_ident SO ts);
  moves_path : forall ts, sparse_path SO (shift ts) = option_map shift (sparse_path SO ts);
  moves_type : forall ts, sparse_type SO (shift ts) = option_map shift (sparse_type SO ts);
  moves_expr : forall ts, sparse_expr SO (shift ts) = option_map shift (sparse_expr SO ts);
  moves_lit_str : forall ts, sparse_lit_str SO (shift ts) = option_map shift_lit (sparse_lit_str SO ts);
  moves_lit_int : forall ts, sparse_lit_int SO (shift ts) = option_map shift_lit (sparse_lit_int SO ts);
  moves_joined : forall a b, joined SO (g a) (g b) = g (joined SO a b);
  moves_error_at : forall t ts, syn_error_at SO t (shift ts) = g (syn_error_at SO t ts);
  moves_error_text : forall t ts, syn_error_text SO t (shift ts) = syn_error_text SO t ts;
}.
Record moves_parsers (SP : sparsers) : Prop := {
  moves_pre_lit_int : forall ts, spre_lit_int SP (shift ts) = option_map shift_read (spre_lit_int SP ts);
  moves_pre_lit_str : forall ts, spre_lit_str SP (shift ts) = option_map shift_read (spre_lit_str SP ts);
  moves_pre_path : forall ts, spre_path SP (shift ts) = option_map (shift_node shift) (spre_path SP ts);
  moves_pre_type : forall ts, spre_type SP (shift ts) = option_map (shift_node shift) (spre_type SP ts);
  moves_pre_expr : forall ts, spre_expr SP (shift ts) = option_map (shift_node shift) (spre_expr SP ts);
  moves_pre_block : forall ts, spre_block SP (shift ts) = option_map (shift_node shift_block) (spre_block SP ts);
  moves_block_error : forall ts, block_error SP (shift ts) = shift_messages (block_error SP ts);
}.
Record moves_nodes (SN : ssyntax_nodes) : Prop := {
  moves_reparse : forall k ts, sreparse SN k (shift ts) = option_map shift (sreparse SN k ts);
  moves_reparse_text : forall k ts, sreparse_text SN k (shift ts) = sreparse_text SN k ts;
  moves_attrs_text : forall ts, sattrs_text SN (shift ts) = sattrs_text SN ts;
}.
Record moves_syntax (SY : ssyntax) : Prop := {
  moves_snodes : moves_nodes (snodes SY);
  moves_forest : forall ts, sas_forest SY (shift ts) = map shift_tree (sas_forest SY ts);
}.
(** A way to move spans: [call_site] is no place in the input and stays. *)
Record moving (SO : soracles) (SP : sparsers) (SY : ssyntax) : Prop := {
  moving_call_site : g call_site = call_site;
  moving_oracles : moves_oracles SO;
  moving_parsers : moves_parsers SP;
  moving_syntax : moves_syntax SY;
}.
End Shift.

(** To move everything further down by [d]. *)
Definition later (d : N) (s : span) : span := if N.eqb s call_site then call_site else (s + d)%N.

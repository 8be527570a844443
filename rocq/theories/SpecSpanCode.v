(** Specification of the spans of the generated code, token by token: as SpecItem.v and
    SpecMacro.v, on tokens that carry spans. *)
From Coq Require Import String.
From Verif Require Import Base Token Types Values Ast Env Eval Item Deprecation SpecItem SpecMacro Failures
  SpanTokens SpanWalker SpanValues SpanEval SpanItem SpanVisitor SpanDeprecation SpanParse SpanMacro SpecSpans SpecSpanEval.
Open Scope list_scope.

(** The same tokens with the same spans, except those of single delimiters: of a group only
    the span of the whole is looked at. *)
Definition alike (a b : list stt) : Prop := map collapsed a = map collapsed b.

(** Parsers whose result prints as the tokens parsed, with their spans. *)
Record sfaithful (SO : soracles) (SN : ssyntax_nodes) : Prop := {
  sfaithful_node : forall k ts r, sreparse SN k ts = Some r -> alike r ts;
  sfaithful_ident : forall ts x, sparse_ident SO ts = Some x -> ts = [SIdent (fst x) (snd x)];
  sfaithful_str : forall ts x, sparse_lit_str SO ts = Some x -> ts = [SLit (LStr (fst (fst x)) (snd (fst x))) (snd x)];
}.
(** The traversal for warnings covers all tokens, and keeps their spans. *)
Definition scovers (SY : ssyntax) : Prop := forall ts, alike (pforest_tokens (sas_forest SY ts)) ts.

(** Items without where clauses, as in SpecItem.v (see C25). *)
Definition pno_where_generics (g : pgenerics) : pgenerics := {| pg_params := pg_params g; pg_where := [] |}.
Fixpoint pdrop_where (i : pitem) : pitem :=
  match i with
  | PFn a v s g b => PFn a v s g (map pdrop_where_stmt b)
  | PStruct a v k x g f s => PStruct a v k x (pno_where_generics g) f s
  | PEnum a v k x g s l t => PEnum a v k x (pno_where_generics g) s l t
  | PUnion a v k x g s l t => PUnion a v k x (pno_where_generics g) s l t
  | PTrait a v u au k x g c s t b l => PTrait a v u au k x (pno_where_generics g) c s t b (map pdrop_where_trait_item l)
  | PImpl a d u k g tr ty s l => PImpl a d u k (pno_where_generics g) tr ty s (map pdrop_where_impl_item l)
  | PMod a v u k x s (Some l) => PMod a v u k x s (Some (map pdrop_where l))
  | PMod a v u k x s None => PMod a v u k x s None
  | PForeign a u k abi s l => PForeign a u k abi s l
  | POther ts => POther ts
  end
with pdrop_where_stmt (s : pstmt) : pstmt :=
  match s with PSItem i => PSItem (pdrop_where i) | PSOther ts => PSOther ts end
with pdrop_where_trait_item (i : ptrait_item) : ptrait_item :=
  match i with
  | PTFn a s g (Some b) => PTFn a s g (Some (map pdrop_where_stmt b))
  | PTFn a s g None => PTFn a s g None
  | PTOther k ts => PTOther k ts
  end
with pdrop_where_impl_item (i : pimpl_item) : pimpl_item :=
  match i with
  | PMFn a v d s g b => PMFn a v d s g (map pdrop_where_stmt b)
  | PMOther k ts => PMOther k ts
  end.

(** The code of a round: the block with the tokens of the values in place of the aliases, those
    of the block where they were, those of the values with the spans of C57. *)
Definition sround_code (O : oracles) (SO : soracles) (env : Env.environment) (block : list pstmt) (items : list sitem) : sres (list stt) :=
  let? bs := sbindings O SO env items in
  SOk (ssubstituted O (fun x => assoc_str x (erase_bindings bs)) (fun x => option_map sto_tokens (assoc_str x bs))
         (pblock_tokens (map pdrop_where_stmt block))).

(** Attributes for a warning inserted into a stream, each with all its tokens at the call
    site. *)
Inductive decorated (w : warning) : list stt -> list stt -> Prop :=
| decorated_nil : decorated w [] []
| decorated_token : forall t a b, decorated w a b -> decorated w (t :: a) (t :: b)
| decorated_group : forall d g h s a b, decorated w g h -> decorated w a b -> decorated w (SGroup d g s :: a) (SGroup d h s :: b)
| decorated_here : forall a b, decorated w a b ->
    decorated w a (SPunct 35%N false call_site ::
      SGroup Bracket [SIdent (txt "deprecated") call_site;
        SGroup Paren [SIdent (txt "since") call_site; SPunct 61%N false call_site; SLit (LStr (since w) []) call_site; SPunct 44%N false call_site;
                      SIdent (txt "note") call_site; SPunct 61%N false call_site; SLit (LStr (note w) []) call_site; SPunct 44%N false call_site]
          {| ds_open := call_site; ds_close := call_site; ds_entire := call_site |}]
        {| ds_open := call_site; ds_close := call_site; ds_entire := call_site |} :: b).

(** The aliases of an input. *)
Definition sast_aliases {B} (ast : sraw_ast B) : list str :=
  match sa_loops ast with Some ls => flat_map (fun l => pattern_aliases (sl_pattern l)) ls | None => [] end ++
  match sa_spec ast with Some s => map fst (ss_items s) | None => [] end.
Definition semicolons {B} (ast : sraw_ast B) : Prop := exists spec, sa_spec ast = Some spec /\ ss_comma spec = Some false.

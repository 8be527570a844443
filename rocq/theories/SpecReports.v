(** Specification of the compile errors of the macros: what failed, what is said of it and
    where. *)
From Coq Require Import String.
From Verif Require Import Base Token Types Values Ast Env Item Deprecation Interpreter Parse Macro SpecElab
  Failures SpanTokens SpanWalker SpanValues SpanEval SpanItem SpanVisitor SpanParse SpanMacro SpecSpans SpecSpanEval SpecSpanUnroll.
Open Scope list_scope.

(** ** The identifiers of a block *)
Fixpoint names1 (t : stt) : list (str * span) :=
  match t with
  | SIdent x s => [(x, s)]
  | SPunct _ _ _ | SLit _ _ => []
  | SGroup _ ts _ => flat_map names1 ts
  end.
Definition names (ts : list stt) : list (str * span) := flat_map names1 ts.
(** Those of an item, without the keywords between its parts and without where clauses. *)
Definition attrs_names (l : list pattr) : list (str * span) := flat_map (fun a => names (pa_meta a)) l.
Definition field_names (f : pfield) : list (str * span) :=
  attrs_names (pf_attrs f) ++ names (pf_vis f) ++
  (match pf_ident f with Some (x, s, _) => [(x, s)] | None => [] end) ++ names (pf_ty f).
Definition fields_names (f : pfields) : list (str * span) :=
  match f with PNamed l _ _ | PUnnamed l _ _ => flat_map field_names l | PUnit => [] end.
Definition variant_names (v : pvariant) : list (str * span) :=
  attrs_names (pv_attrs v) ++ [pv_ident v] ++ fields_names (pv_fields v) ++
  match pv_disc v with Some (_, e) => names e | None => [] end.
Fixpoint item_names (i : pitem) : list (str * span) :=
  match i with
  | PFn a v s _ b => attrs_names a ++ names v ++ names s ++ flat_map stmt_names b
  | PStruct a v _ x g f _ => attrs_names a ++ names v ++ [x] ++ names (pg_params g) ++ fields_names f
  | PEnum a v _ x g _ l _ => attrs_names a ++ names v ++ [x] ++ names (pg_params g) ++ flat_map variant_names l
  | PUnion a v _ x g _ l _ => attrs_names a ++ names v ++ [x] ++ names (pg_params g) ++ flat_map field_names l
  | PTrait a v _ _ _ x g _ s _ _ l =>
      attrs_names a ++ names v ++ [x] ++ names (pg_params g) ++ flat_map names s ++ flat_map trait_item_names l
  | PImpl a _ _ _ g tr ty _ l =>
      attrs_names a ++ names (pg_params g) ++ (match tr with Some (_, p, _) => names p | None => [] end) ++ names ty ++
      flat_map impl_item_names l
  | PMod a v _ _ x _ c => attrs_names a ++ names v ++ [x] ++ match c with Some l => flat_map item_names l | None => [] end
  | PForeign a _ _ _ _ l => attrs_names a ++ flat_map names l
  | POther ts => names ts
  end
with stmt_names (s : pstmt) : list (str * span) :=
  match s with PSItem i => item_names i | PSOther ts => names ts end
with trait_item_names (i : ptrait_item) : list (str * span) :=
  match i with
  | PTFn a s _ b => attrs_names a ++ names s ++ match b with Some l => flat_map stmt_names l | None => [] end
  | PTOther _ ts => names ts
  end
with impl_item_names (i : pimpl_item) : list (str * span) :=
  match i with
  | PMFn a v _ s _ b => attrs_names a ++ names v ++ names s ++ flat_map stmt_names b
  | PMOther _ ts => names ts
  end.
Definition block_names (l : list pstmt) : list (str * span) := flat_map stmt_names l.

(** The identifiers of a block that syn has parsed have the places of those in its input, or
    [call_site]. *)
Definition inherited_names (SN : ssyntax_nodes) : Prop :=
  forall ts r x s, sreparse SN KBlock ts = Some r -> In (x, s) (names r) -> s = call_site \/ In (x, s) (names ts).

(** ** Substitution *)
Section Reports.
Context (O : oracles) (SO : soracles) (SY : ssyntax).

(** What syn says of tokens that are no node of some kind, no identifier or no attributes. *)
Definition refused (why : str) : Prop := exists ts,
  (exists k, sreparse (snodes SY) k ts = None /\ why = sreparse_text (snodes SY) k ts) \/
  (sparse_ident SO ts = None /\ why = syn_error_text SO TyIdent ts) \/
  why = sattrs_text (snodes SY) ts.
(** The failure of a substitution: an alias, the text of its value, what syn says; at an
    occurrence of the alias in the block. *)
Definition substitution_report (bs : scontext) (block : list pstmt) (f : failure) (s : span) : Prop :=
  exists x v why, f = FSubstitution x (to_string O (map erase (sto_tokens v))) why /\ assoc_str x bs = Some v /\
    (s = call_site \/ In (x, s) (block_names block)) /\ refused why.

(** ** The whole macro *)
(** A value that does not fit the pattern of its loop; or else the first round to fail, with
    one of its definitions or with a substitution. *)
Definition macro_report (env : environment) (t : thread) (ast : sraw_ast (list pstmt)) (f : failure) (s : span) : Prop :=
  (exists m, f = FType m /\ has_misfit SO ast m s) \/
  exists before items after, has_rounds ast (before ++ items :: after) /\
    Forall (fun r => exists ts, sexecute O SO SY env t (sround_ast (sa_block ast) r) = SOk ts) before /\
    (error_report O SO env items f s \/
     exists bs, smake_substitutions O SO env items = SOk bs /\ substitution_report bs (sa_block ast) f s).
End Reports.

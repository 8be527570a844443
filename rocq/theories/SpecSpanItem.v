(** Specification of items with spans: what is assumed of syn's node parsers, and the spans
    that occur in an item. *)
From Verif Require Import Base Token Types Values Item Failures SpanTokens SpanItem SpanVisitor.
Open Scope list_scope.

(** Parsing does not look at spans. *)
Definition spanless_nodes (reparse : kind -> list tt -> option (list tt)) (SN : ssyntax_nodes) : Prop :=
  forall k ts, option_map (map erase) (sreparse SN k ts) = reparse k (map erase ts).
(** The node parsed has the spans of the tokens, or [call_site] for tokens supplied in
    printing. *)
Definition inherited_nodes (SN : ssyntax_nodes) : Prop :=
  forall k ts r, sreparse SN k ts = Some r -> incl (spans r) (call_site :: spans ts).

(** All spans of an item, printed or not, are in a set. *)
Section In.
Context (U : span -> Prop).
Definition stream_in (ts : list stt) : Prop := Forall U (spans ts).
Definition opt_in {A} (P : A -> Prop) (o : option A) : Prop := match o with Some a => P a | None => True end.
Definition attr_in (a : pattr) : Prop :=
  U (pa_pound a) /\ opt_in U (pa_inner a) /\ U (pa_bracket a) /\ stream_in (pa_meta a).
Definition attrs_in : list pattr -> Prop := Forall attr_in.
Definition seps_in (s : separators) : Prop := Forall U (sep_spans s).
Definition field_in (f : pfield) : Prop :=
  attrs_in (pf_attrs f) /\ stream_in (pf_vis f) /\ opt_in (fun x => U (snd (fst x)) /\ U (snd x)) (pf_ident f) /\ stream_in (pf_ty f).
Definition fields_in (f : pfields) : Prop :=
  match f with
  | PNamed l t s | PUnnamed l t s => Forall field_in l /\ seps_in t /\ U s
  | PUnit => True
  end.
Definition variant_in (v : pvariant) : Prop :=
  attrs_in (pv_attrs v) /\ U (snd (pv_ident v)) /\ fields_in (pv_fields v) /\
  opt_in (fun d => U (fst d) /\ stream_in (snd d)) (pv_disc v).
Definition generics_in (g : pgenerics) : Prop := stream_in (pg_params g) /\ stream_in (pg_where g).
Definition all {A} (P : A -> Prop) (l : list A) : Prop := fold_right and True (map P l).
Fixpoint item_in (i : pitem) : Prop :=
  match i with
  | PFn a v s g b => attrs_in a /\ stream_in v /\ stream_in s /\ U g /\ all stmt_in b
  | PStruct a v k x g f s => attrs_in a /\ stream_in v /\ U k /\ U (snd x) /\ generics_in g /\ fields_in f /\ U s
  | PEnum a v k x g s l t =>
      attrs_in a /\ stream_in v /\ U k /\ U (snd x) /\ generics_in g /\ U s /\ Forall variant_in l /\ seps_in t
  | PUnion a v k x g s l t =>
      attrs_in a /\ stream_in v /\ U k /\ U (snd x) /\ generics_in g /\ U s /\ Forall field_in l /\ seps_in t
  | PTrait a v u au k x g c s t b l =>
      attrs_in a /\ stream_in v /\ opt_in U u /\ opt_in U au /\ U k /\ U (snd x) /\ generics_in g /\ U c /\
      Forall stream_in s /\ seps_in t /\ U b /\ all trait_item_in l
  | PImpl a d u k g tr ty s l =>
      attrs_in a /\ opt_in U d /\ opt_in U u /\ U k /\ generics_in g /\
      opt_in (fun t => opt_in U (fst (fst t)) /\ stream_in (snd (fst t)) /\ U (snd t)) tr /\ stream_in ty /\ U s /\
      all impl_item_in l
  | PMod a v u k x s (Some l) => attrs_in a /\ stream_in v /\ opt_in U u /\ U k /\ U (snd x) /\ U s /\ all item_in l
  | PMod a v u k x s None => attrs_in a /\ stream_in v /\ opt_in U u /\ U k /\ U (snd x) /\ U s
  | PForeign a u k abi s l =>
      attrs_in a /\ opt_in U u /\ U k /\ opt_in (fun x => U (snd x)) abi /\ U s /\ Forall stream_in l
  | POther ts => stream_in ts
  end
with stmt_in (s : pstmt) : Prop :=
  match s with PSItem i => item_in i | PSOther ts => stream_in ts end
with trait_item_in (i : ptrait_item) : Prop :=
  match i with
  | PTFn a s g (Some b) => attrs_in a /\ stream_in s /\ U g /\ all stmt_in b
  | PTFn a s g None => attrs_in a /\ stream_in s /\ U g
  | PTOther _ ts => stream_in ts
  end
with impl_item_in (i : pimpl_item) : Prop :=
  match i with
  | PMFn a v d s g b => attrs_in a /\ stream_in v /\ opt_in U d /\ stream_in s /\ U g /\ all stmt_in b
  | PMOther _ ts => stream_in ts
  end.
Definition block_in (l : list pstmt) : Prop := all stmt_in l.
End In.

(** A result all of whose spans, or whose error's place, are in a set. *)
Definition res_in {A} (U : span -> Prop) (P : A -> Prop) (r : SpanWalker.sres A) : Prop :=
  match r with
  | SpanWalker.SOk a => P a
  | SpanWalker.SErr _ s => U s
  | SpanWalker.SPanic _ => True
  end.

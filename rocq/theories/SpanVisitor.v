(** Model of /repo/src/substitution/alias_substitution_visitor.rs with spans: the same code
    as AliasSubstitution.v, on items that carry spans. *)
From Verif Require Import Base Token Types Values Item Failures SpanTokens SpanWalker SpanValues SpanEval SpanItem.
Open Scope list_scope.

(** syn's node parsers with spans, and the texts of their errors. *)
Record ssyntax_nodes := {
  sreparse : kind -> list stt -> option (list stt);
  sreparse_text : kind -> list stt -> str;
  sattrs_text : list stt -> str;
}.

Section Visit.
Context (O : oracles) (SO : soracles) (lookup : str -> option value) (salias : str -> option (list stt)) (SN : ssyntax_nodes).

(** 72-98 *)
Definition svisit_node (k : kind) (ts : list stt) : sres (list stt) :=
  ssubstitute_idents O lookup salias (sreparse SN k) (sreparse_text SN k) ts.
Definition svisit_name (x : str * span) : sres (str * span) :=
  ssubstitute_idents O lookup salias (sparse_ident SO) (syn_error_text SO TyIdent) (pname_tokens x).
Definition svisit_opt {A} (f : A -> sres A) (x : option A) : sres (option A) :=
  match x with Some a => let? b := f a in SOk (Some b) | None => SOk None end.

(** 28-33 *)
Fixpoint sparse_outer (ts : list stt) : option (list pattr) :=
  match ts with
  | [] => Some []
  | SPunct c _ s :: SGroup Bracket m g :: rest =>
      if N.eqb c 35 then
        match sreparse SN KMeta m, sparse_outer rest with
        | Some m', Some l => Some ({| pa_pound := s; pa_inner := None; pa_bracket := ds_entire g; pa_meta := m' |} :: l)
        | _, _ => None
        end
      else None
  | _ => None
  end.

(** 99-110 *)
Definition svisit_attrs (l : list pattr) : sres (list pattr) :=
  ssubstitute_idents O lookup salias sparse_outer (sattrs_text SN) (pattrs_tokens l).

(** 192-207; the colon is left alone. *)
Definition svisit_field_name (x : str * span * span) : sres (str * span * span) :=
  let? y := svisit_name (fst x) in SOk (y, snd x).
Definition svisit_field (f : pfield) : sres pfield :=
  let? a := svisit_attrs (pf_attrs f) in
  let? v := svisit_node KVis (pf_vis f) in
  let? x := svisit_opt svisit_field_name (pf_ident f) in
  let? t := svisit_node KType (pf_ty f) in
  SOk {| pf_attrs := a; pf_vis := v; pf_ident := x; pf_ty := t |}.

(** 111-130 *)
Definition svisit_fields (f : pfields) : sres pfields :=
  match f with
  | PNamed l t s => let? l' := smapM svisit_field l in SOk (PNamed l' t s)
  | PUnnamed l t s => let? l' := smapM svisit_field l in SOk (PUnnamed l' t s)
  | PUnit => SOk PUnit
  end.

Definition svisit_generics (g : pgenerics) : sres pgenerics :=
  let? p := svisit_node KGenerics (pg_params g) in SOk {| pg_params := p; pg_where := [] |}.

(** 252-265 *)
Definition svisit_variant (v : pvariant) : sres pvariant :=
  let? a := svisit_attrs (pv_attrs v) in
  let? x := svisit_name (pv_ident v) in
  let? f := svisit_fields (pv_fields v) in
  let? d := svisit_opt (fun d => let? e := svisit_node KExpr (snd d) in SOk (fst d, e)) (pv_disc v) in
  SOk {| pv_attrs := a; pv_ident := x; pv_fields := f; pv_disc := d |}.

(** 174-185: the braces that [parse_quote!] adds are at [call_site]; they go again. *)
Definition svisit_other_stmt (ts : list stt) : sres (list stt) :=
  match sreparse SN KBlock [sgroup Brace call_site ts] with
  | None => SPanic PUnreachable
  | Some block =>
      let? b := svisit_node KBlock block in
      match b with
      | [SGroup Brace ts' _] => SOk ts'
      | _ => SPanic PUnreachable
      end
  end.

Definition svisit_abi (l : str * str * span) : sres (str * str * span) :=
  ssubstitute_idents O lookup salias (sparse_lit_str SO) (syn_error_text SO TyLitStr)
    [SLit (LStr (fst (fst l)) (snd (fst l))) (snd l)].

Fixpoint svisit_item (i : pitem) : sres pitem :=
  match i with
  | PFn attrs vis sig s body =>                        (* 267-279 *)
      let? a := svisit_attrs attrs in
      let? v := svisit_node KVis vis in
      let? g := svisit_node KSig sig in
      let? b := smapM svisit_stmt body in
      SOk (PFn a v g s b)
  | PStruct attrs vis k x g f semi =>                  (* 361-377 *)
      let? a := svisit_attrs attrs in
      let? v := svisit_node KVis vis in
      let? x' := svisit_name x in
      let? g' := svisit_generics g in
      let? f' := svisit_fields f in
      SOk (PStruct a v k x' g' f' semi)
  | PEnum attrs vis k x g s vs t =>                    (* 236-266 *)
      let? a := svisit_attrs attrs in
      let? v := svisit_node KVis vis in
      let? x' := svisit_name x in
      let? g' := svisit_generics g in
      let? vs' := smapM svisit_variant vs in
      SOk (PEnum a v k x' g' s vs' t)
  | PUnion attrs vis k x g s l t =>                    (* 410-430 *)
      let? a := svisit_attrs attrs in
      let? v := svisit_node KVis vis in
      let? x' := svisit_name x in
      let? g' := svisit_generics g in
      let? l' := smapM svisit_field l in
      SOk (PUnion a v k x' g' s l' t)
  | PTrait attrs vis u au k x g colon supers t s items =>    (* 378-409 *)
      let? a := svisit_attrs attrs in
      let? v := svisit_node KVis vis in
      let? x' := svisit_name x in
      let? g' := svisit_generics g in
      let? s' := smapM (svisit_node KBound) supers in
      let? l' := smapM svisit_trait_item items in
      SOk (PTrait a v u au k x' g' colon s' t s l')
  | PImpl attrs d u k g tr ty s items =>               (* 298-327 *)
      let? a := svisit_attrs attrs in
      let? g' := svisit_generics g in
      let? tr' := svisit_opt (fun bp => let? p := svisit_node KPath (snd (fst bp)) in SOk (fst (fst bp), p, snd bp)) tr in
      let? ty' := svisit_node KType ty in
      let? l' := smapM svisit_impl_item items in
      SOk (PImpl a d u k g' tr' ty' s l')
  | PMod attrs vis u k x s content =>                  (* 328-360 *)
      let? a := svisit_attrs attrs in
      let? v := svisit_node KVis vis in
      let? x' := svisit_name x in
      let? c := match content with
                | Some items => let? l := smapM svisit_item items in SOk (Some l)
                | None => SOk None
                end in
      SOk (PMod a v u k x' s c)
  | PForeign attrs u k abi s items =>                  (* 280-296 *)
      let? a := svisit_attrs attrs in
      let? n := svisit_opt svisit_abi abi in
      let? l := smapM (svisit_node KForeignItem) items in
      SOk (PForeign a u k n s l)
  | POther ts => let? ts' := svisit_node KItem ts in SOk (POther ts')   (* 352-355 *)
  end
(** 141-186 *)
with svisit_stmt (s : pstmt) : sres pstmt :=
  match s with
  | PSItem (POther ts) | PSOther ts => let? ts' := svisit_other_stmt ts in SOk (PSOther ts')
  | PSItem i => let? i' := svisit_item i in SOk (PSItem i')
  end
with svisit_trait_item (i : ptrait_item) : sres ptrait_item :=
  match i with
  | PTFn attrs sig s default =>                       (* 436-448 *)
      let? a := svisit_attrs attrs in
      let? g := svisit_node KSig sig in
      let? b := match default with
                | Some body => let? l := smapM svisit_stmt body in SOk (Some l)
                | None => SOk None
                end in
      SOk (PTFn a g s b)
  | PTOther k ts => let? ts' := svisit_node k ts in SOk (PTOther k ts')   (* 405, 431-435, 449-458 *)
  end
with svisit_impl_item (i : pimpl_item) : sres pimpl_item :=
  match i with
  | PMFn attrs vis d sig s body =>                    (* 213-225 *)
      let? a := svisit_attrs attrs in
      let? v := svisit_node KVis vis in
      let? g := svisit_node KSig sig in
      let? b := smapM svisit_stmt body in
      SOk (PMFn a v d g s b)
  | PMOther k ts => let? ts' := svisit_node k ts in SOk (PMOther k ts')   (* 208-212, 226-235, 323 *)
  end.

(** 137-191 *)
Definition svisit_block (l : list pstmt) : sres (list pstmt) := smapM svisit_stmt l.
End Visit.

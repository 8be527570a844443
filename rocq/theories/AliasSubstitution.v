(** Model of /repo/src/substitution/alias_substitution_visitor.rs.

    [check_error!] (43-49) makes every method return at once when an error is recorded, and
    the block of a visitor with an error is thrown away (interpreter/core.rs 103-108), so the
    visitor is a function into [res]. *)
From Verif Require Import Base Token Types Values SubstituteIdents Item.

Section Visit.
Context (O : oracles) (lookup : str -> option value).
(** [syn::parse2] at the types the visitor parses, as the tokens of the node parsed.
    [KPath], [KType] and [KExpr] are those of [O]. *)
Context (reparse : kind -> list tt -> option (list tt)).

(** 72-98: [visit_mut], [visit_boxed_mut]. *)
Definition visit_node (k : kind) (ts : list tt) : res (list tt) := substitute_idents O lookup (reparse k) ts.
Definition visit_name (x : str) : res str := substitute_idents O lookup (parse_ident O) [TIdent x].
Definition visit_opt {A} (f : A -> res A) (x : option A) : res (option A) :=
  match x with Some a => let! b := f a in Ok (Some b) | None => Ok None end.

(** 28-33: [OuterAttributes::parse] followed by the end of the stream: syn's
    [Attribute::parse_outer] wants brackets after every [#]. *)
Fixpoint parse_outer (ts : list tt) : option (list attr) :=
  match ts with
  | [] => Some []
  | TPunct c _ :: TGroup Bracket m :: rest =>
      if N.eqb c 35 then
        match reparse KMeta m, parse_outer rest with
        | Some m', Some l => Some ({| is_inner := false; meta := m' |} :: l)
        | _, _ => None
        end
      else None
  | _ => None
  end.

(** 99-110: [visit_attrs_mut]; 35-41: [OuterAttributes::to_tokens]. *)
Definition visit_attrs (l : list attr) : res (list attr) :=
  substitute_idents O lookup parse_outer (attrs_tokens l).

(** 192-207: [visit_field_mut]. *)
Definition visit_field (f : field) : res field :=
  let! a := visit_attrs (f_attrs f) in
  let! v := visit_node KVis (f_vis f) in
  let! x := visit_opt visit_name (f_ident f) in
  let! t := visit_node KType (f_ty f) in
  Ok {| f_attrs := a; f_vis := v; f_ident := x; f_ty := t |}.

(** 111-130: [visit_fields_mut]. *)
Definition visit_fields (f : fields) : res fields :=
  match f with
  | FNamed l t => let! l' := mapM visit_field l in Ok (FNamed l' t)
  | FUnnamed l t => let! l' := mapM visit_field l in Ok (FUnnamed l' t)
  | FUnit => Ok FUnit
  end.

(** [self.visit_mut(&mut i.generics)]: [Generics] prints and parses without the where
    clause, which is lost. *)
Definition visit_generics (g : generics) : res generics :=
  let! p := visit_node KGenerics (g_params g) in Ok {| g_params := p; g_where := [] |}.

(** 252-265 *)
Definition visit_variant (v : variant) : res variant :=
  let! a := visit_attrs (v_attrs v) in
  let! x := visit_name (v_ident v) in
  let! f := visit_fields (v_fields v) in
  let! d := visit_opt (visit_node KExpr) (v_disc v) in
  Ok {| v_attrs := a; v_ident := x; v_fields := f; v_disc := d |}.

(** 174-185: any other statement is put in braces, parsed ([parse_quote!] panics if that
    fails) and visited as a block, whose statements replace it; they are kept together here. *)
Definition visit_other_stmt (ts : list tt) : res (list tt) :=
  match reparse KBlock [TGroup Brace ts] with
  | None => Panic PUnreachable
  | Some block =>
      let! b := visit_node KBlock block in
      match b with
      | [TGroup Brace ts'] => Ok ts'
      | _ => Panic PUnreachable   (* blocks print as one brace group *)
      end
  end.

Definition visit_abi (l : str * str) : res (str * str) :=
  substitute_idents O lookup (parse_lit_str O) [TLit (LStr (fst l) (snd l))].

Fixpoint visit_item (i : item) : res item :=
  match i with
  | IFn attrs vis sig body =>                      (* 267-279 *)
      let! a := visit_attrs attrs in
      let! v := visit_node KVis vis in
      let! s := visit_node KSig sig in
      let! b := mapM visit_stmt body in
      Ok (IFn a v s b)
  | IStruct attrs vis x g f =>                     (* 361-377 *)
      let! a := visit_attrs attrs in
      let! v := visit_node KVis vis in
      let! x' := visit_name x in
      let! g' := visit_generics g in
      let! f' := visit_fields f in
      Ok (IStruct a v x' g' f')
  | IEnum attrs vis x g vs t =>                    (* 236-266 *)
      let! a := visit_attrs attrs in
      let! v := visit_node KVis vis in
      let! x' := visit_name x in
      let! g' := visit_generics g in
      let! vs' := mapM visit_variant vs in
      Ok (IEnum a v x' g' vs' t)
  | IUnion attrs vis x g l t =>                    (* 410-430 *)
      let! a := visit_attrs attrs in
      let! v := visit_node KVis vis in
      let! x' := visit_name x in
      let! g' := visit_generics g in
      let! l' := mapM visit_field l in
      Ok (IUnion a v x' g' l' t)
  | ITrait attrs vis u au x g supers t items =>    (* 378-409 *)
      let! a := visit_attrs attrs in
      let! v := visit_node KVis vis in
      let! x' := visit_name x in
      let! g' := visit_generics g in
      let! s' := mapM (visit_node KBound) supers in
      let! l' := mapM visit_trait_item items in
      Ok (ITrait a v u au x' g' s' t l')
  | IImpl attrs d u g tr ty items =>               (* 298-327 *)
      let! a := visit_attrs attrs in
      let! g' := visit_generics g in
      let! tr' := visit_opt (fun bp => let! p := visit_node KPath (snd bp) in Ok (fst bp, p)) tr in
      let! ty' := visit_node KType ty in
      let! l' := mapM visit_impl_item items in
      Ok (IImpl a d u g' tr' ty' l')
  | IMod attrs vis u x content =>                  (* 328-360 *)
      let! a := visit_attrs attrs in
      let! v := visit_node KVis vis in
      let! x' := visit_name x in
      let! c := match content with
                | Some items => let! l := mapM visit_item items in Ok (Some l)
                | None => Ok None
                end in
      Ok (IMod a v u x' c)
  | IForeign attrs u abi items =>                  (* 280-296 *)
      let! a := visit_attrs attrs in
      let! n := visit_opt visit_abi abi in
      let! l := mapM (visit_node KForeignItem) items in
      Ok (IForeign a u n l)
  | IOther ts => let! ts' := visit_node KItem ts in Ok (IOther ts')   (* 352-355 *)
  end
(** 141-186 *)
with visit_stmt (s : stmt) : res stmt :=
  match s with
  | SItem (IOther ts) | SOther ts => let! ts' := visit_other_stmt ts in Ok (SOther ts')
  | SItem i => let! i' := visit_item i in Ok (SItem i')
  end
with visit_trait_item (i : trait_item) : res trait_item :=
  match i with
  | TFn attrs sig default =>                       (* 436-448 *)
      let! a := visit_attrs attrs in
      let! s := visit_node KSig sig in
      let! b := match default with
                | Some body => let! l := mapM visit_stmt body in Ok (Some l)
                | None => Ok None
                end in
      Ok (TFn a s b)
  | TOther k ts => let! ts' := visit_node k ts in Ok (TOther k ts')   (* 405, 431-435, 449-458 *)
  end
with visit_impl_item (i : impl_item) : res impl_item :=
  match i with
  | MFn attrs vis d sig body =>                    (* 213-225 *)
      let! a := visit_attrs attrs in
      let! v := visit_node KVis vis in
      let! s := visit_node KSig sig in
      let! b := mapM visit_stmt body in
      Ok (MFn a v d s b)
  | MOther k ts => let! ts' := visit_node k ts in Ok (MOther k ts')   (* 208-212, 226-235, 323 *)
  end.

(** 137-191: [visit_block_mut]. *)
Definition visit_block (l : list stmt) : res (list stmt) := mapM visit_stmt l.
End Visit.

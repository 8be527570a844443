(** Model of /repo/src/substitution/substitute_idents.rs and alias_substitution_visitor.rs
    with a log: SubstituteIdents.v and AliasSubstitution.v, where every result comes with the
    token streams handed to [syn::parse2], in order (substitute_idents.rs 71 and 103, and the
    [parse_quote!] of alias_substitution_visitor.rs 179).  There is no log of a substitution
    that fails.  C76 says that the results are those of the model without a log. *)
From Verif Require Import Base Token Types Values FormatString StreamWalker SubstituteIdents Item AliasSubstitution.

Definition log := list (list tt).
Definition logged (A : Type) := res (A * log).
Definition lret {A} (a : A) : logged A := Ok (a, []).
Definition lbind {A B} (x : logged A) (f : A -> logged B) : logged B :=
  let! (a, l) := x in let! (b, m) := f a in Ok (b, l ++ m).
Definition lfail {A} (p : panic) : logged A := Panic p.
Section Map.
Context {A B : Type} (f : A -> logged B).
Fixpoint lmap (l : list A) : logged (list B) :=
  match l with
  | [] => lret []
  | x :: r => lbind (f x) (fun y => lbind (lmap r) (fun ys => lret (y :: ys)))
  end.
End Map.

Notation "'let@' x := a 'in' b" := (lbind a (fun x => b)) (at level 61, x binder, right associativity).

Section Subst.
Context (O : oracles) (lookup : str -> option value) {N : Type} (parse : list tt -> option N).

(** The visitor of substitute_idents.rs 37-90; its state has the log as a second component. *)
Definition lstate := (sstate * log)%type.
Definition with_log {A} (l : log) (r : res (A * sstate)) : res (A * lstate) := let! (a, s) := r in Ok (a, (s, l)).
Definition logging_visitor : visitor lstate := {|
  visit_ident := fun s c x => with_log (snd s) (subst_ident lookup (fst s) c x);
  visit_punct := fun s _ _ _ => Ok (Continue, s);
  visit_literal := fun s c l => with_log (snd s) (subst_literal O lookup (fst s) c l);
  visit_group := fun s _ _ _ => Ok (Continue, s);
  enter_group := fun s _ _ => Ok (Continue, s);
  exit_group := fun s _ _ => Ok (Continue, s);
  after_replace := fun s c =>
    let! stream := current_stream c in
    let! s' := subst_after parse (fst s) c in Ok (s', snd s ++ [stream]);
|}.

(** substitute_idents.rs 94-115. *)
Definition lsubstitute_idents (stream : list tt) : logged N :=
  let! (s, new_stream) := walk logging_visitor (S (stream_steps stream)) (None, []) stream in
  match parse new_stream with
  | Some n => Ok (n, snd s ++ [new_stream])
  | None => Panic PUnreachable
  end.
End Subst.

(** alias_substitution_visitor.rs; the lines are those given in AliasSubstitution.v. *)
Section Visit.
Context (O : oracles) (lookup : str -> option value) (reparse : kind -> list tt -> option (list tt)).

Definition lvisit_node (k : kind) (ts : list tt) : logged (list tt) := lsubstitute_idents O lookup (reparse k) ts.
Definition lvisit_name (x : str) : logged str := lsubstitute_idents O lookup (parse_ident O) [TIdent x].
Definition lvisit_opt {A} (f : A -> logged A) (x : option A) : logged (option A) :=
  match x with Some a => let@ b := f a in lret (Some b) | None => lret None end.
Definition lvisit_attrs (l : list attr) : logged (list attr) :=
  lsubstitute_idents O lookup (parse_outer reparse) (attrs_tokens l).

Definition lvisit_field (f : field) : logged field :=
  let@ a := lvisit_attrs (f_attrs f) in
  let@ v := lvisit_node KVis (f_vis f) in
  let@ x := lvisit_opt lvisit_name (f_ident f) in
  let@ t := lvisit_node KType (f_ty f) in
  lret {| f_attrs := a; f_vis := v; f_ident := x; f_ty := t |}.
Definition lvisit_fields (f : fields) : logged fields :=
  match f with
  | FNamed l t => let@ l' := lmap lvisit_field l in lret (FNamed l' t)
  | FUnnamed l t => let@ l' := lmap lvisit_field l in lret (FUnnamed l' t)
  | FUnit => lret FUnit
  end.
Definition lvisit_generics (g : generics) : logged generics :=
  let@ p := lvisit_node KGenerics (g_params g) in lret {| g_params := p; g_where := [] |}.
Definition lvisit_variant (v : variant) : logged variant :=
  let@ a := lvisit_attrs (v_attrs v) in
  let@ x := lvisit_name (v_ident v) in
  let@ f := lvisit_fields (v_fields v) in
  let@ d := lvisit_opt (lvisit_node KExpr) (v_disc v) in
  lret {| v_attrs := a; v_ident := x; v_fields := f; v_disc := d |}.
Definition lvisit_other_stmt (ts : list tt) : logged (list tt) :=
  match reparse KBlock [TGroup Brace ts] with
  | None => lfail PUnreachable
  | Some block =>
      let@ _ := Ok (Datatypes.tt, [[TGroup Brace ts]]) in
      let@ b := lvisit_node KBlock block in
      match b with
      | [TGroup Brace ts'] => lret ts'
      | _ => lfail PUnreachable
      end
  end.
Definition lvisit_abi (l : str * str) : logged (str * str) :=
  lsubstitute_idents O lookup (parse_lit_str O) [TLit (LStr (fst l) (snd l))].

Fixpoint lvisit_item (i : item) : logged item :=
  match i with
  | IFn attrs vis sig body =>
      let@ a := lvisit_attrs attrs in
      let@ v := lvisit_node KVis vis in
      let@ s := lvisit_node KSig sig in
      let@ b := lmap lvisit_stmt body in
      lret (IFn a v s b)
  | IStruct attrs vis x g f =>
      let@ a := lvisit_attrs attrs in
      let@ v := lvisit_node KVis vis in
      let@ x' := lvisit_name x in
      let@ g' := lvisit_generics g in
      let@ f' := lvisit_fields f in
      lret (IStruct a v x' g' f')
  | IEnum attrs vis x g vs t =>
      let@ a := lvisit_attrs attrs in
      let@ v := lvisit_node KVis vis in
      let@ x' := lvisit_name x in
      let@ g' := lvisit_generics g in
      let@ vs' := lmap lvisit_variant vs in
      lret (IEnum a v x' g' vs' t)
  | IUnion attrs vis x g l t =>
      let@ a := lvisit_attrs attrs in
      let@ v := lvisit_node KVis vis in
      let@ x' := lvisit_name x in
      let@ g' := lvisit_generics g in
      let@ l' := lmap lvisit_field l in
      lret (IUnion a v x' g' l' t)
  | ITrait attrs vis u au x g supers t items =>
      let@ a := lvisit_attrs attrs in
      let@ v := lvisit_node KVis vis in
      let@ x' := lvisit_name x in
      let@ g' := lvisit_generics g in
      let@ s' := lmap (lvisit_node KBound) supers in
      let@ l' := lmap lvisit_trait_item items in
      lret (ITrait a v u au x' g' s' t l')
  | IImpl attrs d u g tr ty items =>
      let@ a := lvisit_attrs attrs in
      let@ g' := lvisit_generics g in
      let@ tr' := lvisit_opt (fun bp => let@ p := lvisit_node KPath (snd bp) in lret (fst bp, p)) tr in
      let@ ty' := lvisit_node KType ty in
      let@ l' := lmap lvisit_impl_item items in
      lret (IImpl a d u g' tr' ty' l')
  | IMod attrs vis u x content =>
      let@ a := lvisit_attrs attrs in
      let@ v := lvisit_node KVis vis in
      let@ x' := lvisit_name x in
      let@ c := match content with
                | Some items => let@ l := lmap lvisit_item items in lret (Some l)
                | None => lret None
                end in
      lret (IMod a v u x' c)
  | IForeign attrs u abi items =>
      let@ a := lvisit_attrs attrs in
      let@ n := lvisit_opt lvisit_abi abi in
      let@ l := lmap (lvisit_node KForeignItem) items in
      lret (IForeign a u n l)
  | IOther ts => let@ ts' := lvisit_node KItem ts in lret (IOther ts')
  end
with lvisit_stmt (s : stmt) : logged stmt :=
  match s with
  | SItem (IOther ts) | SOther ts => let@ ts' := lvisit_other_stmt ts in lret (SOther ts')
  | SItem i => let@ i' := lvisit_item i in lret (SItem i')
  end
with lvisit_trait_item (i : trait_item) : logged trait_item :=
  match i with
  | TFn attrs sig default =>
      let@ a := lvisit_attrs attrs in
      let@ s := lvisit_node KSig sig in
      let@ b := match default with
                | Some body => let@ l := lmap lvisit_stmt body in lret (Some l)
                | None => lret None
                end in
      lret (TFn a s b)
  | TOther k ts => let@ ts' := lvisit_node k ts in lret (TOther k ts')
  end
with lvisit_impl_item (i : impl_item) : logged impl_item :=
  match i with
  | MFn attrs vis d sig body =>
      let@ a := lvisit_attrs attrs in
      let@ v := lvisit_node KVis vis in
      let@ s := lvisit_node KSig sig in
      let@ b := lmap lvisit_stmt body in
      lret (MFn a v d s b)
  | MOther k ts => let@ ts' := lvisit_node k ts in lret (MOther k ts')
  end.
Definition lvisit_block (l : list stmt) : logged (list stmt) := lmap lvisit_stmt l.
End Visit.

(** Items and statements with spans: Item.v on tokens that carry spans.

    Keywords, punctuation and groups print with the span of the token parsed; of the three
    spans of a group, printing leaves the span of the whole ([Group::set_span] in syn's
    printing of delimiters), so that is what is kept. *)
From Coq Require Import String.
From Verif Require Import Base Token Item SpanTokens.
Open Scope list_scope.

(** syn::Attribute; [pa_inner] is the span of the exclamation mark. *)
Record pattr := { pa_pound : span; pa_inner : option span; pa_bracket : span; pa_meta : list stt }.

(** syn::Field with the span of the name and of the colon. *)
Record pfield := { pf_attrs : list pattr; pf_vis : list stt; pf_ident : option (str * span * span); pf_ty : list stt }.

(** The separators of a [Punctuated]: the spans of those printed (a missing one is
    [call_site]) and whether there is one at the end. *)
Record separators := { sep_spans : list span; sep_trailing : bool }.

(** syn::Fields with the span of the group. *)
Inductive pfields :=
| PNamed (l : list pfield) (seps : separators) (group : span)
| PUnnamed (l : list pfield) (seps : separators) (group : span)
| PUnit.

(** syn::Variant; the span in [pv_disc] is that of the [=]. *)
Record pvariant := { pv_attrs : list pattr; pv_ident : str * span; pv_fields : pfields; pv_disc : option (span * list stt) }.

(** syn::Generics. *)
Record pgenerics := { pg_params : list stt; pg_where : list stt }.

(** [k] is the span of the keyword that names the kind of the item, [group] that of the
    braces; flags have become the spans of their keywords. *)
Inductive pitem :=
| PFn (attrs : list pattr) (vis sig : list stt) (group : span) (body : list pstmt)
| PStruct (attrs : list pattr) (vis : list stt) (k : span) (ident : str * span) (g : pgenerics) (f : pfields) (semi : span)
| PEnum (attrs : list pattr) (vis : list stt) (k : span) (ident : str * span) (g : pgenerics) (group : span)
    (vs : list pvariant) (seps : separators)
| PUnion (attrs : list pattr) (vis : list stt) (k : span) (ident : str * span) (g : pgenerics) (group : span)
    (l : list pfield) (seps : separators)
| PTrait (attrs : list pattr) (vis : list stt) (unsafety auto : option span) (k : span) (ident : str * span) (g : pgenerics)
    (colon : span) (supertraits : list (list stt)) (seps : separators) (group : span) (items : list ptrait_item)
| PImpl (attrs : list pattr) (defaultness unsafety : option span) (k : span) (g : pgenerics)
    (trait_ : option (option span * list stt * span)) (self_ty : list stt) (group : span) (items : list pimpl_item)
| PMod (attrs : list pattr) (vis : list stt) (unsafety : option span) (k : span) (ident : str * span)
    (after : span) (content : option (list pitem))   (* [after]: the braces or the semicolon *)
| PForeign (attrs : list pattr) (unsafety : option span) (k : span) (abi : option (str * str * span)) (group : span)
    (items : list (list stt))
| POther (ts : list stt)
with pstmt :=
| PSItem (i : pitem)
| PSOther (ts : list stt)
with ptrait_item :=
| PTFn (attrs : list pattr) (sig : list stt) (after : span) (default : option (list pstmt))
| PTOther (k : kind) (ts : list stt)
with pimpl_item :=
| PMFn (attrs : list pattr) (vis : list stt) (defaultness : option span) (sig : list stt) (group : span) (body : list pstmt)
| PMOther (k : kind) (ts : list stt).

(** ** Without the spans *)
Definition is_some {A} (o : option A) : bool := match o with Some _ => true | None => false end.
Definition erase_attr (a : pattr) : attr := {| is_inner := is_some (pa_inner a); meta := map erase (pa_meta a) |}.
Definition erase_attrs : list pattr -> list attr := map erase_attr.
Definition erase_field (f : pfield) : field :=
  {| f_attrs := erase_attrs (pf_attrs f); f_vis := map erase (pf_vis f);
     f_ident := option_map (fun x => fst (fst x)) (pf_ident f); f_ty := map erase (pf_ty f) |}.
Definition erase_fields (f : pfields) : fields :=
  match f with
  | PNamed l t _ => FNamed (map erase_field l) (sep_trailing t)
  | PUnnamed l t _ => FUnnamed (map erase_field l) (sep_trailing t)
  | PUnit => FUnit
  end.
Definition erase_variant (v : pvariant) : variant :=
  {| v_attrs := erase_attrs (pv_attrs v); v_ident := fst (pv_ident v); v_fields := erase_fields (pv_fields v);
     v_disc := option_map (fun d => map erase (snd d)) (pv_disc v) |}.
Definition erase_generics (g : pgenerics) : generics :=
  {| g_params := map erase (pg_params g); g_where := map erase (pg_where g) |}.
Fixpoint erase_item (i : pitem) : item :=
  match i with
  | PFn a v s _ b => IFn (erase_attrs a) (map erase v) (map erase s) (map erase_stmt b)
  | PStruct a v _ x g f _ => IStruct (erase_attrs a) (map erase v) (fst x) (erase_generics g) (erase_fields f)
  | PEnum a v _ x g _ l t => IEnum (erase_attrs a) (map erase v) (fst x) (erase_generics g) (map erase_variant l) (sep_trailing t)
  | PUnion a v _ x g _ l t => IUnion (erase_attrs a) (map erase v) (fst x) (erase_generics g) (map erase_field l) (sep_trailing t)
  | PTrait a v u au _ x g _ s t _ l =>
      ITrait (erase_attrs a) (map erase v) (is_some u) (is_some au) (fst x) (erase_generics g) (map (map erase) s) (sep_trailing t)
        (map erase_trait_item l)
  | PImpl a d u _ g tr ty _ l =>
      IImpl (erase_attrs a) (is_some d) (is_some u) (erase_generics g)
        (option_map (fun t => (is_some (fst (fst t)), map erase (snd (fst t)))) tr) (map erase ty) (map erase_impl_item l)
  | PMod a v u _ x _ (Some l) => IMod (erase_attrs a) (map erase v) (is_some u) (fst x) (Some (map erase_item l))
  | PMod a v u _ x _ None => IMod (erase_attrs a) (map erase v) (is_some u) (fst x) None
  | PForeign a u _ abi _ l => IForeign (erase_attrs a) (is_some u) (option_map fst abi) (map (map erase) l)
  | POther ts => IOther (map erase ts)
  end
with erase_stmt (s : pstmt) : stmt :=
  match s with PSItem i => SItem (erase_item i) | PSOther ts => SOther (map erase ts) end
with erase_trait_item (i : ptrait_item) : trait_item :=
  match i with
  | PTFn a s _ (Some b) => TFn (erase_attrs a) (map erase s) (Some (map erase_stmt b))
  | PTFn a s _ None => TFn (erase_attrs a) (map erase s) None
  | PTOther k ts => TOther k (map erase ts)
  end
with erase_impl_item (i : pimpl_item) : impl_item :=
  match i with
  | PMFn a v d s _ b => MFn (erase_attrs a) (map erase v) (is_some d) (map erase s) (map erase_stmt b)
  | PMOther k ts => MOther k (map erase ts)
  end.

(** ** Printing *)
Definition skw (x : string) (s : span) : stt := SIdent (txt x) s.
Definition ssym (x : string) (s : span) : stt := SPunct (hd 0%N (txt x)) false s.
Definition skw_if (o : option span) (x : string) : list stt := match o with Some s => [skw x s] | None => [] end.
Definition sgroup (d : delim) (s : span) (ts : list stt) : stt := SGroup d ts (single s).

Definition pattr_tokens (a : pattr) : list stt :=
  [ssym "#" (pa_pound a)] ++ (match pa_inner a with Some s => [ssym "!" s] | None => [] end) ++
  [sgroup Bracket (pa_bracket a) (pa_meta a)].
Definition pattrs_tokens (l : list pattr) : list stt := flat_map pattr_tokens l.
Definition pouter (l : list pattr) : list pattr := filter (fun a => negb (is_some (pa_inner a))) l.
Definition pinner (l : list pattr) : list pattr := filter (fun a => is_some (pa_inner a)) l.

Fixpoint spunctuated {A} (print : A -> list stt) (sep : string) (spans : list span) (trailing : bool) (l : list A) : list stt :=
  match l with
  | [] => []
  | [x] => print x ++ if trailing then [ssym sep (hd call_site spans)] else []
  | x :: r => print x ++ ssym sep (hd call_site spans) :: spunctuated print sep (tl spans) trailing r
  end.
Definition ppunctuated {A} (print : A -> list stt) (sep : string) (s : separators) (l : list A) : list stt :=
  spunctuated print sep (sep_spans s) (sep_trailing s) l.

Definition pname_tokens (x : str * span) : list stt := [SIdent (fst x) (snd x)].
Definition pfield_tokens (f : pfield) : list stt :=
  pattrs_tokens (pf_attrs f) ++ pf_vis f ++
  (match pf_ident f with Some (x, s, c) => [SIdent x s; ssym ":" c] | None => [] end) ++ pf_ty f.
Definition pfields_tokens (f : pfields) : list stt :=
  match f with
  | PNamed l t s => [sgroup Brace s (ppunctuated pfield_tokens "," t l)]
  | PUnnamed l t s => [sgroup Paren s (ppunctuated pfield_tokens "," t l)]
  | PUnit => []
  end.
Definition pvariant_tokens (v : pvariant) : list stt :=
  pattrs_tokens (pv_attrs v) ++ pname_tokens (pv_ident v) ++ pfields_tokens (pv_fields v) ++
  match pv_disc v with Some (s, e) => ssym "=" s :: e | None => [] end.

Fixpoint pitem_tokens (i : pitem) : list stt :=
  match i with
  | PFn attrs vis sig s body =>
      pattrs_tokens (pouter attrs) ++ vis ++ sig ++
      [sgroup Brace s (pattrs_tokens (pinner attrs) ++ flat_map pstmt_tokens body)]
  | PStruct attrs vis k x g f semi =>
      pattrs_tokens (pouter attrs) ++ vis ++ skw "struct" k :: pname_tokens x ++ pg_params g ++
      match f with
      | PNamed _ _ _ => pg_where g ++ pfields_tokens f
      | PUnnamed _ _ _ => pfields_tokens f ++ pg_where g ++ [ssym ";" semi]
      | PUnit => pg_where g ++ [ssym ";" semi]
      end
  | PEnum attrs vis k x g s vs t =>
      pattrs_tokens (pouter attrs) ++ vis ++ skw "enum" k :: pname_tokens x ++ pg_params g ++ pg_where g ++
      [sgroup Brace s (ppunctuated pvariant_tokens "," t vs)]
  | PUnion attrs vis k x g s l t =>
      pattrs_tokens (pouter attrs) ++ vis ++ skw "union" k :: pname_tokens x ++ pg_params g ++ pg_where g ++
      [sgroup Brace s (ppunctuated pfield_tokens "," t l)]
  | PTrait attrs vis u a k x g colon supers t s items =>
      pattrs_tokens (pouter attrs) ++ vis ++ skw_if u "unsafe" ++ skw_if a "auto" ++ skw "trait" k :: pname_tokens x ++ pg_params g ++
      (match supers with [] => [] | _ => ssym ":" colon :: ppunctuated (fun b => b) "+" t supers end) ++
      pg_where g ++
      [sgroup Brace s (pattrs_tokens (pinner attrs) ++ flat_map ptrait_item_tokens items)]
  | PImpl attrs d u k g tr ty s items =>
      pattrs_tokens (pouter attrs) ++ skw_if d "default" ++ skw_if u "unsafe" ++ skw "impl" k :: pg_params g ++
      (match tr with
       | Some (bang, path, for_) => (match bang with Some b => [ssym "!" b] | None => [] end) ++ path ++ [skw "for" for_]
       | None => []
       end) ++ ty ++ pg_where g ++
      [sgroup Brace s (pattrs_tokens (pinner attrs) ++ flat_map pimpl_item_tokens items)]
  | PMod attrs vis u k x s content =>
      pattrs_tokens (pouter attrs) ++ vis ++ skw_if u "unsafe" ++ skw "mod" k :: pname_tokens x ++
      match content with
      | Some items => [sgroup Brace s (pattrs_tokens (pinner attrs) ++ flat_map pitem_tokens items)]
      | None => [ssym ";" s]
      end
  | PForeign attrs u k abi s items =>
      pattrs_tokens (pouter attrs) ++ skw_if u "unsafe" ++ skw "extern" k ::
      (match abi with Some (v, p, a) => [SLit (LStr v p) a] | None => [] end) ++
      [sgroup Brace s (pattrs_tokens (pinner attrs) ++ List.concat items)]
  | POther ts => ts
  end
with pstmt_tokens (s : pstmt) : list stt :=
  match s with
  | PSItem i => pitem_tokens i
  | PSOther ts => ts
  end
with ptrait_item_tokens (i : ptrait_item) : list stt :=
  match i with
  | PTFn attrs sig s (Some body) =>
      pattrs_tokens (pouter attrs) ++ sig ++
      [sgroup Brace s (pattrs_tokens (pinner attrs) ++ flat_map pstmt_tokens body)]
  | PTFn attrs sig s None => pattrs_tokens (pouter attrs) ++ sig ++ [ssym ";" s]
  | PTOther _ ts => ts
  end
with pimpl_item_tokens (i : pimpl_item) : list stt :=
  match i with
  | PMFn attrs vis d sig s body =>
      pattrs_tokens (pouter attrs) ++ vis ++ skw_if d "default" ++ sig ++
      [sgroup Brace s (pattrs_tokens (pinner attrs) ++ flat_map pstmt_tokens body)]
  | PMOther _ ts => ts
  end.
Definition pblock_tokens (l : list pstmt) : list stt := flat_map pstmt_tokens l.

(** ** Induction *)
Section pitem_ind'.
  Variables (P : pitem -> Prop) (Q : pstmt -> Prop) (R : ptrait_item -> Prop) (M : pimpl_item -> Prop).
  Hypothesis HFn : forall a v s g b, Forall Q b -> P (PFn a v s g b).
  Hypothesis HStruct : forall a v k x g f s, P (PStruct a v k x g f s).
  Hypothesis HEnum : forall a v k x g s l t, P (PEnum a v k x g s l t).
  Hypothesis HUnion : forall a v k x g s l t, P (PUnion a v k x g s l t).
  Hypothesis HTrait : forall a v u au k x g c s t b l, Forall R l -> P (PTrait a v u au k x g c s t b l).
  Hypothesis HImpl : forall a d u k g tr ty s l, Forall M l -> P (PImpl a d u k g tr ty s l).
  Hypothesis HMod : forall a v u k x s l, Forall P l -> P (PMod a v u k x s (Some l)).
  Hypothesis HModNone : forall a v u k x s, P (PMod a v u k x s None).
  Hypothesis HForeign : forall a u k abi s l, P (PForeign a u k abi s l).
  Hypothesis HOther : forall ts, P (POther ts).
  Hypothesis HItem : forall i, P i -> Q (PSItem i).
  Hypothesis HStmt : forall ts, Q (PSOther ts).
  Hypothesis HTFn : forall a s g b, Forall Q b -> R (PTFn a s g (Some b)).
  Hypothesis HTFnNone : forall a s g, R (PTFn a s g None).
  Hypothesis HTOther : forall k ts, R (PTOther k ts).
  Hypothesis HMFn : forall a v d s g b, Forall Q b -> M (PMFn a v d s g b).
  Hypothesis HMOther : forall k ts, M (PMOther k ts).
  Fixpoint pitem_ind' (i : pitem) : P i :=
    match i with
    | PFn a v s g b => HFn a v s g b
        ((fix go (l : list pstmt) : Forall Q l :=
            match l with [] => Forall_nil Q | x :: r => Forall_cons x (pstmt_ind' x) (go r) end) b)
    | PStruct a v k x g f s => HStruct a v k x g f s
    | PEnum a v k x g s l t => HEnum a v k x g s l t
    | PUnion a v k x g s l t => HUnion a v k x g s l t
    | PTrait a v u au k x g c s t b l => HTrait a v u au k x g c s t b l
        ((fix go (l : list ptrait_item) : Forall R l :=
            match l with [] => Forall_nil R | x :: r => Forall_cons x (ptrait_item_ind' x) (go r) end) l)
    | PImpl a d u k g tr ty s l => HImpl a d u k g tr ty s l
        ((fix go (l : list pimpl_item) : Forall M l :=
            match l with [] => Forall_nil M | x :: r => Forall_cons x (pimpl_item_ind' x) (go r) end) l)
    | PMod a v u k x s (Some l) => HMod a v u k x s l
        ((fix go (l : list pitem) : Forall P l :=
            match l with [] => Forall_nil P | x :: r => Forall_cons x (pitem_ind' x) (go r) end) l)
    | PMod a v u k x s None => HModNone a v u k x s
    | PForeign a u k abi s l => HForeign a u k abi s l
    | POther ts => HOther ts
    end
  with pstmt_ind' (s : pstmt) : Q s :=
    match s with
    | PSItem i => HItem i (pitem_ind' i)
    | PSOther ts => HStmt ts
    end
  with ptrait_item_ind' (i : ptrait_item) : R i :=
    match i with
    | PTFn a s g (Some b) => HTFn a s g b
        ((fix go (l : list pstmt) : Forall Q l :=
            match l with [] => Forall_nil Q | x :: r => Forall_cons x (pstmt_ind' x) (go r) end) b)
    | PTFn a s g None => HTFnNone a s g
    | PTOther k ts => HTOther k ts
    end
  with pimpl_item_ind' (i : pimpl_item) : M i :=
    match i with
    | PMFn a v d s g b => HMFn a v d s g b
        ((fix go (l : list pstmt) : Forall Q l :=
            match l with [] => Forall_nil Q | x :: r => Forall_cons x (pstmt_ind' x) (go r) end) b)
    | PMOther k ts => HMOther k ts
    end.
End pitem_ind'.

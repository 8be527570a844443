(** Items and statements as far as the visitor looks into them
    (/repo/src/substitution/alias_substitution_visitor.rs uses syn's types), and the tokens
    they print ([quote::ToTokens] of syn).  Nodes that the visitor treats as a whole are
    token lists. *)
From Coq Require Import String.
From Verif Require Import Base Token.

(** syn::Attribute; [meta] are the tokens in the brackets. *)
Record attr := { is_inner : bool; meta : list tt }.

(** syn::Field *)
Record field := { f_attrs : list attr; f_vis : list tt; f_ident : option str; f_ty : list tt }.

(** syn::Fields; the flags say whether there is a trailing comma. *)
Inductive fields :=
| FNamed (l : list field) (trailing : bool)
| FUnnamed (l : list field) (trailing : bool)
| FUnit.

(** syn::Variant *)
Record variant := { v_attrs : list attr; v_ident : str; v_fields : fields; v_disc : option (list tt) }.

(** syn::Generics: [g_params] prints as [<..>] (or nothing), [g_where] is the printed where
    clause (or nothing), which items print in a place of their own. *)
Record generics := { g_params : list tt; g_where : list tt }.

(** The nodes visited as a whole, by the type they are parsed as. *)
Inductive kind :=
| KMeta | KVis | KSig | KGenerics | KBound | KPath | KType | KExpr | KBlock | KItem | KForeignItem
| KTraitConst | KTraitType | KTraitMacro | KTraitItem | KImplConst | KImplType | KImplMacro | KImplItem.

Inductive item :=
| IFn (attrs : list attr) (vis sig : list tt) (body : list stmt)
| IStruct (attrs : list attr) (vis : list tt) (ident : str) (g : generics) (f : fields)
| IEnum (attrs : list attr) (vis : list tt) (ident : str) (g : generics) (vs : list variant) (trailing : bool)
| IUnion (attrs : list attr) (vis : list tt) (ident : str) (g : generics) (l : list field) (trailing : bool)
| ITrait (attrs : list attr) (vis : list tt) (unsafety auto : bool) (ident : str) (g : generics)
    (supertraits : list (list tt)) (trailing : bool) (items : list trait_item)
| IImpl (attrs : list attr) (defaultness unsafety : bool) (g : generics)
    (trait_ : option (bool * list tt)) (self_ty : list tt) (items : list impl_item)
| IMod (attrs : list attr) (vis : list tt) (unsafety : bool) (ident : str) (content : option (list item))
| IForeign (attrs : list attr) (unsafety : bool) (abi : option (str * str)) (items : list (list tt))
| IOther (ts : list tt)
with stmt :=
| SItem (i : item)
| SOther (ts : list tt)
with trait_item :=
| TFn (attrs : list attr) (sig : list tt) (default : option (list stmt))
| TOther (k : kind) (ts : list tt)
with impl_item :=
| MFn (attrs : list attr) (vis : list tt) (defaultness : bool) (sig : list tt) (body : list stmt)
| MOther (k : kind) (ts : list tt).

(** ** Printing *)
Definition kw (x : string) : tt := TIdent (txt x).
Definition sym (x : string) : tt := TPunct (hd 0%N (txt x)) false.
Definition kw_if (b : bool) (x : string) : list tt := if b then [kw x] else [].

Definition attr_tokens (a : attr) : list tt :=
  [sym "#"] ++ (if is_inner a then [sym "!"] else []) ++ [TGroup Bracket (meta a)].
Definition attrs_tokens (l : list attr) : list tt := flat_map attr_tokens l.
Definition outer (l : list attr) : list attr := filter (fun a => negb (is_inner a)) l.
Definition inner (l : list attr) : list attr := filter is_inner l.

(** syn::punctuated::Punctuated *)
Fixpoint punctuated {A} (print : A -> list tt) (sep : tt) (trailing : bool) (l : list A) : list tt :=
  match l with
  | [] => []
  | [x] => print x ++ if trailing then [sep] else []
  | x :: r => print x ++ sep :: punctuated print sep trailing r
  end.

Definition field_tokens (f : field) : list tt :=
  attrs_tokens (f_attrs f) ++ f_vis f ++
  (match f_ident f with Some x => [TIdent x; sym ":"] | None => [] end) ++ f_ty f.
Definition fields_tokens (f : fields) : list tt :=
  match f with
  | FNamed l t => [TGroup Brace (punctuated field_tokens (sym ",") t l)]
  | FUnnamed l t => [TGroup Paren (punctuated field_tokens (sym ",") t l)]
  | FUnit => []
  end.
Definition variant_tokens (v : variant) : list tt :=
  attrs_tokens (v_attrs v) ++ TIdent (v_ident v) :: fields_tokens (v_fields v) ++
  match v_disc v with Some e => sym "=" :: e | None => [] end.

Fixpoint item_tokens (i : item) : list tt :=
  match i with
  | IFn attrs vis sig body =>
      attrs_tokens (outer attrs) ++ vis ++ sig ++
      [TGroup Brace (attrs_tokens (inner attrs) ++ flat_map stmt_tokens body)]
  | IStruct attrs vis x g f =>
      attrs_tokens (outer attrs) ++ vis ++ [kw "struct"; TIdent x] ++ g_params g ++
      match f with
      | FNamed _ _ => g_where g ++ fields_tokens f
      | FUnnamed _ _ => fields_tokens f ++ g_where g ++ [sym ";"]
      | FUnit => g_where g ++ [sym ";"]
      end
  | IEnum attrs vis x g vs t =>
      attrs_tokens (outer attrs) ++ vis ++ [kw "enum"; TIdent x] ++ g_params g ++ g_where g ++
      [TGroup Brace (punctuated variant_tokens (sym ",") t vs)]
  | IUnion attrs vis x g l t =>
      attrs_tokens (outer attrs) ++ vis ++ [kw "union"; TIdent x] ++ g_params g ++ g_where g ++
      [TGroup Brace (punctuated field_tokens (sym ",") t l)]
  | ITrait attrs vis u a x g supers t items =>
      attrs_tokens (outer attrs) ++ vis ++ kw_if u "unsafe" ++ kw_if a "auto" ++ [kw "trait"; TIdent x] ++ g_params g ++
      (match supers with [] => [] | _ => sym ":" :: punctuated (fun b => b) (sym "+") t supers end) ++
      g_where g ++
      [TGroup Brace (attrs_tokens (inner attrs) ++ flat_map trait_item_tokens items)]
  | IImpl attrs d u g tr ty items =>
      attrs_tokens (outer attrs) ++ kw_if d "default" ++ kw_if u "unsafe" ++ [kw "impl"] ++ g_params g ++
      (match tr with
       | Some (bang, path) => (if bang then [sym "!"] else []) ++ path ++ [kw "for"]
       | None => []
       end) ++ ty ++ g_where g ++
      [TGroup Brace (attrs_tokens (inner attrs) ++ flat_map impl_item_tokens items)]
  | IMod attrs vis u x content =>
      attrs_tokens (outer attrs) ++ vis ++ kw_if u "unsafe" ++ [kw "mod"; TIdent x] ++
      match content with
      | Some items => [TGroup Brace (attrs_tokens (inner attrs) ++ flat_map item_tokens items)]
      | None => [sym ";"]
      end
  | IForeign attrs u abi items =>
      attrs_tokens (outer attrs) ++ kw_if u "unsafe" ++ [kw "extern"] ++
      (match abi with Some (v, p) => [TLit (LStr v p)] | None => [] end) ++
      [TGroup Brace (attrs_tokens (inner attrs) ++ List.concat items)]
  | IOther ts => ts
  end
with stmt_tokens (s : stmt) : list tt :=
  match s with
  | SItem i => item_tokens i
  | SOther ts => ts
  end
with trait_item_tokens (i : trait_item) : list tt :=
  match i with
  | TFn attrs sig (Some body) =>
      attrs_tokens (outer attrs) ++ sig ++
      [TGroup Brace (attrs_tokens (inner attrs) ++ flat_map stmt_tokens body)]
  | TFn attrs sig None => attrs_tokens (outer attrs) ++ sig ++ [sym ";"]
  | TOther _ ts => ts
  end
with impl_item_tokens (i : impl_item) : list tt :=
  match i with
  | MFn attrs vis d sig body =>
      attrs_tokens (outer attrs) ++ vis ++ kw_if d "default" ++ sig ++
      [TGroup Brace (attrs_tokens (inner attrs) ++ flat_map stmt_tokens body)]
  | MOther _ ts => ts
  end.
Definition block_tokens (l : list stmt) : list tt := flat_map stmt_tokens l.

(** ** Induction *)
Section item_ind'.
  Variables (P : item -> Prop) (Q : stmt -> Prop) (R : trait_item -> Prop) (M : impl_item -> Prop).
  Hypothesis HFn : forall a v s b, Forall Q b -> P (IFn a v s b).
  Hypothesis HStruct : forall a v x g f, P (IStruct a v x g f).
  Hypothesis HEnum : forall a v x g l t, P (IEnum a v x g l t).
  Hypothesis HUnion : forall a v x g l t, P (IUnion a v x g l t).
  Hypothesis HTrait : forall a v u au x g s t l, Forall R l -> P (ITrait a v u au x g s t l).
  Hypothesis HImpl : forall a d u g tr ty l, Forall M l -> P (IImpl a d u g tr ty l).
  Hypothesis HMod : forall a v u x l, Forall P l -> P (IMod a v u x (Some l)).
  Hypothesis HModNone : forall a v u x, P (IMod a v u x None).
  Hypothesis HForeign : forall a u abi l, P (IForeign a u abi l).
  Hypothesis HOther : forall ts, P (IOther ts).
  Hypothesis HItem : forall i, P i -> Q (SItem i).
  Hypothesis HStmt : forall ts, Q (SOther ts).
  Hypothesis HTFn : forall a s b, Forall Q b -> R (TFn a s (Some b)).
  Hypothesis HTFnNone : forall a s, R (TFn a s None).
  Hypothesis HTOther : forall k ts, R (TOther k ts).
  Hypothesis HMFn : forall a v d s b, Forall Q b -> M (MFn a v d s b).
  Hypothesis HMOther : forall k ts, M (MOther k ts).
  Fixpoint item_ind' (i : item) : P i :=
    match i with
    | IFn a v s b => HFn a v s b
        ((fix go (l : list stmt) : Forall Q l :=
            match l with [] => Forall_nil Q | x :: r => Forall_cons x (stmt_ind' x) (go r) end) b)
    | IStruct a v x g f => HStruct a v x g f
    | IEnum a v x g l t => HEnum a v x g l t
    | IUnion a v x g l t => HUnion a v x g l t
    | ITrait a v u au x g s t l => HTrait a v u au x g s t l
        ((fix go (l : list trait_item) : Forall R l :=
            match l with [] => Forall_nil R | x :: r => Forall_cons x (trait_item_ind' x) (go r) end) l)
    | IImpl a d u g tr ty l => HImpl a d u g tr ty l
        ((fix go (l : list impl_item) : Forall M l :=
            match l with [] => Forall_nil M | x :: r => Forall_cons x (impl_item_ind' x) (go r) end) l)
    | IMod a v u x (Some l) => HMod a v u x l
        ((fix go (l : list item) : Forall P l :=
            match l with [] => Forall_nil P | x :: r => Forall_cons x (item_ind' x) (go r) end) l)
    | IMod a v u x None => HModNone a v u x
    | IForeign a u abi l => HForeign a u abi l
    | IOther ts => HOther ts
    end
  with stmt_ind' (s : stmt) : Q s :=
    match s with
    | SItem i => HItem i (item_ind' i)
    | SOther ts => HStmt ts
    end
  with trait_item_ind' (i : trait_item) : R i :=
    match i with
    | TFn a s (Some b) => HTFn a s b
        ((fix go (l : list stmt) : Forall Q l :=
            match l with [] => Forall_nil Q | x :: r => Forall_cons x (stmt_ind' x) (go r) end) b)
    | TFn a s None => HTFnNone a s
    | TOther k ts => HTOther k ts
    end
  with impl_item_ind' (i : impl_item) : M i :=
    match i with
    | MFn a v d s b => HMFn a v d s b
        ((fix go (l : list stmt) : Forall Q l :=
            match l with [] => Forall_nil Q | x :: r => Forall_cons x (stmt_ind' x) (go r) end) b)
    | MOther k ts => HMOther k ts
    end.
End item_ind'.

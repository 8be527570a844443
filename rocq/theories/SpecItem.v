(** Specification of the substitution of items, independent of the visitor. *)
From Coq Require Import String.
From Verif Require Import Base Token Types Values SpecSubst Item.

(** The item without the where clauses of structs, enums, unions, traits and impls (those of
    functions are part of the signature). *)
Definition no_where_generics (g : generics) : generics := {| g_params := g_params g; g_where := [] |}.
Fixpoint drop_where (i : item) : item :=
  match i with
  | IFn a v s b => IFn a v s (map drop_where_stmt b)
  | IStruct a v x g f => IStruct a v x (no_where_generics g) f
  | IEnum a v x g l t => IEnum a v x (no_where_generics g) l t
  | IUnion a v x g l t => IUnion a v x (no_where_generics g) l t
  | ITrait a v u au x g s t l => ITrait a v u au x (no_where_generics g) s t (map drop_where_trait_item l)
  | IImpl a d u g tr ty l => IImpl a d u (no_where_generics g) tr ty (map drop_where_impl_item l)
  | IMod a v u x (Some l) => IMod a v u x (Some (map drop_where l))
  | IMod a v u x None => IMod a v u x None
  | IForeign a u abi l => IForeign a u abi l
  | IOther ts => IOther ts
  end
with drop_where_stmt (s : stmt) : stmt :=
  match s with SItem i => SItem (drop_where i) | SOther ts => SOther ts end
with drop_where_trait_item (i : trait_item) : trait_item :=
  match i with
  | TFn a s (Some b) => TFn a s (Some (map drop_where_stmt b))
  | TFn a s None => TFn a s None
  | TOther k ts => TOther k ts
  end
with drop_where_impl_item (i : impl_item) : impl_item :=
  match i with
  | MFn a v d s b => MFn a v d s (map drop_where_stmt b)
  | MOther k ts => MOther k ts
  end.

(** The keywords items print that the visitor does not look at. *)
Definition item_keywords : list str :=
  map txt ["struct"; "enum"; "union"; "trait"; "impl"; "mod"; "extern"; "for"; "unsafe"; "auto"; "default"]%string.

(** Parsers whose result prints as the tokens parsed. *)
Record faithful (O : oracles) (reparse : kind -> list tt -> option (list tt)) : Prop := {
  faithful_node : forall k ts ts', reparse k ts = Some ts' -> ts' = ts;
  faithful_ident : forall ts x, parse_ident O ts = Some x -> ts = [TIdent x];
  faithful_str : forall ts v p, parse_lit_str O ts = Some (v, p) -> ts = [TLit (LStr v p)];
}.

(** Items all of whose nodes can be parsed again from their tokens (and whose attributes are
    outer ones). *)
Section Ok.
Context (O : oracles) (reparse : kind -> list tt -> option (list tt)).

Definition node_ok (k : kind) (ts : list tt) : Prop := reparse k ts = Some ts.
Definition name_ok (x : str) : Prop := parse_ident O [TIdent x] = Some x.
Definition attrs_ok (l : list attr) : Prop := Forall (fun a => is_inner a = false /\ node_ok KMeta (meta a)) l.
Definition field_ok (f : field) : Prop :=
  attrs_ok (f_attrs f) /\ node_ok KVis (f_vis f) /\ (forall x, f_ident f = Some x -> name_ok x) /\ node_ok KType (f_ty f).
Definition fields_ok (f : fields) : Prop :=
  match f with FNamed l _ | FUnnamed l _ => Forall field_ok l | FUnit => True end.
Definition variant_ok (v : variant) : Prop :=
  attrs_ok (v_attrs v) /\ name_ok (v_ident v) /\ fields_ok (v_fields v) /\ (forall e, v_disc v = Some e -> node_ok KExpr e).
Definition stmt_tokens_ok (ts : list tt) : Prop := node_ok KBlock [TGroup Brace ts].

Fixpoint item_ok (i : item) : Prop :=
  match i with
  | IFn a v s b => attrs_ok a /\ node_ok KVis v /\ node_ok KSig s /\ fold_right and True (map stmt_ok b)
  | IStruct a v x g f => attrs_ok a /\ node_ok KVis v /\ name_ok x /\ node_ok KGenerics (g_params g) /\ fields_ok f
  | IEnum a v x g l _ => attrs_ok a /\ node_ok KVis v /\ name_ok x /\ node_ok KGenerics (g_params g) /\ Forall variant_ok l
  | IUnion a v x g l _ => attrs_ok a /\ node_ok KVis v /\ name_ok x /\ node_ok KGenerics (g_params g) /\ Forall field_ok l
  | ITrait a v _ _ x g s _ l =>
      attrs_ok a /\ node_ok KVis v /\ name_ok x /\ node_ok KGenerics (g_params g) /\ Forall (node_ok KBound) s /\
      fold_right and True (map trait_item_ok l)
  | IImpl a _ _ g tr ty l =>
      attrs_ok a /\ node_ok KGenerics (g_params g) /\ (forall b p, tr = Some (b, p) -> node_ok KPath p) /\ node_ok KType ty /\
      fold_right and True (map impl_item_ok l)
  | IMod a v _ x (Some l) => attrs_ok a /\ node_ok KVis v /\ name_ok x /\ fold_right and True (map item_ok l)
  | IMod a v _ x None => attrs_ok a /\ node_ok KVis v /\ name_ok x
  | IForeign a _ abi l =>
      attrs_ok a /\ (forall v p, abi = Some (v, p) -> parse_lit_str O [TLit (LStr v p)] = Some (v, p)) /\ Forall (node_ok KForeignItem) l
  | IOther ts => node_ok KItem ts
  end
with stmt_ok (s : stmt) : Prop :=
  match s with
  | SItem (IOther ts) | SOther ts => stmt_tokens_ok ts
  | SItem i => item_ok i
  end
with trait_item_ok (i : trait_item) : Prop :=
  match i with
  | TFn a s (Some b) => attrs_ok a /\ node_ok KSig s /\ fold_right and True (map stmt_ok b)
  | TFn a s None => attrs_ok a /\ node_ok KSig s
  | TOther k ts => node_ok k ts
  end
with impl_item_ok (i : impl_item) : Prop :=
  match i with
  | MFn a v _ s b => attrs_ok a /\ node_ok KVis v /\ node_ok KSig s /\ fold_right and True (map stmt_ok b)
  | MOther k ts => node_ok k ts
  end.
End Ok.

(** A stream without alias names in which every string literal is written plainly and
    contains no percent sign. *)
Definition untouched (O : oracles) (lookup : str -> option value) (ts : list tt) : Prop :=
  (forall x, In (TIdent x) (leaves ts) -> lookup x = None) /\
  (forall l, In (TLit l) (leaves ts) ->
     parse_lit_str O [TLit l] = None \/
     exists v, l = LStr v [] /\ ~ In 37%N v /\ parse_lit_str O [TLit l] = Some (v, [])).

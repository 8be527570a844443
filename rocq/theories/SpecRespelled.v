(** Specification of what becomes of items without aliases: every string literal is written
    anew, and inner attributes are not accepted. *)
From Verif Require Import Base Token Types Values SpecSubst Item SpecItem.

Section Respelled.
Context (O : oracles).
(** Every string literal plainly, without raw spelling and suffix. *)
Fixpoint respelled1 (t : tt) : tt :=
  match t with
  | TLit l => match parse_lit_str O [TLit l] with Some (content, _) => TLit (LStr content []) | None => t end
  | TGroup d ts => TGroup d (map respelled1 ts)
  | _ => t
  end.
Definition respelled (ts : list tt) : list tt := map respelled1 ts.
End Respelled.

(** No identifier is an alias, no string contains a percent sign. *)
Definition unaliased (O : oracles) (lookup : str -> option value) (ts : list tt) : Prop :=
  (forall x, In (TIdent x) (leaves ts) -> lookup x = None) /\
  (forall l content suffix, In (TLit l) (leaves ts) -> parse_lit_str O [TLit l] = Some (content, suffix) -> ~ In 37%N content).

(** Parsers for which one string is as good as another. *)
Record indifferent (O : oracles) (reparse : kind -> list tt -> option (list tt)) : Prop := {
  indifferent_node : forall k, ignores_strings (reparse k);
  indifferent_ident : ignores_strings (parse_ident O);
  indifferent_str : ignores_strings (parse_lit_str O);
  strings_only : forall l r, parse_lit_str O [TLit l] = Some r -> exists v p, l = LStr v p;
}.

(** All attributes that the visitor looks at are outer ones. *)
Definition outer_only (l : list attr) : Prop := Forall (fun a => is_inner a = false) l.
Definition fields_list (f : fields) : list field := match f with FNamed l _ | FUnnamed l _ => l | FUnit => [] end.
Definition all_of {A} (P : A -> Prop) (l : list A) : Prop := fold_right (fun x r => P x /\ r) True l.
Fixpoint item_outer (i : item) : Prop :=
  match i with
  | IFn a _ _ b => outer_only a /\ all_of stmt_outer b
  | IStruct a _ _ _ f => outer_only a /\ Forall (fun x => outer_only (f_attrs x)) (fields_list f)
  | IEnum a _ _ _ l _ => outer_only a /\ Forall (fun v => outer_only (v_attrs v) /\ Forall (fun x => outer_only (f_attrs x)) (fields_list (v_fields v))) l
  | IUnion a _ _ _ l _ => outer_only a /\ Forall (fun x => outer_only (f_attrs x)) l
  | ITrait a _ _ _ _ _ _ _ l => outer_only a /\ all_of trait_item_outer l
  | IImpl a _ _ _ _ _ l => outer_only a /\ all_of impl_item_outer l
  | IMod a _ _ _ (Some l) => outer_only a /\ all_of item_outer l
  | IMod a _ _ _ None => outer_only a
  | IForeign a _ _ _ => outer_only a
  | IOther _ => True
  end
with stmt_outer (s : stmt) : Prop :=
  match s with SItem i => item_outer i | SOther _ => True end
with trait_item_outer (i : trait_item) : Prop :=
  match i with
  | TFn a _ (Some b) => outer_only a /\ all_of stmt_outer b
  | TFn a _ None => outer_only a
  | TOther _ _ => True
  end
with impl_item_outer (i : impl_item) : Prop :=
  match i with
  | MFn a _ _ _ b => outer_only a /\ all_of stmt_outer b
  | MOther _ _ => True
  end.

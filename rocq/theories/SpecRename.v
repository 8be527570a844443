(** Specification of renaming the identifiers of an item that are not aliases and the literals
    that are not strings: every one is replaced by another, and what is assumed of syn's
    parsers. *)
From Coq Require Import String.
From Verif Require Import Base Token Types Values Ast Env Eval Expand Item Deprecation Interpreter Parse Macro.
Open Scope list_scope.

(** What becomes of identifiers and of literals. *)
Record naming := { on_idents :> str -> str; on_literals : lit -> lit }.

Section Rename.
Context (r : naming).

(** ** Tokens *)
Fixpoint rename1 (t : tt) : tt :=
  match t with
  | TIdent x => TIdent (r x)
  | TLit l => TLit (on_literals r l)
  | TGroup d ts => TGroup d (map rename1 ts)
  | TPunct _ _ => t
  end.
Definition rename (ts : list tt) : list tt := map rename1 ts.

(** ** Items *)
Definition rename_attr (a : attr) : attr := {| is_inner := is_inner a; meta := rename (meta a) |}.
Definition rename_attrs : list attr -> list attr := map rename_attr.
Definition rename_field (f : field) : field :=
  {| f_attrs := rename_attrs (f_attrs f); f_vis := rename (f_vis f); f_ident := option_map r (f_ident f); f_ty := rename (f_ty f) |}.
Definition rename_fields (f : fields) : fields :=
  match f with
  | FNamed l t => FNamed (map rename_field l) t
  | FUnnamed l t => FUnnamed (map rename_field l) t
  | FUnit => FUnit
  end.
Definition rename_variant (v : variant) : variant :=
  {| v_attrs := rename_attrs (v_attrs v); v_ident := r (v_ident v); v_fields := rename_fields (v_fields v);
     v_disc := option_map rename (v_disc v) |}.
Definition rename_generics (g : generics) : generics := {| g_params := rename (g_params g); g_where := rename (g_where g) |}.
Definition rename_impl_trait (t : bool * list tt) : bool * list tt := (fst t, rename (snd t)).
Fixpoint rename_item (i : item) : item :=
  match i with
  | IFn a v s b => IFn (rename_attrs a) (rename v) (rename s) (map rename_stmt b)
  | IStruct a v x g f => IStruct (rename_attrs a) (rename v) (r x) (rename_generics g) (rename_fields f)
  | IEnum a v x g l t => IEnum (rename_attrs a) (rename v) (r x) (rename_generics g) (map rename_variant l) t
  | IUnion a v x g l t => IUnion (rename_attrs a) (rename v) (r x) (rename_generics g) (map rename_field l) t
  | ITrait a v u au x g s t l =>
      ITrait (rename_attrs a) (rename v) u au (r x) (rename_generics g) (map rename s) t (map rename_trait_item l)
  | IImpl a d u g tr ty l =>
      IImpl (rename_attrs a) d u (rename_generics g) (option_map rename_impl_trait tr) (rename ty) (map rename_impl_item l)
  | IMod a v u x c =>
      IMod (rename_attrs a) (rename v) u (r x) (match c with Some l => Some (map rename_item l) | None => None end)
  | IForeign a u abi l => IForeign (rename_attrs a) u abi (map rename l)
  | IOther ts => IOther (rename ts)
  end
with rename_stmt (s : stmt) : stmt :=
  match s with SItem i => SItem (rename_item i) | SOther ts => SOther (rename ts) end
with rename_trait_item (i : trait_item) : trait_item :=
  match i with
  | TFn a s b => TFn (rename_attrs a) (rename s) (match b with Some l => Some (map rename_stmt l) | None => None end)
  | TOther k ts => TOther k (rename ts)
  end
with rename_impl_item (i : impl_item) : impl_item :=
  match i with
  | MFn a v d s b => MFn (rename_attrs a) (rename v) d (rename s) (map rename_stmt b)
  | MOther k ts => MOther k (rename ts)
  end.
Definition rename_block : list stmt -> list stmt := map rename_stmt.
Fixpoint rename_tree (t : tree) : tree :=
  match t with
  | DTok t => DTok (rename1 t)
  | DGroup d l => DGroup d (map rename_tree l)
  | DNode a b l => DNode (rename_attrs a) b (map rename_tree l)
  end.

(** ** Uses of [compose_item] and what comes of them.  Only the item is renamed, not the
    definitions. *)
Definition rename_use (u : use) : use :=
  {| u_source := match u_source u with
                 | ComposeItem attr item => ComposeItem attr (rename item)
                 | s => s
                 end;
     u_seed := u_seed u; u_first_id := u_first_id u; u_next_id := u_next_id u |}.
Definition rename_output (o : output) : output :=
  match o with Code ts => Code (rename ts) | _ => o end.

(** [w] stays what it is, and nothing else becomes it. *)
Definition spared (w : str) : Prop := forall x, r x = w <-> x = w.

(** The words that the printed items and the deprecation service bring in or look for. *)
Definition printed_words : list str :=
  map txt ["struct"; "enum"; "union"; "unsafe"; "auto"; "trait"; "default"; "impl"; "for"; "mod"; "extern";
           "deprecated"; "since"; "note"]%string.

(** ** What is assumed of syn: given renamed tokens, it makes the same things, renamed. *)
Record renames (O : oracles) (P : parsers) (Y : syntax) : Prop := {
  renames_words : Forall spared printed_words;
  (** Strings may have placeholders and stay; nothing else becomes one. *)
  renames_strings : forall v p, on_literals r (LStr v p) = LStr v p;
  renames_literal : forall l, parse_lit_str O [TLit (on_literals r l)] = parse_lit_str O [TLit l];
  renames_ident : forall ts, parse_ident O (rename ts) = option_map r (parse_ident O ts);
  renames_reparse : forall k ts, reparse Y k (rename ts) = option_map rename (reparse Y k ts);
  renames_forest : forall ts, as_forest Y (rename ts) = map rename_tree (as_forest Y ts);
  renames_block : forall ts, pre_block P (rename ts) =
    option_map (fun '(b, k, u) => (rename_block b, k, u)) (pre_block P ts);
}.

(** In every round of the use the aliases are spared, and what they stand for is made of
    identifiers and literals that stay as they are. *)
Definition rounds_apart (O : oracles) (P : parsers) (u : use) : Prop :=
  forall ast rws rw sub x v,
    p_ast (inv_parsed (invocation_for O P u)) = Ok (Some ast) -> expand ast = Ok rws -> In rw rws ->
    make_substitutions O (new_initialized O (u_seed u) (u_first_id u)) (fst rw) = Ok sub -> In (x, v) sub ->
    spared x /\ rename (to_tokens v) = to_tokens v.
Definition of_item (u : use) : Prop := exists attr item, u_source u = ComposeItem attr item.
End Rename.

(** [a] and [b] change places. *)
Definition swap (a b x : str) : str := if str_eqb x a then b else if str_eqb x b then a else x.
Definition swap_lit (a b x : lit) : lit := if lit_eqb x a then b else if lit_eqb x b then a else x.
(** The identifiers [a] and [b] change places, and the literals [l] and [m]. *)
Definition exchange (a b : str) (l m : lit) : naming := {| on_idents := swap a b; on_literals := swap_lit l m |}.

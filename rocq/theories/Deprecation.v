(** Model of /repo/src/util/deprecation.rs. *)
From Coq Require Import String.
From Verif Require Import Base Token Item.

(** deprecation.rs 18-22 *)
Record warning := { note : str; since : str }.

(** The derived [Ord] (18): by note, then by since.  [String]s are ordered by their UTF-8
    bytes, which is the order of their code points. *)
Fixpoint str_compare (a b : str) : comparison :=
  match a, b with
  | [], [] => Eq
  | [], _ => Lt
  | _, [] => Gt
  | x :: a', y :: b' => match N.compare x y with Eq => str_compare a' b' | c => c end
  end.
Definition warning_compare (a b : warning) : comparison :=
  match str_compare (note a) (note b) with Eq => str_compare (since a) (since b) | c => c end.

(** [BTreeSet::insert]; the set is the list of its elements in order. *)
Fixpoint insert (w : warning) (l : list warning) : list warning :=
  match l with
  | [] => [w]
  | x :: r => match warning_compare w x with
              | Lt => w :: l
              | Eq => l
              | Gt => x :: insert w r
              end
  end.

(** deprecation.rs 29-35 *)
Definition with_prefix (prefix : str) (w : warning) : warning :=
  {| note := prefix ++ note w; since := since w |}.

(** deprecation.rs 37-45 *)
Definition to_attribute (w : warning) : attr :=
  {| is_inner := false;
     meta := [kw "deprecated";
              TGroup Paren [kw "since"; sym "="; TLit (LStr (since w) []); sym ",";
                            kw "note"; sym "="; TLit (LStr (note w) []); sym ","]] |}.

(** [attr.path().is_ident("deprecated")] (67): the path is the single segment before the
    rest of the meta. *)
Definition names_deprecated (m : list tt) : bool :=
  match m with
  | TIdent x :: TPunct c _ :: TPunct d _ :: _ =>
      str_eqb x (txt "deprecated") && negb (N.eqb c 58 && N.eqb d 58)
  | TIdent x :: _ => str_eqb x (txt "deprecated")
  | _ => false
  end.

(** What the visitor sees of a block: the nodes it may put an attribute on (fields, variants,
    items, trait items and foreign items, 78-141; not impl items, verbatim items and
    statements) in the order in which syn's traversal meets them, between tokens it does not
    touch.  A node has its outer attributes in front; its inner attributes are among the
    tokens of [children], [inner_deprecated] says whether one of them is [deprecated]. *)
Inductive tree :=
| DTok (t : tt)
| DGroup (d : delim) (children : list tree)
| DNode (attrs : list attr) (inner_deprecated : bool) (children : list tree).
Definition forest := list tree.

Section tree_ind'.
  Variable P : tree -> Prop.
  Hypothesis Ht : forall t, P (DTok t).
  Hypothesis Hg : forall d l, Forall P l -> P (DGroup d l).
  Hypothesis Hn : forall a b l, Forall P l -> P (DNode a b l).
  Fixpoint tree_ind' (t : tree) : P t :=
    let go := fix go (l : list tree) : Forall P l :=
      match l with [] => Forall_nil P | x :: r => Forall_cons x (tree_ind' x) (go r) end in
    match t with
    | DTok t => Ht t
    | DGroup d l => Hg d l (go l)
    | DNode a b l => Hn a b l (go l)
    end.
End tree_ind'.

(** The tokens printed ([quote!]). *)
Fixpoint tree_tokens (t : tree) : list tt :=
  match t with
  | DTok t => [t]
  | DGroup d l => [TGroup d (flat_map tree_tokens l)]
  | DNode a _ l => attrs_tokens a ++ flat_map tree_tokens l
  end.
Definition forest_tokens (f : forest) : list tt := flat_map tree_tokens f.

(** [Vec::pop] *)
Definition pop {A} (v : list A) : option (A * list A) :=
  match rev v with [] => None | x :: r => Some (x, rev r) end.

Section Visitor.
Context (prefix : str).

(** deprecation.rs 62-74: [process_deprecations]; the vector of warnings is threaded
    through. *)
Definition process_deprecations (ws : list warning) (attrs : list attr) (inner_deprecated : bool)
  : list warning * list attr :=
  match pop ws with
  | None => (ws, attrs)
  | Some (w, ws') =>
      if existsb (fun a => names_deprecated (meta a)) attrs || inner_deprecated then (ws, attrs)
      else (ws', attrs ++ [to_attribute (with_prefix prefix w)])
  end.

(** [for x in l { self.visit(x) }] *)
Section Each.
Context {A : Type} (visit : list warning -> A -> list warning * A).
Fixpoint visit_each (ws : list warning) (l : list A) : list warning * list A :=
  match l with
  | [] => (ws, [])
  | x :: r =>
      let (ws1, x') := visit ws x in
      let (ws2, r') := visit_each ws1 r in
      (ws2, x' :: r')
  end.
End Each.

(** deprecation.rs 77-142: each method processes its node and then visits what is below. *)
Fixpoint visit_tree (ws : list warning) (t : tree) : list warning * tree :=
  match t with
  | DTok t => (ws, DTok t)
  | DGroup d l => let (ws', l') := visit_each visit_tree ws l in (ws', DGroup d l')
  | DNode a b l =>
      let (ws1, a') := process_deprecations ws a b in
      let (ws2, l') := visit_each visit_tree ws1 l in
      (ws2, DNode a' b l')
  end.
End Visitor.

(** deprecation.rs 164-168 *)
Record service := { warnings : list warning; borrowed : N; s_prefix : str }.
(** deprecation.rs 171-177 *)
Definition new_service (prefix : str) : service := {| warnings := []; borrowed := 0; s_prefix := prefix |}.
(** deprecation.rs 183-185 *)
Definition add_warning (w : warning) (s : service) : service :=
  {| warnings := insert w (warnings s); borrowed := borrowed s; s_prefix := s_prefix s |}.
(** deprecation.rs 187-192 *)
Definition semicolon_warning : warning :=
  {| note := txt "Using semicolons as separators is deprecated, use commas instead"; since := txt "0.0.5" |}.
(** deprecation.rs 198-200 *)
Definition clear (s : service) : service := {| warnings := []; borrowed := borrowed s; s_prefix := s_prefix s |}.
(** deprecation.rs 55-59, 202-211: the visitor reverses the warnings. *)
Definition emit (s : service) (f : forest) : forest :=
  match warnings s with
  | [] => f
  | ws => snd (visit_each (visit_tree (s_prefix s)) (rev ws) f)
  end.

(** The thread-local cell (12-14). *)
Definition thread := option service.
(** deprecation.rs 213-217: [OnceCell::set] fails when the cell is filled. *)
Definition maybe_set_global (s : service) (t : thread) : thread :=
  match t with None => Some s | Some s' => Some s' end.
(** deprecation.rs 223-228; [borrowed] counts scopes that exist at the same time and is not
    bounded here. *)
Definition scoped (t : thread) : res thread :=
  match t with
  | None => Panic PNotInitialized
  | Some s => Ok (Some {| warnings := warnings s; borrowed := borrowed s + 1; s_prefix := s_prefix s |})
  end.
(** deprecation.rs 194-196, 234-238 *)
Definition scope_add_semicolon_warning (t : thread) : thread := option_map (add_warning semicolon_warning) t.
(** deprecation.rs 240-244 *)
Definition scope_emit (t : thread) (f : forest) : forest :=
  match t with Some s => emit s f | None => f end.
(** deprecation.rs 247-257 *)
Definition scope_drop (t : thread) : res thread :=
  match t with
  | None => Ok None
  | Some s =>
      if N.eqb (borrowed s) 0 then Panic POverflow
      else
        let s' := {| warnings := warnings s; borrowed := borrowed s - 1; s_prefix := s_prefix s |} in
        Ok (Some (if N.eqb (borrowed s') 0 then clear s' else s'))
  end.

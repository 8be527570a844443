(** Specification of the deprecation warnings, independent of the visitor and the service. *)
From Coq Require Import String.
From Verif Require Import Base Token Types Values Ast Env Item AliasSubstitution Deprecation Interpreter Expand Eval.

(** The nodes of a forest from top to bottom and left to right, as their attributes. *)
Fixpoint tree_nodes (t : tree) : list (list attr * bool) :=
  match t with
  | DTok _ => []
  | DGroup _ l => flat_map tree_nodes l
  | DNode a b l => (a, b) :: flat_map tree_nodes l
  end.
Definition nodes (f : forest) : list (list attr * bool) := flat_map tree_nodes f.

(** Everything but the nodes' outer attributes. *)
Fixpoint tree_skeleton (t : tree) : tree :=
  match t with
  | DTok t => DTok t
  | DGroup d l => DGroup d (map tree_skeleton l)
  | DNode _ b l => DNode [] b (map tree_skeleton l)
  end.
Definition skeleton (f : forest) : forest := map tree_skeleton f.

(** [deprecated] or [deprecated = ..] or [deprecated(..)], not [deprecated::..]. *)
Definition deprecated_meta (m : list tt) : Prop :=
  exists rest, m = TIdent (txt "deprecated") :: rest /\
  forall j1 j2 r, rest <> TPunct 58%N j1 :: TPunct 58%N j2 :: r.
Definition is_deprecated (n : list attr * bool) : Prop :=
  snd n = true \/ exists a, In a (fst n) /\ deprecated_meta (meta a).

(** [#[deprecated(since = "..", note = "..",)]] *)
Definition deprecation (prefix : str) (w : warning) : attr :=
  {| is_inner := false;
     meta := [TIdent (txt "deprecated");
              TGroup Paren [TIdent (txt "since"); TPunct 61%N false; TLit (LStr (since w) []); TPunct 44%N false;
                            TIdent (txt "note"); TPunct 61%N false; TLit (LStr (prefix ++ note w) []); TPunct 44%N false]] |}.

(** Handing out the warnings [ws] to the nodes [l] in order gives the nodes [l']. *)
Inductive annotated (prefix : str) : list warning -> list (list attr * bool) -> list (list attr * bool) -> Prop :=
| ann_no_node : forall ws, annotated prefix ws [] []
| ann_no_warning : forall l, annotated prefix [] l l
| ann_skip : forall ws n l l', is_deprecated n -> annotated prefix ws l l' -> annotated prefix ws (n :: l) (n :: l')
| ann_add : forall w ws n l l', ~ is_deprecated n -> annotated prefix ws l l' ->
    annotated prefix (w :: ws) (n :: l) ((fst n ++ [deprecation prefix w], snd n) :: l').

(** The warnings an invocation raises. *)
Definition raised (inv : invocation) : list warning :=
  match p_scope (inv_parsed inv) with Some true => [semicolon_warning] | _ => [] end.

(** What the code of an invocation is made of: the statements of every block after
    substitution, in order. *)
Definition blocks_of (O : oracles) (Y : syntax) (inv : invocation) (blocks : list (list stmt)) : Prop :=
  exists ast rws, p_ast (inv_parsed inv) = Ok (Some ast) /\ expand ast = Ok rws /\
  Forall2 (fun rw block => exists bindings,
      make_substitutions O (new_initialized O (inv_seed inv) (inv_first_id inv)) (fst rw) = Ok bindings /\
      visit_block O (fun x => assoc_str x bindings) (reparse Y) (snd rw) = Ok block) rws blocks.

(** The traversal covers all the tokens of a block. *)
Definition covers (Y : syntax) : Prop := forall ts, forest_tokens (as_forest Y ts) = ts.

(** The order of the dictionary: the first string ends where the second goes on, or has the
    smaller character where they first differ. *)
Definition dictionary (a b : str) : Prop :=
  (exists y t, b = a ++ y :: t) \/
  exists p x y r t, a = p ++ x :: r /\ b = p ++ y :: t /\ (x < y)%N.
(** By note, then by version. *)
Definition earlier (a b : warning) : Prop :=
  dictionary (note a) (note b) \/ note a = note b /\ dictionary (since a) (since b).

(** The deprecation attributes with spans: the visitor of /repo/src/util/deprecation.rs on
    trees that carry spans (see Deprecation.v). *)
From Coq Require Import String.
From Verif Require Import Base Token Item Deprecation SpanTokens SpanItem.
Open Scope list_scope.

Inductive ptree :=
| PDTok (t : stt)
| PDGroup (d : delim) (s : span) (children : list ptree)
| PDNode (attrs : list pattr) (inner_deprecated : bool) (children : list ptree).
Definition pforest := list ptree.

Section ptree_ind'.
  Variable P : ptree -> Prop.
  Hypothesis Ht : forall t, P (PDTok t).
  Hypothesis Hg : forall d s l, Forall P l -> P (PDGroup d s l).
  Hypothesis Hn : forall a b l, Forall P l -> P (PDNode a b l).
  Fixpoint ptree_ind' (t : ptree) : P t :=
    let go := fix go (l : list ptree) : Forall P l :=
      match l with [] => Forall_nil P | x :: r => Forall_cons x (ptree_ind' x) (go r) end in
    match t with
    | PDTok t => Ht t
    | PDGroup d s l => Hg d s l (go l)
    | PDNode a b l => Hn a b l (go l)
    end.
End ptree_ind'.

Fixpoint erase_tree (t : ptree) : tree :=
  match t with
  | PDTok t => DTok (erase t)
  | PDGroup d _ l => DGroup d (map erase_tree l)
  | PDNode a b l => DNode (erase_attrs a) b (map erase_tree l)
  end.

Fixpoint ptree_tokens (t : ptree) : list stt :=
  match t with
  | PDTok t => [t]
  | PDGroup d s l => [sgroup d s (flat_map ptree_tokens l)]
  | PDNode a _ l => pattrs_tokens a ++ flat_map ptree_tokens l
  end.
Definition pforest_tokens (f : pforest) : list stt := flat_map ptree_tokens f.

(** deprecation.rs 37-45: the tokens that [parse_quote!] writes are at [call_site]. *)
Definition sto_attribute (w : warning) : pattr :=
  {| pa_pound := call_site; pa_inner := None; pa_bracket := call_site;
     pa_meta := [skw "deprecated" call_site;
                 sgroup Paren call_site
                   [skw "since" call_site; ssym "=" call_site; SLit (LStr (since w) []) call_site; ssym "," call_site;
                    skw "note" call_site; ssym "=" call_site; SLit (LStr (note w) []) call_site; ssym "," call_site]] |}.

Section Visitor.
Context (prefix : str).
(** deprecation.rs 62-74 *)
Definition sprocess_deprecations (ws : list warning) (attrs : list pattr) (inner_deprecated : bool)
  : list warning * list pattr :=
  match pop ws with
  | None => (ws, attrs)
  | Some (w, ws') =>
      if existsb (fun a => names_deprecated (map erase (pa_meta a))) attrs || inner_deprecated then (ws, attrs)
      else (ws', attrs ++ [sto_attribute (with_prefix prefix w)])
  end.
(** deprecation.rs 77-142 *)
Fixpoint svisit_tree (ws : list warning) (t : ptree) : list warning * ptree :=
  match t with
  | PDTok t => (ws, PDTok t)
  | PDGroup d s l => let (ws', l') := visit_each svisit_tree ws l in (ws', PDGroup d s l')
  | PDNode a b l =>
      let (ws1, a') := sprocess_deprecations ws a b in
      let (ws2, l') := visit_each svisit_tree ws1 l in
      (ws2, PDNode a' b l')
  end.
End Visitor.

(** deprecation.rs 202-211, 240-244 *)
Definition semit (s : service) (f : pforest) : pforest :=
  match warnings s with
  | [] => f
  | ws => snd (visit_each (svisit_tree (s_prefix s)) (rev ws) f)
  end.
Definition sscope_emit (t : thread) (f : pforest) : pforest :=
  match t with Some s => semit s f | None => f end.

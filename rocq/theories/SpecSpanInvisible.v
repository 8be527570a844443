(** Specification of what spans become of with invisible groups: those of the same tokens
    without the groups, but for what is reported where an invisible group opens. *)
From Coq Require Import String.
From Verif Require Import Base Token Types Values Ast Item Interpreter Parse SpecInvisible SpanTokens SpanValues SpanEval SpanItem SpanParse SpanMacro.
From Verif Require InvisibleParse.
Open Scope list_scope.

(** Tokens without invisible groups: the contents take the place of each. *)
Fixpoint sflat (t : stt) : list stt :=
  match t with
  | SGroup NoDelim ts _ => flat_map sflat ts
  | SGroup d ts s => [SGroup d (flat_map sflat ts) s]
  | _ => [t]
  end.
Definition sflats (ts : list stt) : list stt := flat_map sflat ts.

(** The positions of an input, and the beginnings of what follows them (see SpecInvisible.v). *)
Inductive spart_of (ts : list stt) : list stt -> Prop :=
| spart_all : spart_of ts ts
| spart_next : forall t r, spart_of ts (t :: r) -> spart_of ts r
| spart_enter : forall inside s r, spart_of ts (SGroup NoDelim inside s :: r) -> spart_of ts (inside ++ r)
| spart_group : forall d inside s r, spart_of ts (SGroup d inside s :: r) -> spart_of ts inside
| spart_front : forall a b, spart_of ts (a ++ b) -> spart_of ts a.

(** One of [syn]'s parsers reads through the invisible groups ahead: it does as it does without
    them; a token left unread is reported at its own place. *)
Definition left_unread_text (u : option syn_message) : Prop := forall m, u = Some m -> m = new_message (m_start m) (txt "unexpected token").
Definition sreads_through {A B} (f : list stt -> option (A * nat * option syn_message)) (what : A -> B) (ts : list stt) : Prop :=
  match f ts, f (sflats ts) with
  | Some (a, k, u), Some (a', k', u') =>
      what a = what a' /\ u = u' /\ left_unread_text u /\
      k <= InvisibleParse.all_entries (map erase ts) /\ k' = List.length (InvisibleParse.taken k (map erase ts))
  | None, None => True
  | _, _ => False
  end.
Definition as_node (f : list stt -> option (str * str * span * nat)) (ts : list stt) : option (str * str * span * nat * option syn_message) :=
  option_map (fun r => (r, None)) (f ts).
Record stransparent_at (SP : sparsers) (ts : list stt) : Prop := {
  sthrough_int : sreads_through (as_node (spre_lit_int SP)) (fun x => x) ts;
  sthrough_str : sreads_through (as_node (spre_lit_str SP)) (fun x => x) ts;
  sthrough_path : sreads_through (spre_path SP) sflats ts;
  sthrough_type : sreads_through (spre_type SP) sflats ts;
  sthrough_expr : sreads_through (spre_expr SP) sflats ts;
  sthrough_block : sreads_through (spre_block SP) (fun b => sflats (pblock_tokens b)) ts;
}.

Section Same.
(** The positions where something may be read. *)
Context (at_ : list stt -> Prop).

(** What is reported where the parser stands. *)
Inductive standing : str -> Prop :=
| no_identifier : standing (txt "expected identifier")
| a_keyword : forall x, standing (txt "expected identifier, found keyword `" ++ x ++ txt "`")
| no_in : standing (txt "expected `in`")
| no_list : standing (txt "expected square brackets")
| no_comma_or_semicolon : standing (txt "Expected "","" or "";""")
| mixed_separators : standing (txt "Mixing "","" and "";"" as separators is not allowed")
| behind_loops : standing (txt "Trailing separator after loops is not allowed in #[compose_item].").
Inductive heading : string -> Prop :=
| of_separators : heading "Unable to parse any of the combined tokens (see the errors below)"
| of_a_loop_alias : heading "Failed to parse loop alias (see errors below)".
Inductive character : string -> Prop :=
| comma_character : character ","
| semicolon_character : character ";"
| equals_character : character "=".
(** Where it is reported that a character is not there: at the character that is there instead,
    even if in an invisible group. *)
Definition instead (scope : span) (l : list stt) : span :=
  match sflats l with
  | SPunct c _ s :: _ => if N.eqb c 39 then place scope l else s
  | _ => place scope l
  end.

(** A message about input with invisible groups, and the one without them. *)
Inductive same_message : syn_message -> syn_message -> Prop :=
| same_standing : forall scope l x, at_ l -> standing x -> same_message (error_at scope l x) (error_at scope (sflats l) x)
| same_heading : forall l x, at_ l -> l <> [] -> heading x ->
    same_message (new_message (place call_site l) (txt x)) (new_message (place call_site (sflats l)) (txt x))
| same_character : forall scope l x, at_ l -> character x ->
    same_message (new_message (instead scope l) (txt "expected `" ++ txt x ++ txt "`")) (expected_punct x scope (sflats l))
| same_left : forall s, same_message (new_message s (txt "unexpected token")) (new_message s (txt "unexpected token")).

(** In short: the same message at the same place, or at the opening of the invisible group that
    the place begins with. *)
Definition moved (m m' : syn_message) : Prop :=
  m = m' \/ exists inside s r, at_ (SGroup NoDelim inside s :: r) /\ m = new_message (ds_open s) (m_text m') /\
    m' = new_message (place call_site (sflats (SGroup NoDelim inside s :: r))) (m_text m').

(** Values: the same spans, and the same tokens up to invisible groups. *)
Definition sflat_value (v : svalue) : svalue :=
  match v with
  | SVPath ts => SVPath (sflats ts)
  | SVType ts => SVType (sflats ts)
  | SVExpr ts => SVExpr (sflats ts)
  | SVTokens ts => SVTokens (sflats ts)
  | SVRaw ts => SVRaw (sflats ts)
  | _ => v
  end.
(** A call and a tuple are where they begin, at the invisible group if there is one. *)
Definition begin (s s' : span) : Prop := exists l, at_ l /\ l <> [] /\ s = place call_site l /\ s' = place call_site (sflats l).
Inductive same_sexpr : sexpr -> sexpr -> Prop :=
| same_svalue : forall n v v', sflat_value v = sflat_value v' -> same_sexpr (SEValue n v) (SEValue n v')
| same_scall : forall n x s s' args args' m raw, begin s s' -> Forall2 same_sexpr args args' ->
    same_sexpr (SECall n x s args (Some (m, raw))) (SECall n x s' args' (Some (m, sflats raw))).
Inductive same_element : tuple_value sexpr -> tuple_value sexpr -> Prop :=
| same_leaf : forall e e', same_sexpr e e' -> same_element (TVValue e) (TVValue e')
| same_tuple : forall t t', Forall2 same_element t t' -> same_element (TVTuple t) (TVTuple t').
Inductive same_source : ssource_value -> ssource_value -> Prop :=
| same_source_value : forall e e', same_sexpr e e' -> same_source (SLSValue e) (SLSValue e')
| same_source_tuple : forall s s' t t', begin s s' -> Forall2 same_element t t' -> same_source (SLSTuple s t) (SLSTuple s' t').
Definition same_loop (l l' : sloop_item) : Prop := sl_pattern l = sl_pattern l' /\ Forall2 same_source (sl_values l) (sl_values l').
Definition same_definition (i i' : sitem) : Prop := fst i = fst i' /\ same_sexpr (snd i) (snd i').
Definition same_spec (s s' : salias_spec) : Prop := ss_comma s = ss_comma s' /\ Forall2 same_definition (ss_items s) (ss_items s').
Definition both {A B} (R : A -> B -> Prop) (o : option A) (o' : option B) : Prop :=
  match o, o' with Some a, Some b => R a b | None, None => True | _, _ => False end.
Definition same_sast (a b : sraw_ast (list pstmt)) : Prop :=
  both (Forall2 same_loop) (sa_loops a) (sa_loops b) /\ both same_spec (sa_spec a) (sa_spec b) /\
  sflats (pblock_tokens (sa_block a)) = sflats (pblock_tokens (sa_block b)).

(** Two inputs parse to the same but for invisible groups, or to the same messages.  What [syn]
    says where there is no block is its own affair. *)
Definition same_sparse (SP : sparsers) (p q : sparsed) : Prop :=
  sp_scope p = sp_scope q /\
  match sp_ast p, sp_ast q with
  | inl a, inl b => same_sast a b
  | inr e, inr e' => Forall2 same_message e e' \/ exists l, at_ l /\ e = block_error SP l /\ e' = block_error SP (sflats l)
  | _, _ => False
  end.
End Same.

(** ** Uses *)

(** A use without its invisible groups. *)
Definition sflat_source (s : ssource) : ssource :=
  match s with
  | SCompose ts => SCompose (sflats ts)
  | SComposeIdents ts => SComposeIdents (sflats ts)
  | SComposeItem attr item => SComposeItem (sflats attr) (sflats item)
  end.
Definition sflat_use (u : suse) : suse :=
  {| su_source := sflat_source (su_source u); su_seed := su_seed u; su_first_id := su_first_id u; su_next_id := su_next_id u |}.
(** The positions of a use, and whether it can be read through its invisible groups. *)
Definition source_part (s : ssource) (l : list stt) : Prop :=
  match s with
  | SCompose ts | SComposeIdents ts => spart_of ts l
  | SComposeItem attr item => spart_of attr l \/ spart_of [sgroup Brace call_site item] l
  end.
Definition sreadable (SP : sparsers) (s : ssource) : Prop :=
  match s with
  | SCompose ts | SComposeIdents ts => all_fine (map erase ts) = true
  | SComposeItem attr item => all_fine (map erase attr) = true /\ all_fine (map erase item) = true
  end /\ forall l, source_part s l -> stransparent_at SP l.
(** What is said of an input with invisible groups, next to what is said without them. *)
Definition said_alike (SP : sparsers) (s : ssource) (e e' : messages) : Prop :=
  Forall2 (moved (source_part s)) e e' \/ exists l, source_part s l /\ e = block_error SP l /\ e' = block_error SP (sflats l).

(** Models of /repo/src/substitution/stream_visitor.rs and substitute_idents.rs with spans.

    The same code as StreamWalker.v and SubstituteIdents.v, on tokens that carry spans; the
    hooks that [SubstituteIdentsVisitor] does not override are left out, their defaults
    (stream_visitor.rs 367-401) written in. *)
From Verif Require Import Base Token Types Values FormatString StreamWalker Failures SpanTokens.

(** [Result<A, Error>] with the span of the error, and panics. *)
Inductive sres (A : Type) :=
| SOk (a : A)
| SErr (e : failure) (at_ : span)
| SPanic (p : panic).
Arguments SOk {A} a. Arguments SErr {A} e at_. Arguments SPanic {A} p.
Definition sbind {A B} (x : sres A) (f : A -> sres B) : sres B :=
  match x with SOk a => f a | SErr n s => SErr n s | SPanic p => SPanic p end.
Notation "'let?' x ':=' c1 'in' c2" := (sbind c1 (fun x => c2))
  (at level 61, x pattern, c1 at next level, right associativity).

Inductive saction := SContinue | SReplace (ts : list stt).
Definition scursor := (nat * list stt)%type.
Definition sctx := list scursor.

(** stream_visitor.rs 239-246. *)
Definition sreplace_current_token (c : sctx) (new : list stt) : sctx :=
  match c with
  | (i, ts) :: rest =>
      let ts' := splice i new ts in
      (Nat.min (length ts') (i + (length new - 1)), ts') :: rest
  | [] => []
  end.
(** stream_visitor.rs 261-274: the new group has the delimiter of the old one and, at all
    three places, its span. *)
Definition sfold_group (group parent : list stt) (i : nat) : sres (list stt) :=
  match nth_error parent i with
  | Some (SGroup d _ s) => SOk (splice i [SGroup d group (single (ds_entire s))] parent)
  | Some _ => SPanic PFoldGroup
  | None => SPanic PIndex
  end.
(** stream_visitor.rs 281-288. *)
Definition spop_fold (c : sctx) : sres sctx :=
  match c with
  | (_, ts) :: (i, p) :: rest => let? p' := sfold_group ts p i in SOk ((i, p') :: rest)
  | _ :: [] | [] => SOk []
  end.
(** stream_visitor.rs 299-303. *)
Definition sadvance_current_group (c : sctx) : sctx :=
  match c with
  | (i, ts) :: rest => (Nat.min (length ts) (i + 1), ts) :: rest
  | [] => []
  end.
(** stream_visitor.rs 317-337. *)
Definition scurrent_stream (c : sctx) : sres (list stt) :=
  match c with
  | [] => SOk []
  | (_, ts) :: rest =>
      fold_left (fun acc f => let? a := acc in sfold_group a (snd f) (fst f)) rest (SOk ts)
  end.

Section Subst.
(** [salias x]: the tokens of the alias' value with their spans; [lookup] the values. *)
Context (O : oracles) (lookup : str -> option value) (salias : str -> option (list stt)).
(** [syn::parse2::<N>], and the text of its error if it fails. *)
Context {N : Type} (parse : list stt -> option N) (why : list stt -> str).

(** substitute_idents.rs 21-25: [error_data], the alias, the text of the replacement and the
    span. *)
Definition spstate := option (str * str * span).

(** substitute_idents.rs 38-55. *)
Definition ssubst_ident (st : spstate) (x : str) (s : span) : saction * spstate :=
  match salias x with
  | Some ts => (SReplace ts, Some (x, to_string O (map erase ts), s))
  | None => (SContinue, st)
  end.
(** substitute_idents.rs 56-68: the new literal has the span of the old one. *)
Definition ssubst_literal (st : spstate) (l : lit) (s : span) : saction * spstate :=
  match parse_lit_str O [TLit l] with
  | None => (SContinue, st)
  | Some (v, _) => (SReplace [SLit (LStr (format_string O lookup v) []) s], st)
  end.
(** substitute_idents.rs 69-89. *)
Definition ssubst_after (st : spstate) (c : sctx) : sres spstate :=
  let? stream := scurrent_stream c in
  match parse stream with
  | Some _ => SOk st
  | None => match st with Some (x, r, s) => SErr (FSubstitution x r (why stream)) s | None => SPanic PErrorData end
  end.

(** stream_visitor.rs 168-197. *)
Definition sapply_action (st : spstate) (c : sctx) (a : saction) : sres (spstate * sctx) :=
  match a with
  | SContinue => SOk (st, sadvance_current_group c)
  | SReplace [] =>
      let c' := sreplace_current_token c [] in
      let? st' := ssubst_after st c' in SOk (st', c')
  | SReplace new =>
      let c' := sadvance_current_group (sreplace_current_token c new) in
      let? st' := ssubst_after st c' in SOk (st', c')
  end.

(** stream_visitor.rs 44-201. *)
Definition swalk_step (st : spstate) (c : sctx) : sres (spstate * sctx + list stt) :=
  match c with
  | [] => SPanic PUnreachable
  | (i, ts) :: rest =>
      match nth_error ts i with
      | None =>
          match rest with
          | [] => SOk (inr ts)
          | _ => let? c' := spop_fold c in SOk (inl (st, sadvance_current_group c'))
          end
      | Some (SGroup _ g _) => SOk (inl (st, (0, g) :: c))
      | Some (SIdent x s) =>
          let (a, st') := ssubst_ident st x s in let? r := sapply_action st' c a in SOk (inl r)
      | Some (SPunct _ _ _) => let? r := sapply_action st c SContinue in SOk (inl r)
      | Some (SLit l s) =>
          let (a, st') := ssubst_literal st l s in let? r := sapply_action st' c a in SOk (inl r)
      end
  end.
Fixpoint swalk_from (fuel : nat) (st : spstate) (c : sctx) : sres (list stt) :=
  match fuel with
  | 0 => SPanic PFuel
  | S fuel' =>
      let? r := swalk_step st c in
      match r with
      | inl (st', c') => swalk_from fuel' st' c'
      | inr out => SOk out
      end
  end.
(** stream_visitor.rs 36-42, substitute_idents.rs 94-115. *)
Definition ssubstitute_idents (stream : list stt) : sres N :=
  let? new_stream := swalk_from (S (stream_steps (map erase stream))) None [(0, stream)] in
  match parse new_stream with
  | Some n => SOk n
  | None => SPanic PUnreachable
  end.
End Subst.

(** Token trees with spans (proc_macro2::Span).

    A span is an opaque mark: the compiler uses it for the position in messages and for
    hygiene.  [call_site] is [Span::call_site()]. *)
From Verif Require Import Base Token.

Definition span := N.
Definition call_site : span := 0%N.

(** proc_macro::Group: the spans of the delimiters and of the whole. *)
Record delim_span := { ds_open : span; ds_close : span; ds_entire : span }.
(** [Group::set_span]: all three become the span given. *)
Definition single (s : span) : delim_span := {| ds_open := s; ds_close := s; ds_entire := s |}.

Inductive stt :=
| SIdent (x : str) (s : span)
| SPunct (c : chr) (joint : bool) (s : span)
| SLit (l : lit) (s : span)
| SGroup (d : delim) (ts : list stt) (s : delim_span).

Section stt_ind'.
  Variable P : stt -> Prop.
  Hypothesis Hi : forall x s, P (SIdent x s).
  Hypothesis Hp : forall c j s, P (SPunct c j s).
  Hypothesis Hl : forall l s, P (SLit l s).
  Hypothesis Hg : forall d ts s, Forall P ts -> P (SGroup d ts s).
  Fixpoint stt_ind' (t : stt) : P t :=
    match t with
    | SIdent x s => Hi x s
    | SPunct c j s => Hp c j s
    | SLit l s => Hl l s
    | SGroup d ts s =>
        Hg d ts s ((fix go (l : list stt) : Forall P l :=
                      match l with
                      | [] => Forall_nil P
                      | x :: r => Forall_cons x (stt_ind' x) (go r)
                      end) ts)
    end.
End stt_ind'.

(** Without the spans. *)
Fixpoint erase (t : stt) : tt :=
  match t with
  | SIdent x _ => TIdent x
  | SPunct c j _ => TPunct c j
  | SLit l _ => TLit l
  | SGroup d ts _ => TGroup d (map erase ts)
  end.

(** [Spanned] for one token tree. *)
Definition span_of (t : stt) : span :=
  match t with
  | SIdent _ s | SPunct _ _ s | SLit _ s => s
  | SGroup _ _ s => ds_entire s
  end.

(** The spans that occur in a stream. *)
Fixpoint spans1 (t : stt) : list span :=
  match t with
  | SIdent _ s | SPunct _ _ s | SLit _ s => [s]
  | SGroup _ ts s => ds_open s :: ds_close s :: ds_entire s :: flat_map spans1 ts
  end.
Definition spans (ts : list stt) : list span := flat_map spans1 ts.

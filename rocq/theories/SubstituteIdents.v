(** Model of /repo/src/substitution/substitute_idents.rs. *)
From Verif Require Import Base Token Types Values FormatString StreamWalker.

Section Subst.
Context (O : oracles) (lookup : str -> option value).
(** [N: ToTokens + Parse]: [parse] is [syn::parse2::<N>]. *)
Context {N : Type} (parse : list tt -> option N).

(** substitute_idents.rs 21-25: of [error_data] only the alias name is kept. *)
Definition sstate := option str.

(** substitute_idents.rs 38-55: [visit_ident_mut]. *)
Definition subst_ident (s : sstate) (_ : ctx) (x : str) : res (action * sstate) :=
  match lookup x with
  | Some v => Ok (Replace (to_tokens v), Some x)
  | None => Ok (Continue, s)
  end.

(** substitute_idents.rs 56-68: [visit_literal_mut]. *)
Definition subst_literal (s : sstate) (_ : ctx) (l : lit) : res (action * sstate) :=
  match parse_lit_str O [TLit l] with
  | None => Ok (Continue, s)
  | Some (v, _) => Ok (Replace [TLit (LStr (format_string O lookup v) [])], s)
  end.

(** substitute_idents.rs 69-89: [after_replace_mut]. *)
Definition subst_after (s : sstate) (c : ctx) : res sstate :=
  let! stream := current_stream c in
  match parse stream with
  | Some _ => Ok s
  | None => match s with
            | Some x => Err (SubstitutionError x)
            | None => Panic PErrorData
            end
  end.

(** substitute_idents.rs 37-90; the other hooks keep their defaults
    (stream_visitor.rs 367-401). *)
Definition subst_visitor : visitor sstate := {|
  visit_ident := subst_ident;
  visit_punct := fun s _ _ _ => Ok (Continue, s);
  visit_literal := subst_literal;
  visit_group := fun s _ _ _ => Ok (Continue, s);
  enter_group := fun s _ _ => Ok (Continue, s);
  exit_group := fun s _ _ => Ok (Continue, s);
  after_replace := subst_after;
|}.

(** substitute_idents.rs 94-115; [stream] is [node.to_token_stream()]. *)
Definition substitute_idents (stream : list tt) : res N :=
  let! (_, new_stream) := walk subst_visitor (S (stream_steps stream)) None stream in
  match parse new_stream with
  | Some n => Ok n
  | None => Panic PUnreachable
  end.
End Subst.

(** Specification of substitution in token streams: a plain recursive map, and the
    intermediate streams after each replacement. *)
From Verif Require Import Base Token Types Values FormatString.

Section Spec.
(** The tokens of an alias; the new text of a string literal (nothing for literals that
    are not strings). *)
Context (alias_tokens : str -> option (list tt)) (new_literal : lit -> option lit).

Fixpoint replaced (t : tt) : list tt :=
  match t with
  | TIdent x => match alias_tokens x with Some ts => ts | None => [t] end
  | TLit l => match new_literal l with Some l' => [TLit l'] | None => [t] end
  | TPunct _ _ => [t]
  | TGroup d ts => [TGroup d (flat_map replaced ts)]
  end.
Definition replaced_stream (ts : list tt) : list tt := flat_map replaced ts.

(** The streams in which the first, the first two, ... occurrences are replaced, each with
    the name of the alias replaced last ([None]: a string literal). *)
Fixpoint stages1 (t : tt) : list (option str * list tt) :=
  match t with
  | TIdent x => match alias_tokens x with Some ts => [(Some x, ts)] | None => [] end
  | TLit l => match new_literal l with Some l' => [(None, [TLit l'])] | None => [] end
  | TPunct _ _ => []
  | TGroup d ts =>
      map (fun s => (fst s, [TGroup d (snd s)]))
        ((fix go (l : list tt) : list (option str * list tt) :=
            match l with
            | [] => []
            | t :: r =>
                map (fun s => (fst s, snd s ++ r)) (stages1 t) ++
                map (fun s => (fst s, replaced t ++ snd s)) (go r)
            end) ts)
  end.
Fixpoint stages (l : list tt) : list (option str * list tt) :=
  match l with
  | [] => []
  | t :: r =>
      map (fun s => (fst s, snd s ++ r)) (stages1 t) ++
      map (fun s => (fst s, replaced t ++ snd s)) (stages r)
  end.

(** The leaves that are replaced. *)
Definition occurs (t : tt) : bool :=
  match t with
  | TIdent x => match alias_tokens x with Some _ => true | None => false end
  | TLit l => match new_literal l with Some _ => true | None => false end
  | _ => false
  end.

(** The alias replaced last when the stages of a list have been gone through. *)
Definition last_alias (start : option str) (l : list (option str * list tt)) : option str :=
  fold_left (fun a s => match fst s with Some x => Some x | None => a end) l start.
End Spec.

(** All identifiers and all literals of a stream, at every depth, in order. *)
Fixpoint leaves1 (t : tt) : list tt :=
  match t with
  | TGroup _ ts => flat_map leaves1 ts
  | _ => [t]
  end.
Definition leaves (ts : list tt) : list tt := flat_map leaves1 ts.

(** The alias name of a replaced leaf, if it is one. *)
Definition occurrence_name (t : tt) : option str := match t with TIdent x => Some x | _ => None end.

(** The instance used by the macro: an alias stands for the tokens of its value, a string
    literal for the literal with the formatted text. *)
Definition tokens_of (lookup : str -> option value) (x : str) : option (list tt) :=
  option_map to_tokens (lookup x).
Definition literal_of (O : oracles) (lookup : str -> option value) (l : lit) : option lit :=
  match parse_lit_str O [TLit l] with
  | Some (v, _) => Some (LStr (format_string O lookup v) [])
  | None => None
  end.
Definition substituted (O : oracles) (lookup : str -> option value) : list tt -> list tt :=
  replaced_stream (tokens_of lookup) (literal_of O lookup).
Definition substitution_stages (O : oracles) (lookup : str -> option value) : list tt -> list (option str * list tt) :=
  stages (tokens_of lookup) (literal_of O lookup).

(** Streams that differ in the text of string literals only. *)
Inductive same_but_strings : tt -> tt -> Prop :=
| SbsIdent x : same_but_strings (TIdent x) (TIdent x)
| SbsPunct c j : same_but_strings (TPunct c j) (TPunct c j)
| SbsLit l : same_but_strings (TLit l) (TLit l)
| SbsStr v p v' p' : same_but_strings (TLit (LStr v p)) (TLit (LStr v' p'))
| SbsGroup d ts ts' : Forall2 same_but_strings ts ts' -> same_but_strings (TGroup d ts) (TGroup d ts').

(** A parser that does not look into string literals. *)
Definition ignores_strings {N} (parse : list tt -> option N) : Prop :=
  forall ts ts', Forall2 same_but_strings ts ts' -> parse ts = None -> parse ts' = None.

(** Number of tokens, groups included. *)
Fixpoint tt_size (t : tt) : nat :=
  match t with TGroup _ ts => 1 + fold_right (fun t n => tt_size t + n) 0 ts | _ => 1 end.
Definition stream_size (ts : list tt) : nat := fold_right (fun t n => tt_size t + n) 0 ts.

(** Two aliases that swap the names [a] and [b]. *)
Definition swapping (a b x : str) : option value :=
  if str_eqb x a then Some (VIdent b) else if str_eqb x b then Some (VIdent a) else None.

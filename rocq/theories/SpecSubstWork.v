(** Specifications for C76: the streams that are parsed when a block is substituted. *)
From Verif Require Import Base Token Types Values SpecSubst Item SpecOutcome.

Section Parses.
Context (O : oracles) (lookup : str -> option value).

(** A stream is parsed after every replacement and once more at the end. *)
Definition stream_parses (ts : list tt) : list (list tt) :=
  map snd (substitution_stages O lookup ts) ++ [substituted O lookup ts].

(** A part of a block ([block_parts] in SpecOutcome); a statement is first parsed in braces. *)
Definition part_tokens (p : part) : list tt :=
  match p with
  | PartNode _ ts => ts
  | PartName x => [TIdent x]
  | PartAttributes l => attrs_tokens l
  | PartAbi v s => [TLit (LStr v s)]
  | PartStatement ts => [TGroup Brace ts]
  end.
Definition part_parses (p : part) : list (list tt) :=
  match p with PartStatement ts => [[TGroup Brace ts]] | _ => [] end ++ stream_parses (part_tokens p).

(** How many tokens of a stream are replaced: names of aliases and all string literals. *)
Definition replacements (ts : list tt) : nat :=
  length (filter (fun t => match t with
                           | TIdent x => match lookup x with Some _ => true | None => false end
                           | TLit l => match parse_lit_str O [t] with Some _ => true | None => false end
                           | _ => false
                           end) (leaves ts)).
Definition part_count (p : part) : nat :=
  match p with PartStatement _ => 2 | _ => 1 end + replacements (part_tokens p).
End Parses.

Definition total (l : list nat) : nat := fold_right Nat.add 0 l.

(** Specification of what can be written in a string: CHANGELOG, "escape percent signs when
    formatting strings by using %%". *)
From Verif Require Import Base Token Types Values SpecFormat SpecShown.
Open Scope list_scope.

(** A text with values in it. *)
Inductive part := Words (s : str) | Value_of (a : str).
Definition part_says (O : oracles) (lookup : str -> option value) (p : part) : str :=
  match p with
  | Words s => s
  | Value_of a => match lookup a with Some v => shown O v | None => [] end
  end.
Definition says_all (O : oracles) (lookup : str -> option value) (ps : list part) : str := flat_map (part_says O lookup) ps.
Definition values_of (ps : list part) : list str := flat_map (fun p => match p with Words _ => [] | Value_of a => [a] end) ps.

(** One percent sign more at the beginning of each run; [after] tells whether there is a sign
    before. *)
Fixpoint escaped (after : bool) (s : str) : str :=
  match s with
  | [] => []
  | c :: r => if N.eqb c 37 then (if after then [c] else [c; c]) ++ escaped true r else c :: escaped false r
  end.
Definition ends (after : bool) (s : str) : bool := fold_left (fun _ c => N.eqb c 37) s after.
Fixpoint written (after : bool) (ps : list part) : str :=
  match ps with
  | [] => []
  | Words s :: r => escaped after s ++ written (ends after s) r
  | Value_of a :: r => quoted a ++ written true r
  end.

(** Before each value there is something that is neither a value nor a percent sign, or
    nothing at all. *)
Fixpoint apart (after : bool) (ps : list part) : Prop :=
  match ps with
  | [] => True
  | Words s :: r => apart (ends after s) r
  | Value_of a :: r => after = false /\ apart true r
  end.

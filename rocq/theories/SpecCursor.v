(** Specification of how [syn]'s cursors go through invisible groups. *)
From Verif Require Import Base Token TokenDistance.

(** One entry further: into an invisible group, or over a token tree that is none. *)
Definition go_on (buf : list entry) (c : cursor) : option cursor :=
  match nth_error buf (ptr c) with
  | Some (EGroup NoDelim _) => Some (create buf (S (ptr c)) (scope c))
  | _ => token_tree buf c
  end.
Fixpoint go (k : nat) (buf : list entry) (c : cursor) : option cursor :=
  match k with
  | 0 => Some c
  | S k' => match go_on buf c with Some c' => go k' buf c' | None => None end
  end.

(** Specification of the distance of two positions: the leaves between them. *)
From Verif Require Import Base Token TokenDistance.

Definition is_leaf (e : entry) : bool := match e with ELeaf _ => true | _ => false end.
Definition leaves_between (buf : list entry) (a b : nat) : nat :=
  length (filter is_leaf (firstn (b - a) (skipn a buf))).

(** The cursors one can get from a buffer by entering groups and stepping over tokens;
    [enter_none] is syn's transparent entry into invisible groups. *)
Inductive position (buf : list entry) : cursor -> Prop :=
| at_begin : position buf (begin buf)
| step : forall c c', position buf c -> token_tree buf c = Some c' -> position buf c'
| enter : forall c i a, position buf c -> any_group buf c = Some (i, a) -> position buf i
| enter_none : forall c off, position buf c -> nth_error buf (ptr c) = Some (EGroup NoDelim off) ->
    position buf (create buf (S (ptr c)) (scope c)).

(** The tokens a cursor still has to read: their entries follow it up to its scope. *)
Definition reads (buf : list entry) (c : cursor) (ts : list tt) : Prop :=
  scope c = ptr c + length (flat_map flatten ts) /\
  exists rest, skipn (ptr c) buf = flat_map flatten ts ++ EEnd :: rest.

(** [k] times [token_tree]. *)
Fixpoint advance (k : nat) (buf : list entry) (c : cursor) : option cursor :=
  match k with
  | 0 => Some c
  | S k' => match token_tree buf c with Some c' => advance k' buf c' | None => None end
  end.

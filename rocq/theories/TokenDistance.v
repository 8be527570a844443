(** Model of /repo/src/util/token_distance.rs and of the cursors of syn::buffer it works on. *)
From Verif Require Import Base Token.

(** syn::buffer::Entry: a token buffer is the depth-first sequence of its tokens; a group
    carries the distance to its end marker. *)
Inductive entry :=
| EGroup (d : delim) (end_offset : nat)
| ELeaf (t : tt)
| EEnd.

Fixpoint flatten (t : tt) : list entry :=
  match t with
  | TGroup d ts => let inside := flat_map flatten ts in EGroup d (S (length inside)) :: inside ++ [EEnd]
  | _ => [ELeaf t]
  end.
(** syn::buffer::TokenBuffer::new2 *)
Definition buffer (ts : list tt) : list entry := flat_map flatten ts ++ [EEnd].

(** syn::buffer::Cursor: a position and the end marker it must not pass. *)
Record cursor := { ptr : nat; scope : nat }.

(** Cursor::create: end markers are skipped up to the scope. *)
Fixpoint skip_ends (l : list entry) (p sc : nat) : nat :=
  match l with
  | EEnd :: r => if Nat.eqb p sc then p else skip_ends r (S p) sc
  | _ => p
  end.
Definition create (buf : list entry) (p sc : nat) : cursor := {| ptr := skip_ends (skipn p buf) p sc; scope := sc |}.

(** TokenBuffer::begin *)
Definition begin (buf : list entry) : cursor := create buf 0 (length buf - 1).
(** Cursor::any_group: the inside of a group and what follows it. *)
Definition any_group (buf : list entry) (c : cursor) : option (cursor * cursor) :=
  match nth_error buf (ptr c) with
  | Some (EGroup _ off) => Some (create buf (S (ptr c)) (ptr c + off), create buf (ptr c + off) (scope c))
  | _ => None
  end.
(** Cursor::token_tree: what follows the next token. *)
Definition token_tree (buf : list entry) (c : cursor) : option cursor :=
  match nth_error buf (ptr c) with
  | Some (EGroup _ off) => Some (create buf (ptr c + off) (scope c))
  | Some (ELeaf _) => Some (create buf (S (ptr c)) (scope c))
  | _ => None
  end.

(** token_distance.rs 18-39: [inner]; cursors are compared by position. *)
Fixpoint inner (fuel : nat) (buf : list entry) (start end_ : cursor) : res nat :=
  match fuel with
  | 0 => Panic PFuel
  | S fuel' =>
      if Nat.ltb (ptr start) (ptr end_) then
        match any_group buf start with
        | Some (inside, after) =>
            let before_after := Nat.ltb (ptr end_) (ptr after) in
            let! n := inner fuel' buf inside (if before_after then end_ else after) in
            if before_after then Ok n
            else let! m := inner fuel' buf after end_ in Ok (n + m)
        | None =>
            match token_tree buf start with
            | Some next => let! m := inner fuel' buf next end_ in Ok (1 + m)
            | None => Ok 0
            end
        end
      else Ok 0
  end.

(** token_distance.rs 9-42 *)
Definition token_distance (buf : list entry) (a b : cursor) : res nat :=
  let (start, end_) := if Nat.ltb (ptr b) (ptr a) then (b, a) else (a, b) in
  inner (S (ptr end_)) buf start end_.

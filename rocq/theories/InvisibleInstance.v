(** An instance of [syn]'s parsers that reads through invisible groups, made of any parsers for
    input without them; used only in examples and witnesses. *)
From Verif Require Import Base Token Types Values Ast Item Interpreter Parse InvisibleParse SpecInvisible.
Open Scope list_scope.

(** Which entries begin an invisible group. *)
Fixpoint marks (t : tt) : list bool :=
  match t with
  | TGroup NoDelim ts => true :: flat_map marks ts
  | _ => [false]
  end.
(** How many entries to go on by to take [k] token trees. *)
Fixpoint reach (k : nat) (l : list bool) : nat :=
  match k, l with
  | 0, _ | _, [] => 0
  | S _, true :: r => S (reach k r)
  | S k', false :: r => S (reach k' r)
  end.
Definition through {A} (f : list tt -> option (A * nat)) (ts : list tt) : option (A * nat) :=
  option_map (fun '(a, k) => (a, reach k (flat_map marks ts))) (f (flats ts)).
Definition through_unread {A} (f : list tt -> option (A * nat * bool)) (ts : list tt) : option (A * nat * bool) :=
  option_map (fun '(a, k, u) => (a, reach k (flat_map marks ts), u)) (f (flats ts)).
Definition reading_through (P : parsers) : parsers := {|
  ident_allowed := ident_allowed P;
  pre_lit_int := through (pre_lit_int P);
  pre_lit_str := through (pre_lit_str P);
  pre_path := through_unread (pre_path P);
  pre_type := through_unread (pre_type P);
  pre_expr := through_unread (pre_expr P);
  pre_block := through_unread (pre_block P);
|}.

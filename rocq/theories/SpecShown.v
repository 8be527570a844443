(** Specification of what placeholders show of paths, and the laws of printing that are asked
    for. *)
From Coq Require Import String.
From Verif Require Import Base Token Types Values.
Open Scope list_scope.

(** [%name%], and what can stand there. *)
Definition quoted (x : str) : str := (37%N :: x) ++ [37%N].
Definition nameable (O : oracles) (x : str) : Prop :=
  x <> [] /\ Forall (fun c => c <> 37%N /\ is_whitespace O c = false) x.

(** Identifiers print as their text, integers as they are written. *)
Definition prints_leaves (O : oracles) : Prop :=
  (forall x, to_string O [TIdent x] = x) /\ (forall digits written, to_string O [TLit (LInt digits written)] = written).

Definition double_colon : list tt := [TPunct 58%N true; TPunct 58%N false].

(** Paths and their names: [x], [x::y], [x<..>::y], [x::<..>]; [arguments args rest] says that
    [args], with [rest] behind them, are arguments of a name. *)
Inductive names_of (arguments : list tt -> list tt -> Prop) : list tt -> list str -> Prop :=
| last_name x : names_of arguments [TIdent x] [x]
| last_name_with x args : arguments args [] -> names_of arguments (TIdent x :: args) [x]
| name_before x ts l : names_of arguments ts l -> names_of arguments (TIdent x :: double_colon ++ ts) (x :: l)
| name_with_before x args ts l : arguments args (double_colon ++ ts) -> names_of arguments ts l ->
    names_of arguments (TIdent x :: args ++ double_colon ++ ts) (x :: l).

(** The names with double colons between them. *)
Fixpoint with_colons (l : list str) : str :=
  match l with
  | [] => []
  | [x] => x
  | x :: r => x ++ 58%N :: 58%N :: with_colons r
  end.

(** Specifications for C51 and C52: the size of what is written outside of braces. *)
From Verif Require Import Base Token Types Values Ast Macro.

(** How many tokens there are, those in braces not counted, a pair of delimiters as one. *)
Fixpoint tokens_in (t : tt) : N :=
  match t with
  | TGroup Brace _ => 1%N
  | TGroup _ ts => (1 + fold_right N.add 0 (map tokens_in ts))%N
  | _ => 1%N
  end.
(** How deep the delimiters other than braces are nested. *)
Fixpoint nesting (t : tt) : N :=
  match t with
  | TGroup Brace _ => 0%N
  | TGroup _ ts => (1 + fold_right N.max 0 (map nesting ts))%N
  | _ => 0%N
  end.
Definition tokens_of (ts : list tt) : N := fold_right N.add 0%N (map tokens_in ts).
Definition nesting_of (ts : list tt) : N := fold_right N.max 0%N (map nesting ts).

(** [w] for every token and [m] times as much for every pair of delimiters around it. *)
Fixpoint heft (w m : N) (t : tt) : N :=
  match t with
  | TGroup Brace _ => w
  | TGroup _ ts => (w + m * fold_right N.add 0 (map (heft w m) ts))%N
  | _ => w
  end.
Definition heft_of (w m : N) (ts : list tt) : N := fold_right N.add 0%N (map (heft w m) ts).

(** What a macro is given besides the item it is put on. *)
Definition written (s : source) : list tt :=
  match s with
  | Compose ts | ComposeIdents ts => ts
  | ComposeItem attr _ => attr
  end.

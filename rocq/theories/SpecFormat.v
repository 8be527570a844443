(** Specification of format strings, independent of the state machine: a string is
    a sequence of pieces, each with a concrete text and a meaning. *)
From Coq Require Import String.
From Verif Require Import Base Token Types Values.
Open Scope list_scope.

Inductive piece :=
| PText (s : str)                (* text without percent signs, not empty *)
| PHole (t : str) (extra : nat)  (* `%t%` followed by [extra] further percent signs *)
| PPercents (n : nat).           (* a run of [n + 2] percent signs *)

Section Spec.
Context (percent : N) (is_space : N -> bool) (value_of : str -> option str).

Definition no_percent (s : str) : Prop := ~ In percent s.

Definition render1 (p : piece) : str :=
  match p with
  | PText s => s
  | PHole t k => percent :: t ++ percent :: repeat percent k
  | PPercents n => repeat percent (S (S n))
  end.
Definition render (ps : list piece) (tail : option str) : str :=
  concat (map render1 ps) ++ match tail with Some t => percent :: t | None => [] end.

(** A placeholder's name: its text without white space. *)
Definition name_of (t : str) : str := filter (fun c => negb (is_space c)) t.

Definition meaning1 (p : piece) : str :=
  match p with
  | PText s => s
  | PHole t k =>
      (match value_of (name_of t) with Some v => v | None => percent :: t ++ [percent] end)
      ++ repeat percent k
  | PPercents n => repeat percent (S n)
  end.
Definition meaning (ps : list piece) (tail : option str) : str :=
  concat (map meaning1 ps) ++ match tail with Some t => percent :: t | None => [] end.

Definition is_text (p : piece) : bool := match p with PText _ => true | _ => false end.

Definition wf_piece (p : piece) : Prop :=
  match p with
  | PText s => s <> [] /\ no_percent s
  | PHole t _ => t <> [] /\ no_percent t
  | PPercents _ => True
  end.

(** Pieces that are not text do not touch each other; an unterminated
    placeholder may only come last and after text. *)
Fixpoint separated (ps : list piece) (tail : option str) : Prop :=
  match ps with
  | [] => True
  | p :: rest =>
      match rest with
      | [] => is_text p = true \/ tail = None
      | q :: _ => is_text p = true \/ is_text q = true
      end /\ separated rest tail
  end.

Definition wf (ps : list piece) (tail : option str) : Prop :=
  Forall wf_piece ps /\ separated ps tail /\
  match tail with Some t => no_percent t | None => True end.
End Spec.

(** What a value looks like in a string: the names of a path with double colons between
    them and without their generic arguments, a string without its quotes, an integer as
    written, anything else as its tokens print. *)
Definition shown (O : oracles) (v : value) : str :=
  match v with
  | VPath ts =>
      match path_segments O ts with
      | [] => []
      | first :: others => first ++ flat_map (fun x => txt "::" ++ x) others
      end
  | VIdent x => x
  | VLitStr content _ => content
  | VLitInt _ written => written
  | VType ts | VExpr ts | VTokens ts | VRaw ts => to_string O ts
  end.

(** Overloads that take another number of arguments than any call has. *)
From Coq Require Import String.
From Verif Require Import Base Token Types Values Ast Env Item Interpreter Parse Macro SpecParse SpecExtend.
Open Scope list_scope.

(** The parameter types, the type of the result and what is computed. *)
Definition overload := (list ty * ty * (N -> list value -> res value))%type.

(** As many arguments as parameters, at least as many if the last one repeats; [raw] takes what
    there is. *)
Definition takes (o : overload) (n : nat) : bool :=
  match fst (fst o) with
  | [TyRaw] => true
  | ps => if existsb (fun t => match t with TyVariadic _ => true | _ => false end) ps
          then Nat.leb (List.length ps) n else Nat.eqb (List.length ps) n
  end.

(** The calls of [x] in an expression have these numbers of arguments. *)
Fixpoint arities (x : str) (e : expr) : list nat :=
  match e with
  | EValue _ _ => []
  | ECall _ f args _ => (if str_eqb f x then [List.length args] else []) ++ flat_map (arities x) args
  end.

(** The overloads [vs] with useless ones in between. *)
Inductive interspersed (useless : overload -> Prop) : list overload -> list overload -> Prop :=
| both_end : interspersed useless [] []
| both_have : forall o vs vs', interspersed useless vs vs' -> interspersed useless (o :: vs) (o :: vs')
| added : forall o vs vs', useless o -> interspersed useless vs vs' -> interspersed useless vs (o :: vs').

(** No call of [x] in what is parsed has a number of arguments that [o] takes. *)
Definition never_taken (x : str) (ast : raw_ast (list stmt)) (o : overload) : Prop :=
  forall e n, In e (ast_exprs ast) -> In n (arities x e) -> takes o n = false.

(** The functions that the use names are in both tables or in neither; if in both, the second
    may have more overloads, which no call can take. *)
Definition same_but_for_overloads (P : parsers) (rows rows' : list row) (u : use) : Prop :=
  forall x, In x (called_by (u_source u)) ->
  match assoc_str x rows, assoc_str x rows' with
  | Some vs, Some vs' =>
      interspersed (fun o => forall ast, p_ast (parse_source P rows (u_next_id u) (u_source u)) = Ok (Some ast) -> never_taken x ast o) vs vs'
  | None, None => True
  | _, _ => False
  end.

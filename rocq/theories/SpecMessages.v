(** Specifications for C49 and C50. *)
From Coq Require Import String.
From Verif Require Import Base Token Types Values Ast Env Resolve Eval Messages.
Open Scope list_scope.

(** Errors of name and overload resolution, as opposed to evaluation. *)
Definition is_refusal (e : error) : bool :=
  match e with SignatureError _ | UndefinedFunctionError _ | RedefinedNameError _ => true | _ => false end.
Definition refused {A} (r : res A) : Prop := exists e, r = Err e /\ is_refusal e = true.

(** A definition [a = e], after definitions of the names [before], deserves the refusal. *)
Definition at_fault (known : str -> bool) (before : list str) (a : str) (e : expr) (er : error) : Prop :=
  match er with
  | SignatureError f => known f = true /\ exists id args raw, e = ECall id f args raw
  | UndefinedFunctionError f => known f = false /\ exists id args raw, e = ECall id f args raw
  | RedefinedNameError x => x = a /\ In a before
  | _ => False
  end.

(** What a signature shows of a function. *)
Definition shown (f : func) : str * list ty * ty := (f_name f, f_arg_types f, f_out_type f).

(** A text in which parentheses match and strings end, without commas outside of
    parentheses and strings (with [inside] they are allowed). *)
Definition mark (c : chr) : Prop := c = 34%N \/ c = 40%N \/ c = 41%N \/ c = 44%N.
Inductive closed (inside : bool) : str -> Prop :=
| closed_nil : closed inside []
| closed_char c s : ~ mark c -> closed inside s -> closed inside (c :: s)
| closed_comma s : inside = true -> closed inside s -> closed inside (44%N :: s)
| closed_quote x s : ~ In 34%N x -> closed inside s -> closed inside (34%N :: x ++ 34%N :: s)
| closed_paren x s : closed true x -> closed inside s -> closed inside (40%N :: x ++ 41%N :: s).

(** The texts that a call shows between its parentheses. *)
Definition arg_texts (O : oracles) (args : list expr) (raw : option (N * list tt)) : list str :=
  match args, raw with
  | [_], Some (_, ts) => [to_string O ts]
  | _, _ => map (expr_display O) args
  end.

(** Everything shown is such a text and not empty, names have no such character. *)
Definition tidy_text (x : str) : Prop := x <> [] /\ closed false x.
Fixpoint tidy (O : oracles) (e : expr) : Prop :=
  match e with
  | EValue _ v => tidy_text (value_display O v)
  | ECall _ name args raw =>
      Forall (fun c => ~ mark c) name /\
      match args, raw with
      | [_], Some (_, ts) => tidy_text (to_string O ts)
      | _, _ => fold_right (fun a r => tidy O a /\ r) True args
      end
  end.

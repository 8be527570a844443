(** What the resolve phase's side tables mean. *)
From Verif Require Import Base Token Types Values Ast Env Resolve SpecElab.

Section All2.
Context {A B : Type} (P : A -> B -> Prop).
Fixpoint all2 (l : list A) (l' : list B) : Prop :=
  match l, l' with
  | [], [] => True
  | x :: r, y :: r' => P x y /\ all2 r r'
  | _, _ => False
  end.
End All2.

(** ** Scopes *)
Definition type_at (sc : scope) (id : N) : option ty :=
  match assoc_N id (sc_values sc) with
  | Some m => Some (vm_target m)
  | None => match assoc_N id (sc_calls sc) with
            | Some m => Some (cm_target m)
            | None => None
            end
  end.

(** The aliases in scope have the types of [G]. *)
Definition alias_ok (G : tenv) (sc : scope) : Prop :=
  Forall2 (fun a g => fst a = fst g /\ type_at sc (snd a) = Some (snd g)) (sc_aliases sc) G.

(** [sc'] differs from [sc] only at the ids in [l]. *)
Definition same_at (sc sc' : scope) (id : N) : Prop :=
  assoc_N id (sc_values sc') = assoc_N id (sc_values sc) /\
  assoc_N id (sc_calls sc') = assoc_N id (sc_calls sc).
Definition frame (l : list N) (sc sc' : scope) : Prop :=
  sc_aliases sc' = sc_aliases sc /\ forall id, ~ In id l -> same_at sc sc' id.
Definition apart (l : list N) (sc : scope) : Prop :=
  forall a, In a (sc_aliases sc) -> ~ In (snd a) l.
Definition fresh (l : list N) (sc : scope) : Prop :=
  forall id, In id l -> assoc_N id (sc_values sc) = None.

(** The arguments of a call that an overload takes: the tokens between the parentheses if
    it takes tokens unparsed. *)
Definition given (f : func) (args : list expr) (raw : option (N * list tt)) : list expr :=
  match f_arg_types f, raw with
  | [TyRaw], Some (rid, ts) => [EValue rid (VRaw ts)]
  | _, _ => args
  end.

(** The side tables hold the elaborated term of an expression. *)
Fixpoint encodes (sc : scope) (te : texpr) (e : expr) : Prop :=
  match te, e with
  | TEVal v t, EValue id v' =>
      v = v' /\ exists c, assoc_N id (sc_values sc) = Some {| vm_target := t; vm_cost := c |}
  | TECall f tes t, ECall id _ args raw =>
      exists as' c,
        assoc_N id (sc_calls sc) = Some {| cm_args := as'; cm_func := f; cm_target := t; cm_cost := c |} /\
        as' = given f args raw /\
        all2 (encodes sc) tes as'
  | _, _ => False
  end.

(** A scope in which an expression of fresh node ids is going to be resolved; [G] are the
    types of the aliases in it. *)
Definition ready (G : tenv) (sc : scope) (e : expr) : Prop :=
  alias_ok G sc /\ NoDup (ids e) /\ apart (ids e) sc /\ fresh (ids e) sc.

(** Vocabulary for definitions that are replaced by the values they come to. *)
From Verif Require Import Base Values Ast Env SpecElab.

(** After the definitions [pre], some definitions of the first list are replaced in the second
    one by what they come to: a value that is not the name of an alias before. *)
Inductive computed (O : oracles) (env : environment) : list spec_item -> list spec_item -> list spec_item -> Prop :=
| CpNil pre : computed O env pre [] []
| CpKeep pre d l l' : computed O env (pre ++ [d]) l l' -> computed O env pre (d :: l) (d :: l')
| CpValue pre a e bs w id l l' : bindings O env (pre ++ [(a, e)]) = Ok (bs ++ [(a, w)]) -> (forall x, w = VIdent x -> ~ In x (map fst pre)) ->
    computed O env (pre ++ [(a, e)]) l l' -> computed O env pre ((a, e) :: l) ((a, EValue id w) :: l').

(** Definitions that say the values of the aliases. *)
Definition values_as_definitions (bs : venv) : list spec_item := map (fun b => (fst b, EValue 0 (snd b))) bs.

(** The definitions of a round, if the loops fit their values, and the same ones with some
    replaced by their values. *)
Definition computed_round (O : oracles) (env : environment) (r r' : option (list spec_item)) : Prop :=
  match r, r' with
  | Some items, Some items' => computed O env [] items items'
  | None, None => True
  | _, _ => False
  end.

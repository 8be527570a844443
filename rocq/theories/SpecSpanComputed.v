(** Vocabulary for definitions that are replaced by the values they come to, with spans. *)
From Verif Require Import Base Values Ast Env SpanTokens SpanWalker SpanValues SpanEval SpecSpanEval.

(** As [computed] in SpecComputed; the values have the spans of what they were made from. *)
Inductive scomputed (O : oracles) (SO : soracles) (env : environment) : list sitem -> list sitem -> list sitem -> Prop :=
| ScNil pre : scomputed O SO env pre [] []
| ScKeep pre d l l' : scomputed O SO env (pre ++ [d]) l l' -> scomputed O SO env pre (d :: l) (d :: l')
| ScValue pre a e bs w id l l' : sbindings O SO env (pre ++ [(a, e)]) = SOk (bs ++ [(a, w)]) -> (forall x s, w = SVIdent x s -> ~ In x (map fst pre)) ->
    scomputed O SO env (pre ++ [(a, e)]) l l' -> scomputed O SO env pre ((a, e) :: l) ((a, SEValue id w) :: l').

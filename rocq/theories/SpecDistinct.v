(** Vocabulary for names composed in a loop. *)
From Coq Require Import String.
From Verif Require Import Base Token Types Values Ast Env SpecPrograms SpecParse SpecMacro SpecCalls SpecStrings.
Open Scope list_scope.

(** Identifiers as arguments, and as the values of a loop. *)
Definition name_args (l : list (N * str)) : list (N * value) := map (fun p => (fst p, VIdent (snd p))) l.
Definition name_values (l : list (N * str)) : list loop_source_value := map (fun p => LSValue (EValue (fst p) (VIdent (snd p)))) l.

(** [for var in [..] .. n = concat(l.., var, r..) ..], where [l] and [r] are no aliases. *)
Definition composes {B} (ast : raw_ast B) (var : str) (values : list (N * str)) (n : str) (l r : list (N * str)) : Prop :=
  ast_loops ast = Some [{| loop_pattern := LASimple var; loop_values := name_values values |}] /\
  (exists pre id k raw post, own_items ast = pre ++ (n, ECall id (txt "concat") (plain (name_args (l ++ (k, var) :: r))) raw) :: post) /\
  forall x, In x (map snd (l ++ r)) -> ~ In x (ast_aliases ast).

(** ** Other values as parts of names *)
(** A character of an ASCII identifier. *)
Definition word_char (c : chr) : bool := ((48 <=? c) && (c <=? 57) || (65 <=? c) && (c <=? 90) || (c =? 95) || (97 <=? c) && (c <=? 122))%N.
(** Such texts are read as the identifier that is written there, if as any. *)
Definition words_read (O : oracles) : Prop := forall x y, forallb word_char x = true -> parse_str_ident O x = Some y -> y = x.
(** A value whose text can be part of a name: an identifier, an integer, a path of one name.. *)
Definition wordy (O : oracles) (v : value) : Prop := forallb word_char (text_of O v) = true /\ forall x, v = VIdent x -> is_name O x.
Definition any_values (l : list (N * value)) : list loop_source_value := map (fun p => LSValue (EValue (fst p) (snd p))) l.
(** As [composes], with any values in the loop and at least one identifier before the variable. *)
Definition composes_with {B} (ast : raw_ast B) (var : str) (values : list (N * value)) (n : str) (l r : list (N * str)) : Prop :=
  ast_loops ast = Some [{| loop_pattern := LASimple var; loop_values := any_values values |}] /\
  (exists pre id k raw post, own_items ast = pre ++ (n, ECall id (txt "concat") (plain (name_args (l ++ (k, var) :: r))) raw) :: post) /\
  l <> [] /\ forall x, In x (map snd (l ++ r)) -> ~ In x (ast_aliases ast).

(** ** Two loops *)
(** [for a in [..] for b in [..] .. n = concat(l.., a, sep, b, r..) ..], where [l], [sep] and [r]
    are no aliases, and [a] is not among the values of [b]: it would stand for that of [a]. *)
Definition composes_two {B} (ast : raw_ast B) (a : str) (xs : list (N * str)) (b : str) (ys : list (N * str)) (n : str) (l : list (N * str)) (sep : str) (r : list (N * str)) : Prop :=
  ast_loops ast = Some [{| loop_pattern := LASimple a; loop_values := name_values xs |}; {| loop_pattern := LASimple b; loop_values := name_values ys |}] /\
  (exists pre id k ks k' raw post, own_items ast = pre ++ (n, ECall id (txt "concat") (plain (name_args (l ++ (k, a) :: (ks, sep) :: (k', b) :: r))) raw) :: post) /\
  ~ In a (map snd ys) /\ ~ In sep (ast_aliases ast) /\ forall x, In x (map snd (l ++ r)) -> ~ In x (ast_aliases ast).

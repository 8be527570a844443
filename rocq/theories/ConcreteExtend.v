(** Functions that the macros do not have. *)
From Coq Require Import String.
From Verif Require Import Base Token Types Values Ast Env RustInstance.
Open Scope list_scope.

(** [made(x)] for any identifier, [made(n)] for any integer, and a further [concat]. *)
Definition made : row :=
  (txt "made", [([TyIdent], TyIdent, fun _ _ => Ok (VIdent (txt "made_of_name")));
                ([TyLitInt], TyIdent, fun _ _ => Ok (VIdent (txt "made_of_number")))]).
Definition other_concat : row := (txt "concat", [([TyIdent], TyIdent, fun _ _ => Ok (VIdent (txt "joined")))]).
Definition longer_table : list row := made :: Env.table rust ++ [made; other_concat].

(** [upper(x, y)] and [upper()], and a [concat] of exactly three identifiers. *)
Definition pair_upper : list ty * ty * (N -> list value -> res value) := ([TyIdent; TyIdent], TyIdent, fun _ _ => Ok (VIdent (txt "UPPER_PAIR"))).
Definition no_upper : list ty * ty * (N -> list value -> res value) := ([], TyIdent, fun _ _ => Ok (VIdent (txt "UPPER_NOTHING"))).
Definition triple_concat : list ty * ty * (N -> list value -> res value) := ([TyIdent; TyIdent; TyIdent], TyIdent, fun _ _ => Ok (VIdent (txt "triple"))).
Definition richer_table : list row :=
  map (fun r : row => if str_eqb (fst r) (txt "upper") then (fst r, pair_upper :: snd r ++ [no_upper])
                      else if str_eqb (fst r) (txt "concat") then (fst r, triple_concat :: snd r) else r) (Env.table rust).

(** [upper] of any tokens and [concat] of paths, before the other overloads; and an [upper] of
    identifiers that makes a number. *)
Definition token_upper : list ty * ty * (N -> list value -> res value) := ([TyTokens], TyIdent, fun _ _ => Ok (VIdent (txt "UPPER_TOKENS"))).
Definition path_concat : list ty * ty * (N -> list value -> res value) := ([TyVariadic TyPath], TyIdent, fun _ _ => Ok (VIdent (txt "paths"))).
Definition wider_table : list row :=
  map (fun r : row => if str_eqb (fst r) (txt "upper") then (fst r, token_upper :: snd r)
                      else if str_eqb (fst r) (txt "concat") then (fst r, path_concat :: snd r) else r) (Env.table rust).
Definition number_upper : list ty * ty * (N -> list value -> res value) := ([TyIdent], TyLitInt, fun _ _ => Ok (VLitInt (txt "1") (txt "1"))).
Definition odd_table : list row :=
  map (fun r : row => if str_eqb (fst r) (txt "upper") then (fst r, number_upper :: snd r) else r) (Env.table rust).
(** The added ones, and by their parameters. *)
Definition wider_new (x : str) (o : list ty * ty * (N -> list value -> res value)) : Prop :=
  (x = txt "upper" /\ o = token_upper) \/ (x = txt "concat" /\ o = path_concat).
Definition wider_newb (x : str) (ps : list ty) : bool :=
  match ps with
  | [TyTokens] => str_eqb x (txt "upper")
  | [TyVariadic TyPath] => str_eqb x (txt "concat")
  | _ => false
  end.

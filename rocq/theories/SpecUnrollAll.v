(** Vocabulary for unrolling all the loops of an input: loops and rounds as they are written. *)
From Coq Require Import String.
From Verif Require Import Base Token Types Values Ast Item Interpreter Parse Macro SpecParse SpecProduct SpecTuple SpecMacro SpecForms SpecUnroll.
Open Scope list_scope.

(** Values and tuples of values, [v] and [(v, (w, ..))], by their tokens. *)
Inductive written := WValue (v : list tt) | WTuple (t : tuple (list tt)).
Fixpoint nested_text {V} (leaf : V -> list tt) (t : tuple_value V) : list tt :=
  match t with
  | TVValue v => leaf v
  | TVTuple l => [TGroup Paren (joined (map (nested_text leaf) l))]
  end.
Definition written_text (w : written) : list tt :=
  match w with WValue v => v | WTuple t => nested_text (fun v => v) (TVTuple t) end.
Definition pattern_text (p : loop_alias) : list tt :=
  match p with LASimple x => [TIdent x] | LATuple t => nested_text (fun x => [TIdent x]) (TVTuple t) end.

(** [for pattern in [value, ..]], one loop after the other. *)
Definition written_loop : Type := loop_alias * list written.
Definition loops_text (ls : list written_loop) : list tt :=
  flat_map (fun l => TIdent (txt "for") :: pattern_text (fst l) ++
                     [TIdent (txt "in"); TGroup Bracket (joined (map written_text (snd l)))]) ls.

(** The definitions of the rounds: patterns and values as in [matched] and [rounds] (SpecMacro). *)
Definition paired (p : loop_alias) (w : written) : option (list (str * list tt)) :=
  match p, w with
  | LASimple x, WValue v => Some [(x, v)]
  | LATuple a, WTuple t =>
      if list_eq_dec bool_dec (kinds_in_level_order a) (kinds_in_level_order t)
      then Some (combine (values_in_level_order a) (values_in_level_order t)) else None
  | _, _ => None
  end.
Fixpoint all_paired (ps : list loop_alias) (ws : list written) : option (list (str * list tt)) :=
  match ps, ws with
  | p :: ps', w :: ws' => match paired p w, all_paired ps' ws' with Some a, Some b => Some (a ++ b) | _, _ => None end
  | _, _ => Some []
  end.
Definition written_rounds (ls : list written_loop) : list (option (list (str * list tt))) :=
  map (all_paired (map fst ls)) (all_combinations (map snd ls)).

(** [x = v, y = w, .. rest]. *)
Definition round_text (ds : list (str * list tt)) (rest : list tt) : list tt :=
  flat_map (fun d => definition_text d ++ [comma]) ds ++ rest.

(** Every name and every value of the loops. *)
Fixpoint tuple_leaves {V} (t : tuple_value V) : list V :=
  match t with TVValue v => [v] | TVTuple l => flat_map tuple_leaves l end.
Definition written_values (w : written) : list (list tt) :=
  match w with WValue v => [v] | WTuple t => flat_map tuple_leaves t end.
Definition pattern_names (p : loop_alias) : list str :=
  match p with LASimple x => [x] | LATuple t => flat_map tuple_leaves t end.

(** One value that is read alike in front of any comma. *)
Definition self_contained (P : parsers) (has_func : str -> bool) (v : list tt) : Prop :=
  one_value P has_func v /\ forall tail, ignores P v tail.
Definition plain_loops (P : parsers) (has_func : str -> bool) (ls : list written_loop) : Prop :=
  Forall (fun l => Forall (fun x => ident_allowed P x = true) (pattern_names (fst l)) /\
                   Forall (self_contained P has_func) (flat_map written_values (snd l))) ls.

(** A use with this list of loops and definitions: [compose!], by either name, or
    [#[compose_item]] on an item. *)
Definition used_with (item : option (list tt)) (ts : list tt) (u : use) : Prop :=
  match item with None => use_text ts u | Some it => u_source u = ComposeItem ts it end.

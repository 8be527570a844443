(** Specification of what invisible groups mean: the same tokens without them. *)
From Verif Require Import Base Token Types Values Ast Item Interpreter Parse Macro InvisibleParse SpecRepro.
Open Scope list_scope.

(** Tokens without invisible groups: the contents take the place of each. *)
Fixpoint flat (t : tt) : list tt :=
  match t with
  | TGroup NoDelim ts => flat_map flat ts
  | TGroup d ts => [TGroup d (flat_map flat ts)]
  | _ => [t]
  end.
Definition flats (ts : list tt) : list tt := flat_map flat ts.

(** There are none. *)
Fixpoint visible (t : tt) : bool :=
  match t with
  | TGroup NoDelim _ => false
  | TGroup _ ts => forallb visible ts
  | _ => true
  end.
Definition all_visible (ts : list tt) : bool := forallb visible ts.
Definition source_visible (s : source) : bool :=
  match s with Compose ts | ComposeIdents ts => all_visible ts | ComposeItem attr item => all_visible attr && all_visible item end.

(** None of them is empty or holds a comma that would separate what surrounds it. *)
Fixpoint fine (t : tt) : bool :=
  match t with
  | TGroup d ts =>
      forallb fine ts &&
      match d with
      | NoDelim => match flats ts with [] => false | l => negb (existsb is_comma l) end
      | _ => true
      end
  | _ => true
  end.
Definition all_fine (ts : list tt) : bool := forallb fine ts.

(** The positions of an input, and the beginnings of what follows them. *)
Inductive part_of (ts : list tt) : list tt -> Prop :=
| part_all : part_of ts ts
| part_next : forall t r, part_of ts (t :: r) -> part_of ts r
| part_enter : forall inside r, part_of ts (TGroup NoDelim inside :: r) -> part_of ts (inside ++ r)
| part_group : forall d inside r, part_of ts (TGroup d inside :: r) -> part_of ts inside
| part_front : forall a b, part_of ts (a ++ b) -> part_of ts a.

(** One of [syn]'s parsers reads through the invisible groups ahead: it does as it does
    without them.  A result has what was read, how many entries were taken and whether
    something was left unread. *)
Definition reads_through {A B} (f : list tt -> option (A * nat * bool)) (what : A -> B) (ts : list tt) : Prop :=
  match f ts, f (flats ts) with
  | Some (a, k, u), Some (a', k', u') =>
      what a = what a' /\ u = u' /\ k <= all_entries ts /\ k' = List.length (taken k ts)
  | None, None => True
  | _, _ => False
  end.
Definition with_nothing_unread {A} (f : list tt -> option (A * nat)) (ts : list tt) : option (A * nat * bool) :=
  option_map (fun r => (r, false)) (f ts).

Record transparent_at (P : parsers) (ts : list tt) : Prop := {
  through_int : reads_through (with_nothing_unread (pre_lit_int P)) (fun x => x) ts;
  through_str : reads_through (with_nothing_unread (pre_lit_str P)) (fun x => x) ts;
  through_path : reads_through (pre_path P) flats ts;
  through_type : reads_through (pre_type P) flats ts;
  through_expr : reads_through (pre_expr P) flats ts;
  through_block : reads_through (pre_block P) (fun b => flats (block_tokens b)) ts;
}.

(** What was parsed, with a function applied to the tokens in it. *)
Definition over_value (F : list tt -> list tt) (v : value) : value :=
  match v with
  | VPath ts => VPath (F ts)
  | VType ts => VType (F ts)
  | VExpr ts => VExpr (F ts)
  | VTokens ts => VTokens (F ts)
  | VRaw ts => VRaw (F ts)
  | _ => v
  end.
Fixpoint over_expr (F : list tt -> list tt) (e : expr) : expr :=
  match e with
  | EValue n v => EValue n (over_value F v)
  | ECall n x args raw =>
      ECall n x (map (over_expr F) args) (option_map (fun p => (fst p, F (snd p))) raw)
  end.
Definition over_ast {B C} (F : list tt -> list tt) (G : B -> C) (a : raw_ast B) : raw_ast C :=
  {| ast_loops := option_map (map (map_loop (over_expr F))) (ast_loops a);
     ast_spec := option_map (map_spec (over_expr F)) (ast_spec a);
     ast_block := G (ast_block a) |}.
Definition flat_ast (a : raw_ast (list stmt)) : raw_ast (list tt) := over_ast flats (fun b => flats (block_tokens b)) a.

(** Two inputs parse to the same but for invisible groups. *)
Definition same_parse (p q : parsed) : Prop :=
  p_scope p = p_scope q /\
  match p_ast p, p_ast q with
  | Ok (Some a), Ok (Some b) => flat_ast a = flat_ast b
  | Ok None, Ok None => True
  | _, _ => False
  end.

(** Arguments: the pieces between commas, each parsed by itself.  No token tree of them begins
    with a comma, whatever invisible groups hold further on. *)
Definition begins (t : tt) : bool := match flat t with x :: _ => negb (is_comma x) | [] => false end.
Fixpoint separated (pieces : list (list tt)) : list tt :=
  match pieces with
  | [] => []
  | [p] => p
  | p :: r => p ++ TPunct 44%N false :: separated r
  end.
Fixpoint each_argument (P : parsers) (has_func : str -> bool) (n : N) (pieces : list (list tt)) : N * option (list expr) :=
  match pieces with
  | [] => (n, Some [])
  | p :: r =>
      match parse_expr P has_func n (flat_map (ann P has_func) p) p with
      | (n1, (e, k, u)) =>
          if exhausted (advance k p) && negb u then
            let (n2, rest) := each_argument P has_func n1 r in (n2, option_map (cons e) rest)
          else (n1, None)
      end
  end.

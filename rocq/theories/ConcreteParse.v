(** A concrete instance of the external parsers, used only in examples and witnesses: the
    grammar of Concrete.v, read from the head of a stream. *)
From Coq Require Import String.
From Verif Require Import Base Token Types Values Ast Env Item Deprecation Interpreter Parse Macro AliasSubstitution Concrete ConcreteSpecs ConcreteRuns.
Open Scope list_scope.

Definition node (ts : list tt) (rest : option (list tt)) : option (list tt * nat * bool) :=
  match rest with
  | Some r => let k := List.length ts - List.length r in Some (firstn k ts, k, false)
  | None => None
  end.

(** syn's parenthesised type reads a type and leaves the rest of the group unread, unless a
    comma makes it a tuple. *)
Definition pre_type0 (ts : list tt) : option (list tt * nat * bool) :=
  match ts with
  | TGroup Paren [] :: _ => Some ([TGroup Paren []], 1, false)
  | TGroup Paren inner :: _ =>
      match simple_type (S (List.length inner)) inner with
      | Some [] => Some ([TGroup Paren inner], 1, false)
      | Some (t :: r) =>
          if is_comma t then Some ([TGroup Paren inner], 1, false)
          else Some ([TGroup Paren (firstn (List.length inner - List.length (t :: r)) inner)], 1, true)
      | None => None
      end
  | _ => node ts (simple_type (S (List.length ts)) ts)
  end.

(** Terms joined by [+]; [f(..)] is a term. *)
Fixpoint expr_prefix (fuel : nat) (ts : list tt) : option (list tt) :=
  match fuel with
  | 0 => None
  | S fuel' =>
      let rest := match ts with
                  | TLit _ :: r => Some r
                  | TGroup Paren _ :: r => Some r
                  | _ => match simple_path (S (List.length ts)) ts with
                         | Some (_, TGroup Paren _ :: r) => Some r
                         | Some (_, r) => Some r
                         | None => None
                         end
                  end in
      match rest with
      | Some (p :: r) => if is_p 43 p then expr_prefix fuel' r else Some (p :: r)
      | _ => rest
      end
  end.

(** [fn x(..) {..}] any number of times. *)
Fixpoint items0 (fuel : nat) (ts : list tt) : option (list stmt) :=
  match fuel, ts with
  | _, [] => Some []
  | S fuel', TIdent f :: TIdent x :: TGroup Paren a :: TGroup Brace b :: r =>
      if str_eqb f (txt "fn") then
        option_map (cons (SItem (IFn [] [] [TIdent f; TIdent x; TGroup Paren a] (match b with [] => [] | _ => [SOther b] end))))
          (items0 fuel' r)
      else None
  | _, _ => None
  end.

Definition ascii_parsers : parsers := {|
  ident_allowed := fun x => negb (is_kw x) && negb (str_eqb x (txt "_"));
  pre_lit_int := fun ts =>
    match ts with
    | TLit (LInt d r) :: _ => Some (d, r, 1)
    | TPunct c _ :: TLit (LInt d r) :: _ => if N.eqb c 45 then Some (45%N :: d, 45%N :: r, 2) else None
    | _ => None
    end;
  pre_lit_str := fun ts => match ts with TLit (LStr v p) :: _ => Some (v, p, 1) | _ => None end;
  pre_path := fun ts => node ts (option_map snd (simple_path (S (List.length ts)) ts));
  pre_type := pre_type0;
  pre_expr := fun ts => node ts (expr_prefix (S (List.length ts)) ts);
  pre_block := fun ts =>
    match ts with
    | TGroup Brace inner :: _ => option_map (fun b => (b, 1, false)) (items0 (S (List.length inner)) inner)
    | _ => None
    end;
|}.

(** The functions known, [fn x() {}], and parsing from the first id. *)
Definition known0 : str -> bool := known ascii.
Definition fn_named (x : string) : list tt := [i "fn"; i x; paren []; brace []].
Definition fn_stmt (x : string) : stmt := SItem (IFn [] [] [i "fn"; i x; paren []] []).
Definition use_of (s : source) : use := {| u_source := s; u_seed := 7; u_first_id := 100; u_next_id := 1000 |}.
Definition compose0 (ts : list tt) : option (raw_ast (list stmt)) :=
  match p_ast (parse_func_macro ascii_parsers known0 0 ts) with Ok o => o | _ => None end.
Definition compose_item0 (attr item : list tt) : option (raw_ast (list stmt)) :=
  match p_ast (parse_attr_macro ascii_parsers known0 0 attr item) with Ok o => o | _ => None end.

(** Functions need a name. *)
Definition named_node (k : kind) (ts : list tt) : option (list tt) :=
  match k, ts with
  | KSig, TIdent _ :: TIdent _ :: _ => Some ts
  | KSig, _ => None
  | _, _ => Some ts
  end.
Definition syntax1 : syntax := {| reparse := named_node; as_forest := one_item |}.

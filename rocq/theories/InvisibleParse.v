(** Model of the parsing phase (/repo/src/parse/*.rs) on input with invisible groups, the
    [Delimiter::None] groups that hold what a [macro_rules!] fragment such as [$t:ty] stands
    for.

    [syn] enters such a group whenever it looks for an identifier, a punctuation character, a
    literal or a group with a visible delimiter (buffer.rs: [Cursor::ignore_none]) and leaves it
    without notice at its end ([Cursor::create]): once entered, its tokens are followed by those
    behind the group.  So a position is again a list of token trees, and going on by one
    [entry] either enters an invisible group or takes a token tree that is not one.
    [is_empty] and the parser of [TokenTree] do not enter anything.

    The parser is the one of Parse.v but for this; where a group has been read, what is left
    unread of it does not count if it is only invisible groups without tokens
    ([span_of_unexpected_ignoring_nones] of parse.rs).  [syn]'s parsers are those of Parse.v,
    where the numbers they return now count entries. *)
From Coq Require Import String.
From Verif Require Import Base Token Types Values Ast Item Interpreter Parse.
Open Scope list_scope.

(** The position [k] entries further. *)
Fixpoint advance (k : nat) (ts : list tt) : list tt :=
  match k, ts with
  | S k', TGroup NoDelim inside :: r => advance k' (inside ++ r)
  | S k', _ :: r => advance k' r
  | _, _ => ts
  end.
(** The token trees taken on the way there. *)
Fixpoint taken (k : nat) (ts : list tt) : list tt :=
  match k, ts with
  | S k', TGroup NoDelim inside :: r => taken k' (inside ++ r)
  | S k', t :: r => t :: taken k' r
  | _, _ => []
  end.
(** token_distance.rs between the two positions (C69_distance). *)
Definition distance (k : nat) (ts : list tt) : nat :=
  fold_right (fun t n => leaf_count t + n) 0 (taken k ts).

(** How many entries token trees have. *)
Fixpoint entries (t : tt) : nat :=
  match t with
  | TGroup NoDelim ts => S (fold_right (fun t n => entries t + n) 0 ts)
  | _ => 1
  end.
Definition all_entries (ts : list tt) : nat := fold_right (fun t n => entries t + n) 0 ts.

(** Cursor::ignore_none: the next token that is not an invisible group, and how many of these
    are entered before it. *)
Fixpoint next_in (t : tt) : nat * option tt :=
  match t with
  | TGroup NoDelim ts =>
      let (n, o) := (fix go (l : list tt) : nat * option tt :=
                       match l with
                       | [] => (0, None)
                       | x :: r => match next_in x with
                                   | (n, Some y) => (n, Some y)
                                   | (n, None) => let (m, o) := go r in (n + m, o)
                                   end
                       end) ts in
      (S n, o)
  | _ => (0, Some t)
  end.
Fixpoint next (ts : list tt) : nat * option tt :=
  match ts with
  | [] => (0, None)
  | x :: r => match next_in x with
              | (n, Some y) => (n, Some y)
              | (n, None) => let (m, o) := next r in (n + m, o)
              end
  end.

(** [if !fork.is_empty() { fork.parse::<Term>()?; }] *)
Definition ends_at (term : tt -> bool) (ts : list tt) : bool :=
  match ts with
  | [] => true
  | _ => match snd (next ts) with Some t => term t | None => false end
  end.
(** [span_of_unexpected_ignoring_nones]: nothing but empty invisible groups remains. *)
Definition exhausted (ts : list tt) : bool := match snd (next ts) with Some _ => false | None => true end.

Section Parse.
Context (P : parsers) (has_func : str -> bool).

(** ** parse/value.rs *)

(** value.rs 10-19: [try_parse]. *)
Definition try_parse (term : tt -> bool) (ts : list tt) (o : option candidate) : option candidate :=
  match o with
  | Some (v, k, u) => if ends_at term (advance k ts) then Some (v, k, u) else None
  | None => None
  end.

(** [Token![_]] and [Ident]. *)
Definition underscore_candidate (ts : list tt) : option candidate :=
  match next ts with
  | (n, Some t) => if is_word [95%N] t || is_punct 95%N t then Some (VIdent [95%N], S n, false) else None
  | _ => None
  end.
Definition ident_candidate (ts : list tt) : option candidate :=
  match next ts with
  | (n, Some (TIdent x)) => if ident_allowed P x then Some (VIdent x, S n, false) else None
  | _ => None
  end.

(** value.rs 32-95: the seven attempts in order. *)
Definition attempts (ts : list tt) : list (option candidate) :=
  [ lit_int_candidate P ts; lit_str_candidate P ts; underscore_candidate ts; ident_candidate ts;
    node_candidate VPath (pre_path P ts); node_candidate VType (pre_type P ts);
    node_candidate VExpr (pre_expr P ts) ].

(** One of them. *)
Definition attempt (term : tt -> bool) (ts : list tt) (acc : N * option (nat * (expr * nat * bool)))
  (o : option candidate) : N * option (nat * (expr * nat * bool)) :=
  let (n, best) := acc in
  match try_parse term ts o with
  | None => (n, best)
  | Some (v, k, u) =>
      let num_tokens := distance k ts in
      let chosen := (N.succ n, Some (num_tokens, (EValue n v, k, u))) in
      match best with
      | None => chosen
      | Some (max_num_tokens, _) => if Nat.ltb max_num_tokens num_tokens then chosen else (n, best)
      end
  end.

(** terminated.rs 36-51: the token trees up to the terminator; it is seen at the beginning of
    an invisible group, but such a group is taken as a whole. *)
Fixpoint until (term : tt -> bool) (ts : list tt) : list tt :=
  match ts with
  | [] => []
  | t :: r => if match snd (next ts) with Some x => term x | None => false end then [] else t :: until term r
  end.

(** value.rs 26-115 *)
Definition parse_value (term : tt -> bool) (n : N) (ts : list tt) : N * (expr * nat * bool) :=
  match fold_left (attempt term ts) (attempts ts) (n, None) with
  | (n', Some (_, r)) => (n', r)
  | (n', None) => let tokens := until term ts in
                  (N.succ n', (EValue n' (VTokens tokens), all_entries tokens, false))
  end.

(** ** Recursion

    The entries of a position: the beginning of an invisible group, or another token tree
    paired with what parsing its inside yields (see Parse.v). *)
Inductive entry := Open | Tok (a : atok).

(** Cursor::ignore_none *)
Fixpoint seen (l : list entry) : list entry :=
  match l with Open :: r => seen r | _ => l end.

(** call.rs 11-43 *)
Definition parse_call (n : N) (l : list entry) : option (N * (expr * nat)) :=
  match seen l with
  | Tok {| a_tok := TIdent x |} :: r =>
      match seen r with
      | Tok ({| a_tok := TGroup Paren inner |} as g) :: r' =>
          if ident_allowed P x && has_func x then
            let (n1, args) := a_args g n in
            Some (N.succ (N.succ n1),
                  (ECall (N.succ n1) x args (Some (n1, inner)), List.length l - List.length r'))
          else None
      | _ => None
      end
  | _ => None
  end.

(** expr.rs 9-37.  The position is given as entries and as token trees. *)
Definition parse_expr (n : N) (l : list entry) (ts : list tt) : N * (expr * nat * bool) :=
  match parse_call n l with
  | Some (n', (e, k)) => (n', (e, k, false))
  | None => parse_value is_comma n ts
  end.

(** Where a list of items with separators stands: before an item, [k] entries before the
    separator, or behind the beginning of an invisible group where a separator must follow. *)
Inductive place := Item | Skip (k : nat) | Sep.

(** [Punctuated::parse_terminated] with separator [,]. *)
Section Terminated.
Context {A : Type} (item : N -> list entry -> list tt -> N * option (A * nat)).
Fixpoint parse_terminated (l : list entry) (ts : list tt) (at_ : place) (n : N) : N * option (list A) :=
  match l with
  | [] => (n, match at_ with Sep => None | _ => Some [] end)
  | e :: r =>
      let ts' := advance 1 ts in
      let separator n := match e with
                         | Open => parse_terminated r ts' Sep n
                         | Tok t => if is_comma (a_tok t) then parse_terminated r ts' Item n else (n, None)
                         end in
      match at_ with
      | Skip 0 | Sep => separator n
      | Skip (S k) => parse_terminated r ts' (Skip k) n
      | Item =>
          match item n l ts with
          | (n1, None) => (n1, None)
          | (n1, Some (a, k)) =>
              let (n2, rest) := match k with
                                | 0 => separator n1
                                | S k' => parse_terminated r ts' (Skip k') n1
                                end in
              (n2, option_map (cons a) rest)
          end
      end
  end.
End Terminated.

(** terminated.rs 35-69 at [Terminated<Expr, Token![,]>]: the token trees up to the comma must
    be one expression ([parse2]). *)
Definition parse_arg (n : N) (l : list entry) (ts : list tt) : N * option (expr * nat) :=
  let piece := until is_comma ts in
  match parse_expr n (firstn (all_entries piece) l) piece with
  | (n', (e, k, u)) =>
      (n', if exhausted (advance k piece) then if u then None else Some (e, all_entries piece) else None)
  end.
(** call.rs 26-35 *)
Definition parse_args (l : list entry) (ts : list tt) (n : N) : N * list expr :=
  match parse_terminated parse_arg l ts Item n with
  | (n', Some args) => (n', args)
  | (n', None) => (n', [])
  end.

(** tuple.rs 48-66 at [TupleValue<Expr>] *)
Definition parse_tuple_value (n : N) (l : list entry) (ts : list tt) : N * option (tuple_value expr * bool * nat) :=
  match seen l with
  | Tok ({| a_tok := TGroup Paren _ |} as g) :: r =>
      match a_tuple g n with
      | (n', Some (t, u)) => (n', Some (TVTuple t, u, List.length l - List.length r))
      | (n', None) => (n', None)
      end
  | _ => match parse_expr n l ts with (n', (e, k, u)) => (n', Some (TVValue e, u, k)) end
  end.
(** tuple.rs 35-45, the inside of the parentheses. *)
Definition parse_tuple (l : list entry) (ts : list tt) (n : N) : N * option (tuple expr * bool) :=
  match parse_terminated parse_tuple_value l ts Item n with
  | (n', o) => (n', option_map any_unexpected o)
  end.

(** tuple.rs 48-66 at [TupleValue<Alias>]; alias.rs. *)
Definition parse_pattern_value (n : N) (l : list entry) (ts : list tt) : N * option (tuple_value alias * nat) :=
  match seen l with
  | Tok ({| a_tok := TGroup Paren _ |} as g) :: r =>
      (n, option_map (fun t => (TVTuple t, List.length l - List.length r)) (a_pattern g))
  | Tok {| a_tok := TIdent x |} :: r =>
      (n, if ident_allowed P x then Some (TVValue x, List.length l - List.length r) else None)
  | _ => (n, None)
  end.
Definition parse_pattern (l : list entry) (ts : list tt) : option (tuple alias) :=
  snd (parse_terminated parse_pattern_value l ts Item 0%N).

(** The entries of a token tree. *)
Fixpoint ann (t : tt) : list entry :=
  match t with
  | TGroup NoDelim ts => Open :: flat_map ann ts
  | TGroup Paren ts =>
      let inside := flat_map ann ts in
      [Tok {| a_tok := t; a_args := parse_args inside ts; a_tuple := parse_tuple inside ts;
              a_pattern := parse_pattern inside ts |}]
  | _ => [Tok {| a_tok := t; a_args := fun n => (n, []); a_tuple := fun n => (n, None); a_pattern := None |}]
  end.

(** ** Alias definitions *)

(** alias_spec_item.rs 7-20, alias_value.rs 8-16, expr.rs 45-58 *)
Definition parse_spec_item (n : N) (l : list entry) (ts : list tt) : N * option (spec_item * nat * bool) :=
  match seen l with
  | Tok {| a_tok := TIdent x |} :: r =>
      match seen r with
      | Tok eq :: r' =>
          if ident_allowed P x && is_equals (a_tok eq) then
            let before := List.length l - List.length r' in
            let ts' := advance before ts in
            match parse_expr n r' ts' with
            | (n', (e, k, u)) =>
                (n', if ends_at is_separator (advance k ts') then Some (x, e, before + k, u) else None)
            end
          else (n, None)
      | _ => (n, None)
      end
  | _ => (n, None)
  end.

Definition peek_ident (l : list entry) : bool :=
  match seen l with Tok {| a_tok := TIdent x |} :: _ => ident_allowed P x | _ => false end.

(** alias_spec.rs 9-49: the items, whether commas are used, and the position behind them. *)
Fixpoint parse_spec (l : list entry) (ts : list tt) (at_ : place) (used : option bool) (n : N)
  : N * option (list spec_item * option bool * list tt * bool) :=
  match at_, l with
  | Skip _, [] => (n, Some ([], used, [], false))
  | Skip (S k), _ :: r => parse_spec r (advance 1 ts) (Skip k) used n
  | (Skip 0 | Sep), Open :: r => parse_spec r (advance 1 ts) Sep used n
  | (Skip 0 | Sep), Tok t :: r =>
      if is_separator (a_tok t) then
        let current := is_comma (a_tok t) in
        let mixed := match used with Some u => negb (Bool.eqb u current) | None => false end in
        if mixed then (n, None)
        else if peek_ident r then parse_spec r (advance 1 ts) Item (Some current) n
        else (n, Some ([], Some current, advance 1 ts, false))
      else (n, None)
  | (Item | Sep), [] => (n, None)
  | Item, _ :: r =>
      match parse_spec_item n l ts with
      | (n1, Some (item, S k, u)) =>
          let (n2, rest) := parse_spec r (advance 1 ts) (Skip k) used n1 in
          (n2, option_map (fun '(items, used', rest', u') => (item :: items, used', rest', u || u')) rest)
      | (n1, _) => (n1, None)   (* an item is not empty *)
      end
  end.

(** ** Loops *)

(** loop_alias.rs 7-37 *)
Definition parse_loop_alias (t : atok) : option loop_alias :=
  match a_tok t with
  | TGroup Paren _ => option_map LATuple (a_pattern t)
  | TIdent x => if ident_allowed P x then Some (LASimple x) else None
  | _ => None
  end.

(** loop_source_value_list.rs 8-40 *)
Definition parse_source_value (n : N) (l : list entry) (ts : list tt) : N * option (loop_source_value * bool * nat) :=
  let as_expr n := match parse_expr n l ts with (n', (e, k, u)) => (n', Some (LSValue e, u, k)) end in
  match seen l with
  | Tok ({| a_tok := TGroup Paren _ |} as g) :: r =>
      match a_tuple g n with
      | (n', Some (t, u)) => (n', Some (LSTuple t, u, List.length l - List.length r))
      | (n', None) => as_expr n'
      end
  | _ => as_expr n
  end.
(** loop_source_value_list.rs 42-57 *)
Definition parse_source_list (n : N) (t : atok) : N * option (list loop_source_value * bool) :=
  match a_tok t with
  | TGroup Bracket ts =>
      match parse_terminated parse_source_value (flat_map ann ts) ts Item n with
      | (n', o) => (n', option_map any_unexpected o)
      end
  | _ => (n, None)
  end.

(** loop_spec_item.rs 7-25: [for alias in list], and the entries it takes; no loop if there is
    no [for] (loop_spec.rs 10). *)
Definition parse_loop (n : N) (l : list entry) : N * option (option (loop_item * bool * nat)) :=
  match seen l with
  | Tok f :: r0 =>
      if is_word (txt "for") (a_tok f) then
        match seen r0 with
        | Tok pat :: r1 =>
            match seen r1 with
            | Tok kw :: r2 =>
                match seen r2 with
                | Tok src :: r =>
                    match parse_loop_alias pat with
                    | Some al =>
                        if is_word (txt "in") (a_tok kw) then
                          match parse_source_list n src with
                          | (n1, Some (vals, u)) =>
                              (n1, Some (Some ({| loop_pattern := al; loop_values := vals |}, u,
                                               List.length l - List.length r)))
                          | (n1, None) => (n1, None)
                          end
                        else (n, None)
                    | None => (n, None)
                    end
                | _ => (n, None)
                end
            | _ => (n, None)
            end
        | _ => (n, None)
        end
      else (n, Some None)
  | _ => (n, Some None)
  end.

(** loop_spec.rs 6-21; [skip] entries of the last loop lie ahead. *)
Fixpoint parse_loops (l : list entry) (ts : list tt) (skip : nat) (n : N)
  : N * option (list loop_item * list entry * list tt * bool) :=
  match l, skip with
  | [], _ => (n, Some ([], [], [], false))
  | _ :: r, S k => parse_loops r (advance 1 ts) k n
  | _ :: r, 0 =>
      match parse_loop n l with
      | (n1, None) => (n1, None)
      | (n1, Some None) => (n1, Some ([], l, ts, false))
      | (n1, Some (Some (item, u, k))) =>
          let (n2, rest) := parse_loops r (advance 1 ts) (pred k) n1 in
          (n2, option_map (fun '(items, l', ts', u') => (item :: items, l', ts', u || u')) rest)
      end
  end.

(** raw_ast.rs 11-21, compose_item_spec.rs 9-19 *)
Definition parse_header (n : N) (ts : list tt)
  : option (option (list loop_item) * option alias_spec * list tt * bool) :=
  match parse_loops (flat_map ann ts) ts 0 n with
  | (_, None) => None
  | (n1, Some (loops, l1, ts1, u1)) =>
      let loops' := match loops with [] => None | _ => Some loops end in
      if peek_ident l1 then
        match snd (parse_spec l1 ts1 Item None n1) with
        | None => None
        | Some (items, used, ts2, u2) =>
            Some (loops', Some {| spec_items := items; is_comma_used := used |}, ts2, u1 || u2)
        end
      else Some (loops', None, ts1, u1)
  end.

(** raw_ast.rs 10-55, with the check that the whole input is read. *)
Definition parse_func_macro (n : N) (ts : list tt) : parsed :=
  match parse_header n ts with
  | None => syntax_error None
  | Some (loops, spec, ts1, u1) =>
      match pre_block P ts1 with
      | None => syntax_error None
      | Some (block, k, u2) =>
          let scope := Some (uses_semicolons spec) in
          let done := {| p_scope := scope;
                         p_ast := Ok (if u1 || u2 then None
                                      else Some {| ast_loops := loops; ast_spec := spec; ast_block := block |}) |} in
          let ts2 := advance k ts1 in
          match next ts2 with
          | (_, None) => done
          | (i, Some t) =>
              if is_separator t && negb (trailing_mixed t spec) then
                if exhausted (advance (S i) ts2) then done else syntax_error scope
              else syntax_error scope
          end
      end
  end.

(** compose_item_spec.rs 28-43: what remains after the optional separator. *)
Definition skip_separator (loops : option (list loop_item)) (spec : option alias_spec) (ts : list tt) : option (list tt) :=
  match next ts with
  | (i, Some t) =>
      if is_separator t then
        match spec, loops with
        | Some _, _ => Some (advance (S i) ts)
        | None, Some _ => None
        | None, None => Some ts
        end
      else Some ts
  | (_, None) => Some ts
  end.

(** compose_item_spec.rs 8-50 and lib.rs 43-59. *)
Definition parse_attr_macro (n : N) (attr item : list tt) : parsed :=
  match parse_header n attr with
  | None => syntax_error None
  | Some (loops, spec, ts, u1) =>
      let scope := Some (uses_semicolons spec) in
      match skip_separator loops spec ts with
      | Some rest =>
          if negb (exhausted rest) || u1 then syntax_error scope
          else match pre_block P [TGroup Brace item] with
               | Some (block, 1, false) =>
                   {| p_scope := scope;
                      p_ast := Ok (Some {| ast_loops := loops; ast_spec := spec; ast_block := block |}) |}
               | _ => syntax_error scope
               end
      | None => syntax_error scope
      end
  end.
End Parse.

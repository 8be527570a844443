(** Model of the parsing phase: /repo/src/parse/*.rs, /repo/src/util/terminated.rs,
    /repo/src/util/combined.rs.

    A [ParseStream] is the list of the token trees that remain; invisible groups (which syn
    enters silently) are treated like any other group, see InvisibleParse for them.  A parser returns how many token trees
    it consumed.  Ids that the model's AST does not keep (those of aliases, tuples, lists,
    specs) are not drawn from the counter; for the others only distinctness matters. *)
From Coq Require Import String.
From Verif Require Import Base Token Types Values Ast Item Interpreter.
Open Scope list_scope.

(** syn's parsers, given the tokens ahead: the node (see Values), the number of token trees
    consumed, and whether tokens were left unread inside a group.  syn notes the latter in
    the stream ([ParseBuffer]'s [unexpected]); the parse then fails when the whole input has
    been read, unless it was on a fork that is dropped. *)
Record parsers := {
  (* [Ident::parse] accepts everything but keywords and [_] *)
  ident_allowed : str -> bool;
  pre_lit_int : list tt -> option (str * str * nat);
  pre_lit_str : list tt -> option (str * str * nat);
  pre_path : list tt -> option (list tt * nat * bool);
  pre_type : list tt -> option (list tt * nat * bool);
  pre_expr : list tt -> option (list tt * nat * bool);
  pre_block : list tt -> option (list stmt * nat * bool);
}.

(** [Token![,]] (call.rs 28, alias_spec.rs 21, raw_ast.rs 33), [Token![;]] (alias_spec.rs 24,
    raw_ast.rs 36), [Token![=]] (alias_spec_item.rs 10) and the keywords (loop_spec_item.rs 10-14);
    syn does not look at the spacing. *)
Definition is_punct (c : chr) (t : tt) : bool :=
  match t with TPunct c' _ => N.eqb c c' | _ => false end.
Definition is_comma := is_punct 44%N.
Definition is_semicolon := is_punct 59%N.
Definition is_equals := is_punct 61%N.
Definition is_word (x : str) (t : tt) : bool :=
  match t with TIdent y => str_eqb x y | _ => false end.
(** util/combined.rs 18-50 at [combine!(Token![,], Token![;])], which is only asked whether
    it parses. *)
Definition is_separator (t : tt) : bool := is_comma t || is_semicolon t.

(** value.rs 13-16: [if !term_fork.is_empty() { term_fork.parse::<Term>()?; }]; also
    terminated.rs 36-51. *)
Definition ends (term : tt -> bool) (rest : list tt) : bool :=
  match rest with [] => true | t :: _ => term t end.

(** token_distance.rs 18-39, what one token tree adds. *)
Fixpoint leaf_count (t : tt) : nat :=
  match t with
  | TGroup _ ts => fold_right (fun t n => leaf_count t + n) 0 ts
  | _ => 1
  end.
(** token_distance.rs between a position and the one [k] token trees further
    (C32_reading). *)
Definition distance_to (k : nat) (ts : list tt) : nat :=
  fold_right (fun t n => leaf_count t + n) 0 (firstn k ts).

Section Parse.
Context (P : parsers) (has_func : str -> bool).

(** ** parse/value.rs *)

(** A parsed value, the tokens consumed and the [unexpected] flag: the triple of value.rs 18 (the
    number of leaves is [distance_to]). *)
Definition candidate := (value * nat * bool)%type.

(** value.rs 10-19: [try_parse]. *)
Definition try_parse (term : tt -> bool) (ts : list tt) (o : option candidate) : option candidate :=
  match o with
  | Some (v, k, u) => if ends term (skipn k ts) then Some (v, k, u) else None
  | None => None
  end.

Definition lit_int_candidate (ts : list tt) : option candidate :=
  option_map (fun '(d, r, k) => (VLitInt d r, k, false)) (pre_lit_int P ts).
Definition lit_str_candidate (ts : list tt) : option candidate :=
  option_map (fun '(v, p, k) => (VLitStr v p, k, false)) (pre_lit_str P ts).
(** value.rs 50-58; [Token![_]] is an identifier or a punctuation character. *)
Definition underscore_candidate (ts : list tt) : option candidate :=
  match ts with
  | t :: _ => if is_word [95%N] t || is_punct 95%N t then Some (VIdent [95%N], 1, false) else None
  | [] => None
  end.
(** value.rs 59-67. *)
Definition ident_candidate (ts : list tt) : option candidate :=
  match ts with
  | TIdent x :: _ => if ident_allowed P x then Some (VIdent x, 1, false) else None
  | _ => None
  end.
(** value.rs 68-95: paths, types and expressions. *)
Definition node_candidate (f : list tt -> value) (o : option (list tt * nat * bool)) : option candidate :=
  option_map (fun '(node, k, u) => (f node, k, u)) o.

(** value.rs 32-95: the seven attempts in order. *)
Definition attempts (ts : list tt) : list (option candidate) :=
  [ lit_int_candidate ts; lit_str_candidate ts; underscore_candidate ts; ident_candidate ts;
    node_candidate VPath (pre_path P ts); node_candidate VType (pre_type P ts);
    node_candidate VExpr (pre_expr P ts) ].

(** value.rs 41-49 and alike: keep it if it is the first or takes more tokens ([max_num_tokens],
    [value]); the new value draws an id. *)
Definition attempt (term : tt -> bool) (ts : list tt) (acc : N * option (nat * (expr * nat * bool)))
  (o : option candidate) : N * option (nat * (expr * nat * bool)) :=
  let (n, best) := acc in
  match try_parse term ts o with
  | None => (n, best)
  | Some (v, k, u) =>
      let num_tokens := distance_to k ts in
      let chosen := (N.succ n, Some (num_tokens, (EValue n v, k, u))) in
      match best with
      | None => chosen
      | Some (max_num_tokens, _) => if Nat.ltb max_num_tokens num_tokens then chosen else (n, best)
      end
  end.

(** terminated.rs 36-51: the tokens up to the terminator. *)
Fixpoint until (term : tt -> bool) (ts : list tt) : list tt :=
  match ts with
  | [] => []
  | t :: r => if term t then [] else t :: until term r
  end.

(** value.rs 26-115; the tokens of the fallback always parse, so the [unreachable!] is. *)
Definition parse_value (term : tt -> bool) (n : N) (ts : list tt) : N * (expr * nat * bool) :=
  match fold_left (attempt term ts) (attempts ts) (n, None) with
  | (n', Some (_, r)) => (n', r)
  | (n', None) => let tokens := until term ts in (N.succ n', (EValue n' (VTokens tokens), List.length tokens, false))
  end.

(** ** Recursion

    Calls and tuples recurse into groups.  A token tree is paired with what parsing its
    inside yields: as the arguments of a call (call.rs 24-33) and as a tuple of expressions or
    aliases (tuple.rs 35-45). *)
Record atok := {
  a_tok : tt;
  a_args : N -> N * list expr;
  a_tuple : N -> N * option (tuple expr * bool);
  a_pattern : option (tuple alias);
}.
Definition toks (l : list atok) : list tt := map a_tok l.

(** call.rs 11-43: [name(..)] with the name of a function.  [Call::parse] never leaves
    tokens unread: the arguments are parsed from copies. *)
Definition parse_call (n : N) (l : list atok) : option (N * (expr * nat)) :=
  match l with
  | {| a_tok := TIdent x |} :: ({| a_tok := TGroup Paren inner |} as g) :: _ =>
      if ident_allowed P x && has_func x then
        let (n1, args) := a_args g n in
        Some (N.succ (N.succ n1), (ECall (N.succ n1) x args (Some (n1, inner)), 2))
      else None
  | _ => None
  end.

(** expr.rs 9-37: a call or else a value that ends at a comma. *)
Definition parse_expr (n : N) (l : list atok) : N * (expr * nat * bool) :=
  match parse_call n l with
  | Some (n', (e, k)) => (n', (e, k, false))
  | None => parse_value is_comma n (toks l)
  end.

(** [Punctuated::parse_terminated] with separator [,] (call.rs 28, tuple.rs 41,
    loop_source_value_list.rs 48).  [skip] is [Some k] when an item has
    been parsed and [k] more of its tokens lie ahead. *)
Section Terminated.
Context {A : Type} (item : N -> list atok -> N * option (A * nat)).
Fixpoint parse_terminated (l : list atok) (skip : option nat) (n : N) : N * option (list A) :=
  match l with
  | [] => (n, Some [])
  | t :: r =>
      match skip with
      | Some 0 => if is_comma (a_tok t) then parse_terminated r None n else (n, None)
      | Some (S k) => parse_terminated r (Some k) n
      | None =>
          match item n l with
          | (n1, None) => (n1, None)
          | (n1, Some (a, k)) =>
              let (n2, rest) := match k with
                                | 0 => if is_comma (a_tok t) then parse_terminated r None n1 else (n1, None)
                                | S k' => parse_terminated r (Some k') n1
                                end in
              (n2, option_map (cons a) rest)
          end
      end
  end.
End Terminated.

(** terminated.rs 35-69 at [Terminated<Expr, Token![,]>]: the tokens up to the comma must be
    one expression ([parse2]). *)
Fixpoint auntil (term : tt -> bool) (l : list atok) : list atok :=
  match l with
  | [] => []
  | t :: r => if term (a_tok t) then [] else t :: auntil term r
  end.
Definition parse_arg (n : N) (l : list atok) : N * option (expr * nat) :=
  let piece := auntil is_comma l in
  match parse_expr n piece with
  | (n', (e, k, u)) =>
      (n', match skipn k piece with [] => if u then None else Some (e, List.length piece) | _ => None end)
  end.
(** call.rs 26-35: no arguments if they do not parse. *)
Definition parse_args (l : list atok) (n : N) : N * list expr :=
  match parse_terminated parse_arg l None n with
  | (n', Some args) => (n', args)
  | (n', None) => (n', [])
  end.

(** The [unexpected] flags of the parts of tuple.rs 41 and loop_source_value_list.rs 48 add up. *)
Definition any_unexpected {A} (l : list (A * bool)) : list A * bool := (map fst l, existsb snd l).

(** tuple.rs 48-66 at [TupleValue<Expr>]: a nested tuple, if there are parentheses. *)
Definition parse_tuple_value (n : N) (l : list atok) : N * option (tuple_value expr * bool * nat) :=
  match l with
  | {| a_tok := TGroup Paren _ |} as g :: _ =>
      match a_tuple g n with
      | (n', Some (t, u)) => (n', Some (TVTuple t, u, 1))
      | (n', None) => (n', None)
      end
  | _ => match parse_expr n l with (n', (e, k, u)) => (n', Some (TVValue e, u, k)) end
  end.
(** tuple.rs 35-45, the inside of the parentheses. *)
Definition parse_tuple (l : list atok) (n : N) : N * option (tuple expr * bool) :=
  match parse_terminated parse_tuple_value l None n with
  | (n', o) => (n', option_map any_unexpected o)
  end.

(** tuple.rs 48-66 at [TupleValue<Alias>]; alias.rs. *)
Definition parse_pattern_value (n : N) (l : list atok) : N * option (tuple_value alias * nat) :=
  match l with
  | {| a_tok := TGroup Paren _ |} as g :: _ =>
      (n, option_map (fun t => (TVTuple t, 1)) (a_pattern g))
  | {| a_tok := TIdent x |} :: _ => (n, if ident_allowed P x then Some (TVValue x, 1) else None)
  | _ => (n, None)
  end.
Definition parse_pattern (l : list atok) : option (tuple alias) :=
  snd (parse_terminated parse_pattern_value l None 0%N).

(** The pairing: the bodies of [parenthesized!] in call.rs 24-33 and tuple.rs 35-45. *)
Fixpoint ann (t : tt) : atok :=
  match t with
  | TGroup Paren ts =>
      let inside := map ann ts in
      {| a_tok := t; a_args := parse_args inside; a_tuple := parse_tuple inside; a_pattern := parse_pattern inside |}
  | _ => {| a_tok := t; a_args := fun n => (n, []); a_tuple := fun n => (n, None); a_pattern := None |}
  end.

(** ** Alias definitions *)

(** alias_spec_item.rs 7-20, alias_value.rs 8-16, expr.rs 45-58: [alias = expr], followed by
    the end or a separator. *)
Definition parse_spec_item (n : N) (l : list atok) : N * option (spec_item * nat * bool) :=
  match l with
  | {| a_tok := TIdent x |} :: eq :: r =>
      if ident_allowed P x && is_equals (a_tok eq) then
        match parse_expr n r with
        | (n', (e, k, u)) =>
            (n', if ends is_separator (toks (skipn k r)) then Some (x, e, S (S k), u) else None)
        end
      else (n, None)
  | _ => (n, None)
  end.

Definition peek_ident (l : list atok) : bool :=
  match l with {| a_tok := TIdent x |} :: _ => ident_allowed P x | _ => false end.

(** alias_spec.rs 9-49: the items, whether commas are used, and what remains.  [skip] as in
    [parse_terminated]; [used] is [is_comma_used]. *)
Fixpoint parse_spec (l : list atok) (skip : option nat) (used : option bool) (n : N)
  : N * option (list spec_item * option bool * list atok * bool) :=
  match skip, l with
  | Some _, [] => (n, Some ([], used, [], false))
  | Some (S k), _ :: r => parse_spec r (Some k) used n
  | Some 0, t :: r =>
      if is_separator (a_tok t) then
        let current := is_comma (a_tok t) in
        let mixed := match used with Some u => negb (Bool.eqb u current) | None => false end in
        if mixed then (n, None)
        else if peek_ident r then parse_spec r None (Some current) n
        else (n, Some ([], Some current, r, false))
      else (n, None)
  | None, [] => (n, None)
  | None, _ :: r =>
      match parse_spec_item n l with
      | (n1, Some (item, S k, u)) =>
          let (n2, rest) := parse_spec r (Some k) used n1 in
          (n2, option_map (fun '(items, used', rest', u') => (item :: items, used', rest', u || u')) rest)
      | (n1, _) => (n1, None)   (* an item is not empty *)
      end
  end.

(** ** Loops *)

(** loop_alias.rs 7-37: one token tree. *)
Definition parse_loop_alias (t : atok) : option loop_alias :=
  match a_tok t with
  | TGroup Paren _ => option_map LATuple (a_pattern t)
  | TIdent x => if ident_allowed P x then Some (LASimple x) else None
  | _ => None
  end.

(** loop_source_value_list.rs 8-40: a tuple if it parses as one, else an expression. *)
Definition parse_source_value (n : N) (l : list atok) : N * option (loop_source_value * bool * nat) :=
  let as_expr n := match parse_expr n l with (n', (e, k, u)) => (n', Some (LSValue e, u, k)) end in
  match l with
  | {| a_tok := TGroup Paren _ |} as g :: _ =>
      match a_tuple g n with
      | (n', Some (t, u)) => (n', Some (LSTuple t, u, 1))
      | (n', None) => as_expr n'
      end
  | _ => as_expr n
  end.
(** loop_source_value_list.rs 42-57: one token tree. *)
Definition parse_source_list (n : N) (t : atok) : N * option (list loop_source_value * bool) :=
  match a_tok t with
  | TGroup Bracket ts =>
      match parse_terminated parse_source_value (map ann ts) None n with
      | (n', o) => (n', option_map any_unexpected o)
      end
  | _ => (n, None)
  end.

(** loop_spec.rs 6-21, loop_spec_item.rs 7-25: [for alias in list], any number of times. *)
Fixpoint parse_loops (l : list atok) (n : N) : N * option (list loop_item * list atok * bool) :=
  match l with
  | [] => (n, Some ([], [], false))
  | f :: r0 =>
      if is_word (txt "for") (a_tok f) then
        match r0 with
        | pat :: kw :: src :: r =>
            match parse_loop_alias pat with
            | Some al =>
                if is_word (txt "in") (a_tok kw) then
                  match parse_source_list n src with
                  | (n1, Some (vals, u)) =>
                      let (n2, rest) := parse_loops r n1 in
                      (n2, option_map (fun '(items, rest', u') =>
                             ({| loop_pattern := al; loop_values := vals |} :: items, rest', u || u')) rest)
                  | (n1, None) => (n1, None)
                  end
                else (n, None)
            | None => (n, None)
            end
        | _ => (n, None)
        end
      else (n, Some ([], l, false))
  end.

(** raw_ast.rs 11-21, compose_item_spec.rs 9-19: the loops and the definitions. *)
Definition parse_header (n : N) (l : list atok)
  : option (option (list loop_item) * option alias_spec * list atok * bool) :=
  match parse_loops l n with
  | (_, None) => None
  | (n1, Some (loops, l1, u1)) =>
      let loops' := match loops with [] => None | _ => Some loops end in
      if peek_ident l1 then
        match snd (parse_spec l1 None None n1) with
        | None => None
        | Some (items, used, l2, u2) =>
            Some (loops', Some {| spec_items := items; is_comma_used := used |}, l2, u1 || u2)
        end
      else Some (loops', None, l1, u1)
  end.

Definition uses_semicolons (spec : option alias_spec) : bool :=
  match spec with
  | Some s => match is_comma_used s with Some c => negb c | None => false end
  | None => false
  end.

Definition syntax_error (scope : option bool) : parsed := {| p_scope := scope; p_ast := Ok None |}.

(** raw_ast.rs 43-47: [is_comma_current_sep ^ spec.is_comma_used().is_some_and(|v| v)]. *)
Definition trailing_mixed (t : tt) (spec : option alias_spec) : bool :=
  match spec with
  | Some s => xorb (is_comma t) (match is_comma_used s with Some c => c | None => false end)
  | None => false
  end.

(** raw_ast.rs 10-55, with the check that the whole input is read ([parse_macro_input!]). *)
Definition parse_func_macro (n : N) (ts : list tt) : parsed :=
  match parse_header n (map ann ts) with
  | None => syntax_error None
  | Some (loops, spec, l, u1) =>
      match pre_block P (toks l) with
      | None => syntax_error None
      | Some (block, k, u2) =>
          let scope := Some (uses_semicolons spec) in
          let done := {| p_scope := scope;
                         p_ast := Ok (if u1 || u2 then None
                                      else Some {| ast_loops := loops; ast_spec := spec; ast_block := block |}) |} in
          match skipn k (toks l) with
          | [] => done
          | t :: r =>
              if is_separator t && negb (trailing_mixed t spec) then
                match r with [] => done | _ => syntax_error scope end
              else syntax_error scope
          end
      end
  end.

(** compose_item_spec.rs 28-43: what remains after the optional separator. *)
Definition skip_separator (loops : option (list loop_item)) (spec : option alias_spec) (ts : list tt) : option (list tt) :=
  match ts with
  | t :: r =>
      if is_separator t then
        match spec, loops with
        | Some _, _ => Some r
        | None, Some _ => None
        | None, None => Some ts
        end
      else Some ts
  | [] => Some []
  end.

(** compose_item_spec.rs 8-50 and lib.rs 43-59. *)
Definition parse_attr_macro (n : N) (attr item : list tt) : parsed :=
  match parse_header n (map ann attr) with
  | None => syntax_error None
  | Some (loops, spec, l, u1) =>
      let scope := Some (uses_semicolons spec) in
      match skip_separator loops spec (toks l) with
      | Some [] =>
          if u1 then syntax_error scope
          else match pre_block P [TGroup Brace item] with
               | Some (block, 1, false) =>
                   {| p_scope := scope;
                      p_ast := Ok (Some {| ast_loops := loops; ast_spec := spec; ast_block := block |}) |}
               | _ => syntax_error scope
               end
      | _ => syntax_error scope
      end
  end.
End Parse.

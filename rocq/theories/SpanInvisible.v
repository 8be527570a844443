(** Parsing with spans on input with invisible groups (/repo/src/parse/*.rs): what
    InvisibleParse.v is to Parse.v, this is to SpanParse.v.

    [syn] looks through invisible groups for the token ahead, but reports an error where it
    stands, so at the opening of the invisible group if one is ahead ([Cursor::error],
    [ParseBuffer::span]); the end of the input is reported only where not even an empty
    invisible group is ahead.  Two places are those of the token looked through to:
    [Token![,]] and its like report the character that is there instead
    (token.rs: [punct_helper]), and a token that is left at the end is reported as such
    (parse.rs: [span_of_unexpected_ignoring_nones]). *)
From Coq Require Import String.
From Verif Require Import Base Token Types Values Ast Item Interpreter Parse Failures SpanTokens SpanWalker SpanValues SpanEval SpanItem SpanParse.
From Verif Require InvisibleParse.
Open Scope list_scope.

(** ** Positions, of syn's buffers (see InvisibleParse.v) *)
Fixpoint sadvance (k : nat) (ts : list stt) : list stt :=
  match k, ts with
  | S k', SGroup NoDelim inside _ :: r => sadvance k' (inside ++ r)
  | S k', _ :: r => sadvance k' r
  | _, _ => ts
  end.
(** Cursor::ignore_none *)
Fixpoint snext_in (t : stt) : nat * option stt :=
  match t with
  | SGroup NoDelim ts _ =>
      let (n, o) := (fix go (l : list stt) : nat * option stt :=
                       match l with
                       | [] => (0, None)
                       | x :: r => match snext_in x with
                                   | (n, Some y) => (n, Some y)
                                   | (n, None) => let (m, o) := go r in (n + m, o)
                                   end
                       end) ts in
      (S n, o)
  | _ => (0, Some t)
  end.
Fixpoint snext (ts : list stt) : nat * option stt :=
  match ts with
  | [] => (0, None)
  | x :: r => match snext_in x with
              | (n, Some y) => (n, Some y)
              | (n, None) => let (m, o) := snext r in (n + m, o)
              end
  end.

Section Parse.
Context (P : parsers) (SP : sparsers) (has_func : str -> bool).

(** ** parse/value.rs *)

(** value.rs 10-19 *)
Definition through_try_parse (term : tt -> bool) (ts : list stt) (o : option scandidate) : option scandidate :=
  match o with
  | Some (v, k, u) => if InvisibleParse.ends_at term (map erase (sadvance k ts)) then Some (v, k, u) else None
  | None => None
  end.
(** value.rs 50-67: [Token![_]] and [Ident]; the span is that of the token looked through to. *)
Definition through_underscore (ts : list stt) : option scandidate :=
  match snext ts with
  | (n, Some t) => if is_word [95%N] (erase t) || is_punct 95%N (erase t) then Some (SVIdent [95%N] (span_of t), S n, None) else None
  | _ => None
  end.
Definition through_ident (ts : list stt) : option scandidate :=
  match snext ts with
  | (n, Some (SIdent x s)) => if ident_allowed P x then Some (SVIdent x s, S n, None) else None
  | _ => None
  end.
(** value.rs 32-95 *)
Definition through_attempts (ts : list stt) : list (option scandidate) :=
  [ slit_int_candidate SP ts; slit_str_candidate SP ts; through_underscore ts; through_ident ts;
    snode_candidate SVPath (spre_path SP ts); snode_candidate SVType (spre_type SP ts);
    snode_candidate SVExpr (spre_expr SP ts) ].
Definition through_attempt (term : tt -> bool) (ts : list stt) (acc : N * option (nat * (sexpr * nat * option syn_message)))
  (o : option scandidate) : N * option (nat * (sexpr * nat * option syn_message)) :=
  let (n, best) := acc in
  match through_try_parse term ts o with
  | None => (n, best)
  | Some (v, k, u) =>
      let num_tokens := InvisibleParse.distance k (map erase ts) in
      let chosen := (N.succ n, Some (num_tokens, (SEValue n v, k, u))) in
      match best with
      | None => chosen
      | Some (max_num_tokens, _) => if Nat.ltb max_num_tokens num_tokens then chosen else (n, best)
      end
  end.
(** terminated.rs 36-51 *)
Fixpoint through_until (term : tt -> bool) (ts : list stt) : list stt :=
  match ts with
  | [] => []
  | t :: r => if match snd (snext ts) with Some x => term (erase x) | None => false end then [] else t :: through_until term r
  end.
(** How many entries the token trees have. *)
Definition entries_of (ts : list stt) : nat := InvisibleParse.all_entries (map erase ts).
(** value.rs 26-115 *)
Definition through_value (term : tt -> bool) (n : N) (ts : list stt) : N * (sexpr * nat * option syn_message) :=
  match fold_left (through_attempt term ts) (through_attempts ts) (n, None) with
  | (n', Some (_, r)) => (n', r)
  | (n', None) => let tokens := through_until term ts in
                  (N.succ n', (SEValue n' (SVTokens tokens), entries_of tokens, None))
  end.

(** ** Recursion (see InvisibleParse.v); the beginning of an invisible group keeps the group
    for its opening span. *)
Inductive sentry := SOpen (t : stt) | STok (a : satok).
Definition entry_tok (e : sentry) : stt := match e with SOpen t => t | STok a => s_tok a end.
(** What stands ahead; only the first matters, for places. *)
Definition etoks (l : list sentry) : list stt := map entry_tok l.
(** Cursor::ignore_none *)
Fixpoint sseen (l : list sentry) : list sentry :=
  match l with SOpen _ :: r => sseen r | _ => l end.

(** [Token![,]] and the like: the place of the character looked through to; but a quote begins
    a lifetime and is not seen (buffer.rs: [Cursor::punct]). *)
Definition through_expected (x : string) (scope : span) (l : list sentry) : syn_message :=
  new_message (match sseen l with
               | STok {| s_tok := SPunct c _ s |} :: _ => if N.eqb c 39 then place scope (etoks l) else s
               | _ => place scope (etoks l)
               end) (txt "expected `" ++ txt x ++ txt "`").
(** alias.rs 6-11: [Ident::parse] *)
Definition through_expected_ident (scope : span) (l : list sentry) : syn_message :=
  match sseen l with
  | STok {| s_tok := SIdent x _ |} :: _ => error_at scope (etoks l) (txt "expected identifier, found keyword `" ++ x ++ txt "`")
  | _ => error_at scope (etoks l) (txt "expected identifier")
  end.

(** call.rs 11-43: the span of the call is where it begins (13), its invisible group if there
    is one. *)
Definition through_call (n : N) (l : list sentry) : option (N * (sexpr * nat)) :=
  match sseen l with
  | STok {| s_tok := SIdent x _ |} :: r =>
      match sseen r with
      | STok ({| s_tok := SGroup Paren inner _ |} as g) :: r' =>
          if ident_allowed P x && has_func x then
            let (n1, args) := s_args g n in
            Some (N.succ (N.succ n1),
                  (SECall (N.succ n1) x (place call_site (etoks l)) args (Some (n1, inner)), List.length l - List.length r'))
          else None
      | _ => None
      end
  | _ => None
  end.
(** expr.rs 9-37 *)
Definition through_expr (n : N) (l : list sentry) (ts : list stt) : N * (sexpr * nat * option syn_message) :=
  match through_call n l with
  | Some (n', (e, k)) => (n', (e, k, None))
  | None => through_value is_comma n ts
  end.

(** Where a list of items with separators stands (see InvisibleParse.v); the error if the
    separator is not there is that of the place where it was first looked for. *)
Inductive splace := SItem | SSkip (k : nat) | SSep (m : syn_message).

(** [Punctuated::parse_terminated] (call.rs 28, tuple.rs 41, loop_source_value_list.rs 48) *)
Section Terminated.
Context {A : Type} (scope : span) (item : N -> list sentry -> list stt -> N * (A * nat + messages)).
Fixpoint through_terminated (l : list sentry) (ts : list stt) (at_ : splace) (n : N) : N * (list A + messages) :=
  match l with
  | [] => (n, match at_ with SSep m => inr [m] | _ => inl [] end)
  | e :: r =>
      let ts' := sadvance 1 ts in
      let separator m n := match e with
                           | SOpen _ => through_terminated r ts' (SSep m) n
                           | STok t => if is_comma (erase (s_tok t)) then through_terminated r ts' SItem n else (n, inr [m])
                           end in
      match at_ with
      | SSkip 0 => separator (through_expected "," scope l) n
      | SSep m => separator m n
      | SSkip (S k) => through_terminated r ts' (SSkip k) n
      | SItem =>
          match item n l ts with
          | (n1, inr e) => (n1, inr e)
          | (n1, inl (a, k)) =>
              let (n2, rest) := match k with
                                | 0 => separator (through_expected "," scope l) n1
                                | S k' => through_terminated r ts' (SSkip k') n1
                                end in
              (n2, match rest with inl l' => inl (a :: l') | inr e => inr e end)
          end
      end
  end.
End Terminated.

(** The end of [syn::parse2] and of a group. *)
Definition left_over (ts : list stt) : option syn_message := option_map unexpected_token (snd (snext ts)).

(** terminated.rs 35-69; the errors of arguments are dropped (call.rs 34). *)
Definition through_arg (n : N) (l : list sentry) (ts : list stt) : N * (sexpr * nat + messages) :=
  let piece := through_until is_comma ts in
  match through_expr n (firstn (entries_of piece) l) piece with
  | (n', (e, k, u)) =>
      (n', match first_some u (left_over (sadvance k piece)) with
           | Some m => inr [m]
           | None => inl (e, entries_of piece)
           end)
  end.
Definition through_args (scope : span) (l : list sentry) (ts : list stt) (n : N) : N * list sexpr :=
  match through_terminated scope through_arg l ts SItem n with
  | (n', inl args) => (n', args)
  | (n', inr _) => (n', [])
  end.

(** tuple.rs 48-66 *)
Definition through_tuple_value (n : N) (l : list sentry) (ts : list stt) : N * (tuple_value sexpr * option syn_message * nat + messages) :=
  match sseen l with
  | STok ({| s_tok := SGroup Paren _ _ |} as g) :: r =>
      match s_tuple g n with
      | (n', inl (t, u)) => (n', inl (TVTuple t, u, List.length l - List.length r))
      | (n', inr e) => (n', inr e)
      end
  | _ => match through_expr n l ts with (n', (e, k, u)) => (n', inl (TVValue e, u, k)) end
  end.
(** tuple.rs 35-45 *)
Definition through_tuple (scope : span) (l : list sentry) (ts : list stt) (n : N) : N * (tuple sexpr * option syn_message + messages) :=
  match through_terminated scope through_tuple_value l ts SItem n with
  | (n', inl l') => (n', inl (first_unexpected l'))
  | (n', inr e) => (n', inr e)
  end.

(** tuple.rs 48-66, alias.rs *)
Definition through_pattern_value (scope : span) (n : N) (l : list sentry) (ts : list stt) : N * (tuple_value alias * nat + messages) :=
  match sseen l with
  | STok ({| s_tok := SGroup Paren _ _ |} as g) :: r =>
      (n, match s_pattern g with inl t => inl (TVTuple t, List.length l - List.length r) | inr e => inr e end)
  | STok {| s_tok := SIdent x _ |} :: r =>
      (n, if ident_allowed P x then inl (TVValue x, List.length l - List.length r) else inr [through_expected_ident scope l])
  | _ => (n, inr [through_expected_ident scope l])
  end.
Definition through_pattern (scope : span) (l : list sentry) (ts : list stt) : tuple alias + messages :=
  snd (through_terminated scope (through_pattern_value scope) l ts SItem 0%N).

(** call.rs 24-33, tuple.rs 35-45: the entries of a token tree; the scope inside a group is its closing delimiter. *)
Fixpoint through_ann (t : stt) : list sentry :=
  match t with
  | SGroup NoDelim ts _ => SOpen t :: flat_map through_ann ts
  | SGroup Paren ts s =>
      let inside := flat_map through_ann ts in
      [STok {| s_tok := t; s_args := through_args (ds_close s) inside ts; s_tuple := through_tuple (ds_close s) inside ts;
               s_pattern := through_pattern (ds_close s) inside ts |}]
  | _ => [STok {| s_tok := t; s_args := fun n => (n, []); s_tuple := fun n => (n, inr []); s_pattern := inr [] |}]
  end.

(** ** Alias definitions *)
Notation scope := call_site.

(** combined.rs 18-50 *)
Definition through_expected_separator (l : list sentry) : messages :=
  combine_errors "Unable to parse any of the combined tokens (see the errors below)" (place scope (etoks l))
    [[through_expected "," scope l]; [through_expected ";" scope l]].

(** alias_spec_item.rs 7-20, alias_value.rs 8-16, expr.rs 45-58; the number of entries. *)
Definition through_spec_item (n : N) (l : list sentry) (ts : list stt) : N * (sitem * nat * option syn_message + messages) :=
  match sseen l with
  | STok {| s_tok := SIdent x _ |} :: r =>
      if ident_allowed P x then
        match sseen r with
        | STok eq :: r' =>
            if is_equals (erase (s_tok eq)) then
              let before := List.length l - List.length r' in
              let ts' := sadvance before ts in
              match through_expr n r' ts' with
              | (n', (e, k, u)) =>
                  (n', if InvisibleParse.ends_at is_separator (map erase (sadvance k ts')) then inl ((x, e), before + k, u)
                       else inr (through_expected_separator (skipn k r')))
              end
            else (n, inr [through_expected "=" scope r])
        | _ => (n, inr [through_expected "=" scope r])
        end
      else (n, inr [through_expected_ident scope l])
  | _ => (n, inr [through_expected_ident scope l])
  end.

Definition through_peek_ident (l : list sentry) : bool :=
  match sseen l with STok {| s_tok := SIdent x _ |} :: _ => ident_allowed P x | _ => false end.

(** alias_spec.rs 9-49: mixed separators are reported behind the separator (33). *)
Fixpoint through_spec (l : list sentry) (ts : list stt) (at_ : splace) (used : option bool) (n : N)
  : N * (list sitem * option bool * list stt * option syn_message + messages) :=
  let no_separator := error_at scope (etoks l) (txt "Expected "","" or "";""") in
  match at_, l with
  | SSkip _, [] => (n, inl ([], used, [], None))
  | SSkip (S k), _ :: r => through_spec r (sadvance 1 ts) (SSkip k) used n
  | SSkip 0, SOpen _ :: r => through_spec r (sadvance 1 ts) (SSep no_separator) used n
  | SSep m, SOpen _ :: r => through_spec r (sadvance 1 ts) (SSep m) used n
  | SSkip 0, STok t :: r | SSep _, STok t :: r =>
      if is_separator (erase (s_tok t)) then
        let current := is_comma (erase (s_tok t)) in
        let mixed := match used with Some u => negb (Bool.eqb u current) | None => false end in
        if mixed then (n, inr [error_at scope (etoks r) mixing_sep_error])
        else if through_peek_ident r then through_spec r (sadvance 1 ts) SItem (Some current) n
        else (n, inl ([], Some current, sadvance 1 ts, None))
      else (n, inr [match at_ with SSep m => m | _ => no_separator end])
  | SSep m, [] => (n, inr [m])
  | SItem, [] => (n, inr [through_expected_ident scope []])
  | SItem, _ :: r =>
      match through_spec_item n l ts with
      | (n1, inl (item, S k, u)) =>
          let (n2, rest) := through_spec r (sadvance 1 ts) (SSkip k) used n1 in
          (n2, match rest with
               | inl (items, used', rest', u') => inl (item :: items, used', rest', first_some u u')
               | inr e => inr e
               end)
      | (n1, inl _) => (n1, inr [])   (* an item is not empty *)
      | (n1, inr e) => (n1, inr e)
      end
  end.

(** ** Loops *)

(** loop_alias.rs 7-37, and what is behind it. *)
Definition through_loop_alias (l : list sentry) : loop_alias * list sentry + messages :=
  match sseen l with
  | STok t :: r =>
      match s_tok t with
      | SGroup Paren _ _ =>
          match s_pattern t with
          | inl p => inl (LATuple p, r)
          | inr e => inr (combine_errors "Failed to parse loop alias (see errors below)" (place scope (etoks l))
                            [e; [through_expected_ident scope l]])
          end
      | SIdent x _ => if ident_allowed P x then inl (LASimple x, r) else inr [through_expected_ident scope l]
      | _ => inr [through_expected_ident scope l]
      end
  | _ => inr [through_expected_ident scope l]
  end.

(** loop_source_value_list.rs 8-40: the errors of a tuple are dropped; the span of a tuple is
    where it begins (tuple.rs 36). *)
Definition through_source_value (n : N) (l : list sentry) (ts : list stt) : N * (ssource_value * option syn_message * nat + messages) :=
  let as_expr n := match through_expr n l ts with (n', (e, k, u)) => (n', inl (SLSValue e, u, k)) end in
  match sseen l with
  | STok ({| s_tok := SGroup Paren _ _ |} as g) :: r =>
      match s_tuple g n with
      | (n', inl (t, u)) => (n', inl (SLSTuple (place scope (etoks l)) t, u, List.length l - List.length r))
      | (n', inr _) => as_expr n'
      end
  | _ => as_expr n
  end.
(** loop_source_value_list.rs 42-57, and what is behind it. *)
Definition through_source_list (n : N) (l : list sentry) : N * (list ssource_value * option syn_message * list sentry + messages) :=
  let no_brackets := (n, inr [error_at scope (etoks l) (txt "expected square brackets")]) in
  match sseen l with
  | STok t :: r =>
      match s_tok t with
      | SGroup Bracket ts s =>
          match through_terminated (ds_close s) through_source_value (flat_map through_ann ts) ts SItem n with
          | (n', inl vals) => (n', inl (first_unexpected vals, r))
          | (n', inr e) => (n', inr e)
          end
      | _ => no_brackets
      end
  | _ => no_brackets
  end.

(** loop_spec_item.rs 7-25: [for alias in list], and the entries it takes; no loop if there is
    no [for] (loop_spec.rs 10). *)
Definition through_loop (n : N) (l : list sentry) : N * (option (sloop_item * option syn_message * nat) + messages) :=
  match sseen l with
  | STok f :: r0 =>
      if is_word (txt "for") (erase (s_tok f)) then
        match through_loop_alias r0 with
        | inr e => (n, inr e)
        | inl (al, r1) =>
            let no_in := (n, inr [expected_word "in" scope (etoks r1)]) in
            match sseen r1 with
            | STok kw :: r2 =>
                if is_word (txt "in") (erase (s_tok kw)) then
                  match through_source_list n r2 with
                  | (n1, inl (vals, u, r)) =>
                      (n1, inl (Some ({| sl_pattern := al; sl_values := vals |}, u, List.length l - List.length r)))
                  | (n1, inr e) => (n1, inr e)
                  end
                else no_in
            | _ => no_in
            end
        end
      else (n, inl None)
  | _ => (n, inl None)
  end.

(** loop_spec.rs 6-21; [skip] entries of the last loop lie ahead. *)
Fixpoint through_loops (l : list sentry) (ts : list stt) (skip : nat) (n : N)
  : N * (list sloop_item * list sentry * list stt * option syn_message + messages) :=
  match l, skip with
  | [], _ => (n, inl ([], [], [], None))
  | _ :: r, S k => through_loops r (sadvance 1 ts) k n
  | _ :: r, 0 =>
      match through_loop n l with
      | (n1, inr e) => (n1, inr e)
      | (n1, inl None) => (n1, inl ([], l, ts, None))
      | (n1, inl (Some (item, u, k))) =>
          let (n2, rest) := through_loops r (sadvance 1 ts) (pred k) n1 in
          (n2, match rest with
               | inl (items, l', ts', u') => inl (item :: items, l', ts', first_some u u')
               | inr e => inr e
               end)
      end
  end.

(** raw_ast.rs 11-21, compose_item_spec.rs 9-19 *)
Definition through_header (n : N) (ts : list stt)
  : option (list sloop_item) * option salias_spec * list stt * option syn_message + messages :=
  match through_loops (flat_map through_ann ts) ts 0 n with
  | (_, inr e) => inr e
  | (n1, inl (loops, l1, ts1, u1)) =>
      let loops' := match loops with [] => None | _ => Some loops end in
      if through_peek_ident l1 then
        match snd (through_spec l1 ts1 SItem None n1) with
        | inr e => inr e
        | inl (items, used, ts2, u2) => inl (loops', Some {| ss_items := items; ss_comma := used |}, ts2, first_some u1 u2)
        end
      else inl (loops', None, ts1, u1)
  end.

(** lib.rs 42-53: the end of [syn::parse2]. *)
Definition through_finish (scope_ : option bool) (u : option syn_message) (rest : list stt) (ast : sraw_ast (list pstmt)) : sparsed :=
  match first_some u (left_over rest) with
  | Some m => ssyntax_error scope_ [m]
  | None => {| sp_scope := scope_; sp_ast := inl ast |}
  end.

(** raw_ast.rs 10-55 *)
Definition through_func_macro (n : N) (ts : list stt) : sparsed :=
  match through_header n ts with
  | inr e => ssyntax_error None e
  | inl (loops, spec, ts1, u1) =>
      match spre_block SP ts1 with
      | None => ssyntax_error None (block_error SP ts1)
      | Some (block, k, u2) =>
          let sc := Some (suses_semicolons spec) in
          let ast := {| sa_loops := loops; sa_spec := spec; sa_block := block |} in
          let ts2 := sadvance k ts1 in
          match snext ts2 with
          | (_, None) => through_finish sc (first_some u1 u2) [] ast
          | (i, Some t) =>
              if is_separator (erase t) then
                let ts3 := sadvance (S i) ts2 in
                if strailing_mixed t spec then ssyntax_error sc [error_at scope ts3 mixing_sep_error]
                else through_finish sc (first_some u1 u2) ts3 ast
              else through_finish sc (first_some u1 u2) ts2 ast
          end
      end
  end.

(** compose_item_spec.rs 28-43 *)
Definition through_skip_separator (loops : option (list sloop_item)) (spec : option salias_spec) (ts : list stt) : list stt + messages :=
  match snext ts with
  | (i, Some t) =>
      if is_separator (erase t) then
        match spec, loops with
        | Some _, _ => inl (sadvance (S i) ts)
        | None, Some _ => inr [error_at scope ts (txt "Trailing separator after loops is not allowed in #[compose_item].")]
        | None, None => inl ts
        end
      else inl ts
  | (_, None) => inl ts
  end.

(** compose_item_spec.rs 8-50 and lib.rs 43-59 *)
Definition through_attr_macro (n : N) (attr item : list stt) : sparsed :=
  match through_header n attr with
  | inr e => ssyntax_error None e
  | inl (loops, spec, ts, u1) =>
      let sc := Some (suses_semicolons spec) in
      match through_skip_separator loops spec ts with
      | inr e => ssyntax_error sc e
      | inl rest =>
          let braces := [sgroup Brace call_site item] in
          match first_some u1 (left_over rest) with
          | Some m => ssyntax_error sc [m]
          | None =>
              match spre_block SP braces with
              | None => ssyntax_error sc (block_error SP braces)
              | Some (block, k, u2) =>
                  through_finish sc u2 (if Nat.eqb k 1 then [] else braces) {| sa_loops := loops; sa_spec := spec; sa_block := block |}
              end
          end
      end
  end.
End Parse.

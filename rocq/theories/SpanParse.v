(** Parsing with spans: the same code as Parse.v on tokens that carry spans, with the
    messages of syntax errors and their places.

    Places follow syn: an error is reported at the next token (a group at its opening
    delimiter), at the end of the input at the scope of the stream, which is [call_site] for
    the input of a macro and the closing delimiter inside a group
    ([ParseBuffer::error], [Cursor::error], [ParseBuffer::span]). *)
From Coq Require Import String.
From Verif Require Import Base Token Types Values Ast Item Interpreter Parse Failures SpanTokens SpanWalker SpanValues SpanEval SpanItem.
Open Scope list_scope.

(** One message of a [syn::Error]: its text, and the spans it starts and ends at. *)
Record syn_message := { m_text : str; m_start : span; m_end : span }.
(** [syn::Error::new] *)
Definition new_message (s : span) (t : str) : syn_message := {| m_text := t; m_start := s; m_end := s |}.
(** A [syn::Error] is one or more messages. *)
Definition messages := list syn_message.

(** syn's parsers with spans; the last component is what syn says of a token left unread
    inside a group. *)
Record sparsers := {
  spre_lit_int : list stt -> option (str * str * span * nat);
  spre_lit_str : list stt -> option (str * str * span * nat);
  spre_path : list stt -> option (list stt * nat * option syn_message);
  spre_type : list stt -> option (list stt * nat * option syn_message);
  spre_expr : list stt -> option (list stt * nat * option syn_message);
  spre_block : list stt -> option (list pstmt * nat * option syn_message);
  (* the error of [Block::parse] *)
  block_error : list stt -> messages;
}.

(** [ParseBuffer::span]: the place of what lies ahead. *)
Definition open_span (t : stt) : span := match t with SGroup _ _ s => ds_open s | _ => span_of t end.
Definition place (scope : span) (rest : list stt) : span :=
  match rest with [] => scope | t :: _ => open_span t end.
(** [ParseBuffer::error], [Cursor::error] *)
Definition error_at (scope : span) (rest : list stt) (t : str) : syn_message :=
  new_message (place scope rest)
    (match rest with [] => txt "unexpected end of input, " ++ t | _ => t end).
(** [Token![,]] and the like: the place of the token ahead, whatever it is, and no mention of
    the end of the input. *)
Definition expected_punct (x : string) (scope : span) (rest : list stt) : syn_message :=
  new_message (place scope rest) (txt "expected `" ++ txt x ++ txt "`").
Definition expected_word (x : string) (scope : span) (rest : list stt) : syn_message :=
  error_at scope rest (txt "expected `" ++ txt x ++ txt "`").
(** A token that is left when all has been parsed; a group as a whole. *)
Definition unexpected_token (t : stt) : syn_message := new_message (span_of t) (txt "unexpected token").
(** [Ident::parse] *)
Definition expected_ident (scope : span) (rest : list stt) : syn_message :=
  match rest with
  | SIdent x _ :: _ => error_at scope rest (txt "expected identifier, found keyword `" ++ x ++ txt "`")
  | _ => error_at scope rest (txt "expected identifier")
  end.
(** error.rs 91-104: [combine_errors]; no errors at all is a panic, which does not happen. *)
Definition combine_errors (t : string) (s : span) (errors : list messages) : messages :=
  match errors with
  | [e] => e
  | _ => new_message s (txt t) :: List.concat errors
  end.

(** parse/core.rs 4 *)
Definition mixing_sep_error : str := txt "Mixing "","" and "";"" as separators is not allowed".

(** ast/alias_spec.rs, ast/loop_source_value_list.rs, ast/loop_spec_item.rs, ast/raw_ast.rs;
    the span of a tuple is where it begins (parse/tuple.rs 37). *)
Record salias_spec := { ss_items : list sitem; ss_comma : option bool }.
Inductive ssource_value := SLSValue (e : sexpr) | SLSTuple (s : span) (t : tuple sexpr).
Record sloop_item := { sl_pattern : loop_alias; sl_values : list ssource_value }.
Record sraw_ast (B : Type) := {
  sa_loops : option (list sloop_item);
  sa_spec : option salias_spec;
  sa_block : B;
}.
Arguments sa_loops {B}. Arguments sa_spec {B}. Arguments sa_block {B}.

Section Parse.
Context (P : parsers) (SP : sparsers) (has_func : str -> bool).

(** ** parse/value.rs

    10-19 and 32-95, see Parse.v; the third component is the token left unread. *)
Definition scandidate := (svalue * nat * option syn_message)%type.
Definition stry_parse (term : tt -> bool) (ts : list stt) (o : option scandidate) : option scandidate :=
  match o with
  | Some (v, k, u) => if ends term (map erase (skipn k ts)) then Some (v, k, u) else None
  | None => None
  end.
Definition slit_int_candidate (ts : list stt) : option scandidate :=
  option_map (fun '(d, r, s, k) => (SVLitInt d r s, k, None)) (spre_lit_int SP ts).
Definition slit_str_candidate (ts : list stt) : option scandidate :=
  option_map (fun '(v, p, s, k) => (SVLitStr v p s, k, None)) (spre_lit_str SP ts).
Definition sunderscore_candidate (ts : list stt) : option scandidate :=
  match ts with
  | t :: _ => if is_word [95%N] (erase t) || is_punct 95%N (erase t) then Some (SVIdent [95%N] (span_of t), 1, None) else None
  | [] => None
  end.
Definition sident_candidate (ts : list stt) : option scandidate :=
  match ts with
  | SIdent x s :: _ => if ident_allowed P x then Some (SVIdent x s, 1, None) else None
  | _ => None
  end.
Definition snode_candidate (f : list stt -> svalue) (o : option (list stt * nat * option syn_message)) : option scandidate :=
  option_map (fun '(node, k, u) => (f node, k, u)) o.
(** value.rs 32-95 *)
Definition sattempts (ts : list stt) : list (option scandidate) :=
  [ slit_int_candidate ts; slit_str_candidate ts; sunderscore_candidate ts; sident_candidate ts;
    snode_candidate SVPath (spre_path SP ts); snode_candidate SVType (spre_type SP ts);
    snode_candidate SVExpr (spre_expr SP ts) ].
Definition sattempt (term : tt -> bool) (ts : list stt) (acc : N * option (nat * (sexpr * nat * option syn_message)))
  (o : option scandidate) : N * option (nat * (sexpr * nat * option syn_message)) :=
  let (n, best) := acc in
  match stry_parse term ts o with
  | None => (n, best)
  | Some (v, k, u) =>
      let num_tokens := distance_to k (map erase ts) in
      let chosen := (N.succ n, Some (num_tokens, (SEValue n v, k, u))) in
      match best with
      | None => chosen
      | Some (max_num_tokens, _) => if Nat.ltb max_num_tokens num_tokens then chosen else (n, best)
      end
  end.
(** terminated.rs 36-51 *)
Fixpoint suntil (term : tt -> bool) (ts : list stt) : list stt :=
  match ts with
  | [] => []
  | t :: r => if term (erase t) then [] else t :: suntil term r
  end.
(** value.rs 26-115 *)
Definition sparse_value (term : tt -> bool) (n : N) (ts : list stt) : N * (sexpr * nat * option syn_message) :=
  match fold_left (sattempt term ts) (sattempts ts) (n, None) with
  | (n', Some (_, r)) => (n', r)
  | (n', None) => let tokens := suntil term ts in (N.succ n', (SEValue n' (SVTokens tokens), List.length tokens, None))
  end.

(** ** Recursion (call.rs 24-33, tuple.rs 35-45; see Parse.v) *)
Record satok := {
  s_tok : stt;
  s_args : N -> N * list sexpr;
  s_tuple : N -> N * (tuple sexpr * option syn_message + messages);
  s_pattern : tuple alias + messages;
}.
Definition stoks (l : list satok) : list stt := map s_tok l.

(** call.rs 11-43 *)
Definition sparse_call (n : N) (l : list satok) : option (N * (sexpr * nat)) :=
  match l with
  | {| s_tok := SIdent x head |} :: ({| s_tok := SGroup Paren inner _ |} as g) :: _ =>
      if ident_allowed P x && has_func x then
        let (n1, args) := s_args g n in
        Some (N.succ (N.succ n1), (SECall (N.succ n1) x head args (Some (n1, inner)), 2))
      else None
  | _ => None
  end.
(** expr.rs 9-37 *)
Definition sparse_expr_ (n : N) (l : list satok) : N * (sexpr * nat * option syn_message) :=
  match sparse_call n l with
  | Some (n', (e, k)) => (n', (e, k, None))
  | None => sparse_value is_comma n (stoks l)
  end.

(** [Punctuated::parse_terminated] (call.rs 28, tuple.rs 41, loop_source_value_list.rs 48) *)
Section Terminated.
Context {A : Type} (scope : span) (item : N -> list satok -> N * (A * nat + messages)).
Fixpoint sparse_terminated (l : list satok) (skip : option nat) (n : N) : N * (list A + messages) :=
  match l with
  | [] => (n, inl [])
  | t :: r =>
      match skip with
      | Some 0 =>
          if is_comma (erase (s_tok t)) then sparse_terminated r None n
          else (n, inr [expected_punct "," scope (stoks l)])
      | Some (S k) => sparse_terminated r (Some k) n
      | None =>
          match item n l with
          | (n1, inr e) => (n1, inr e)
          | (n1, inl (a, k)) =>
              let (n2, rest) := match k with
                                | 0 => if is_comma (erase (s_tok t)) then sparse_terminated r None n1
                                       else (n1, inr [expected_punct "," scope (stoks l)])
                                | S k' => sparse_terminated r (Some k') n1
                                end in
              (n2, match rest with inl l' => inl (a :: l') | inr e => inr e end)
          end
      end
  end.
End Terminated.

(** terminated.rs 35-69; the errors of arguments are dropped (call.rs 34). *)
Fixpoint sauntil (term : tt -> bool) (l : list satok) : list satok :=
  match l with
  | [] => []
  | t :: r => if term (erase (s_tok t)) then [] else t :: sauntil term r
  end.
Definition sparse_arg (n : N) (l : list satok) : N * (sexpr * nat + messages) :=
  let piece := sauntil is_comma l in
  match sparse_expr_ n piece with
  | (n', (e, k, u)) =>
      (n', match u, skipn k (stoks piece) with
           | Some m, _ => inr [m]
           | None, [] => inl (e, List.length piece)
           | None, t :: _ => inr [unexpected_token t]
           end)
  end.
Definition sparse_args (scope : span) (l : list satok) (n : N) : N * list sexpr :=
  match sparse_terminated scope sparse_arg l None n with
  | (n', inl args) => (n', args)
  | (n', inr _) => (n', [])
  end.

(** syn keeps the first token left unread. *)
Definition first_some {A} (a b : option A) : option A := match a with Some _ => a | None => b end.
Definition first_unexpected {A} (l : list (A * option syn_message)) : list A * option syn_message :=
  (map fst l, fold_right (fun x u => first_some (snd x) u) None l).

(** tuple.rs 48-66 *)
Definition sparse_tuple_value (n : N) (l : list satok) : N * (tuple_value sexpr * option syn_message * nat + messages) :=
  match l with
  | {| s_tok := SGroup Paren _ _ |} as g :: _ =>
      match s_tuple g n with
      | (n', inl (t, u)) => (n', inl (TVTuple t, u, 1))
      | (n', inr e) => (n', inr e)
      end
  | _ => match sparse_expr_ n l with (n', (e, k, u)) => (n', inl (TVValue e, u, k)) end
  end.
(** tuple.rs 35-45 *)
Definition sparse_tuple (scope : span) (l : list satok) (n : N) : N * (tuple sexpr * option syn_message + messages) :=
  match sparse_terminated scope sparse_tuple_value l None n with
  | (n', inl l') => (n', inl (first_unexpected l'))
  | (n', inr e) => (n', inr e)
  end.

(** tuple.rs 48-66, alias.rs *)
Definition sparse_pattern_value (scope : span) (n : N) (l : list satok) : N * (tuple_value alias * nat + messages) :=
  match l with
  | {| s_tok := SGroup Paren _ _ |} as g :: _ =>
      (n, match s_pattern g with inl t => inl (TVTuple t, 1) | inr e => inr e end)
  | {| s_tok := SIdent x _ |} :: _ =>
      (n, if ident_allowed P x then inl (TVValue x, 1) else inr [expected_ident scope (stoks l)])
  | _ => (n, inr [expected_ident scope (stoks l)])
  end.
Definition sparse_pattern (scope : span) (l : list satok) : tuple alias + messages :=
  snd (sparse_terminated scope (sparse_pattern_value scope) l None 0%N).

(** The scope inside a group is its closing delimiter. *)
Fixpoint sann (t : stt) : satok :=
  match t with
  | SGroup Paren ts s =>
      let inside := map sann ts in
      {| s_tok := t; s_args := sparse_args (ds_close s) inside; s_tuple := sparse_tuple (ds_close s) inside;
         s_pattern := sparse_pattern (ds_close s) inside |}
  | _ => {| s_tok := t; s_args := fun n => (n, []); s_tuple := fun n => (n, inr []); s_pattern := inr [] |}
  end.

(** ** Alias definitions; the scope is that of the macro's input. *)
Notation scope := call_site.

(** combined.rs 18-50 *)
Definition expected_separator (rest : list stt) : messages :=
  combine_errors "Unable to parse any of the combined tokens (see the errors below)" (place scope rest)
    [[expected_punct "," scope rest]; [expected_punct ";" scope rest]].

(** alias_spec_item.rs 7-20, expr.rs 45-58; the number of tokens after the first. *)
Definition sparse_spec_item (n : N) (l : list satok) : N * (sitem * nat * option syn_message + messages) :=
  match l with
  | {| s_tok := SIdent x _ |} :: l1 =>
      if ident_allowed P x then
        match l1 with
        | [] => (n, inr [expected_punct "=" scope []])
        | eq :: r =>
            if is_equals (erase (s_tok eq)) then
              match sparse_expr_ n r with
              | (n', (e, k, u)) =>
                  (n', if ends is_separator (map erase (stoks (skipn k r))) then inl ((x, e), S k, u)
                       else inr (expected_separator (stoks (skipn k r))))
              end
            else (n, inr [expected_punct "=" scope (stoks l1)])
        end
      else (n, inr [expected_ident scope (stoks l)])
  | _ => (n, inr [expected_ident scope (stoks l)])
  end.

Definition speek_ident (l : list satok) : bool :=
  match l with {| s_tok := SIdent x _ |} :: _ => ident_allowed P x | _ => false end.

(** alias_spec.rs 9-49: mixed separators are reported after the separator (33). *)
Fixpoint sparse_spec (l : list satok) (skip : option nat) (used : option bool) (n : N)
  : N * (list sitem * option bool * list satok * option syn_message + messages) :=
  match skip, l with
  | Some _, [] => (n, inl ([], used, [], None))
  | Some (S k), _ :: r => sparse_spec r (Some k) used n
  | Some 0, t :: r =>
      if is_separator (erase (s_tok t)) then
        let current := is_comma (erase (s_tok t)) in
        let mixed := match used with Some u => negb (Bool.eqb u current) | None => false end in
        if mixed then (n, inr [error_at scope (stoks r) mixing_sep_error])
        else if speek_ident r then sparse_spec r None (Some current) n
        else (n, inl ([], Some current, r, None))
      else (n, inr [error_at scope (stoks l) (txt "Expected "","" or "";""")])
  | None, [] => (n, inr [expected_ident scope []])
  | None, _ :: r =>
      match sparse_spec_item n l with
      | (n1, inl (item, k, u)) =>
          let (n2, rest) := sparse_spec r (Some k) used n1 in
          (n2, match rest with
               | inl (items, used', rest', u') => inl (item :: items, used', rest', first_some u u')
               | inr e => inr e
               end)
      | (n1, inr e) => (n1, inr e)
      end
  end.

(** ** Loops *)

(** loop_alias.rs 7-37, at the token ahead: what is wrong with the tuple, if there is one,
    and with the identifier. *)
Definition sparse_loop_alias (t : satok) (rest : list satok) : loop_alias + messages :=
  match s_tok t with
  | SGroup Paren _ _ =>
      match s_pattern t with
      | inl p => inl (LATuple p)
      | inr e => inr (combine_errors "Failed to parse loop alias (see errors below)" (place scope (stoks (t :: rest)))
                        [e; [expected_ident scope (stoks (t :: rest))]])
      end
  | SIdent x _ => if ident_allowed P x then inl (LASimple x) else inr [expected_ident scope (stoks (t :: rest))]
  | _ => inr [expected_ident scope (stoks (t :: rest))]
  end.

(** loop_source_value_list.rs 8-40: the errors of a tuple are dropped. *)
Definition sparse_source_value (n : N) (l : list satok) : N * (ssource_value * option syn_message * nat + messages) :=
  let as_expr n := match sparse_expr_ n l with (n', (e, k, u)) => (n', inl (SLSValue e, u, k)) end in
  match l with
  | {| s_tok := SGroup Paren _ s |} as g :: _ =>
      match s_tuple g n with
      | (n', inl (t, u)) => (n', inl (SLSTuple (ds_open s) t, u, 1))
      | (n', inr _) => as_expr n'
      end
  | _ => as_expr n
  end.
(** loop_source_value_list.rs 42-57 *)
Definition sparse_source_list (n : N) (t : satok) : N * (list ssource_value * option syn_message + messages) :=
  match s_tok t with
  | SGroup Bracket ts s =>
      match sparse_terminated (ds_close s) sparse_source_value (map sann ts) None n with
      | (n', inl l) => (n', inl (first_unexpected l))
      | (n', inr e) => (n', inr e)
      end
  | _ => (n, inr [error_at scope [s_tok t] (txt "expected square brackets")])
  end.

(** loop_spec.rs 6-21, loop_spec_item.rs 7-25 *)
Fixpoint sparse_loops (l : list satok) (n : N) : N * (list sloop_item * list satok * option syn_message + messages) :=
  match l with
  | [] => (n, inl ([], [], None))
  | f :: r0 =>
      if is_word (txt "for") (erase (s_tok f)) then
        match r0 with
        | [] => (n, inr [expected_ident scope []])
        | pat :: r1 =>
            match sparse_loop_alias pat r1 with
            | inr e => (n, inr e)
            | inl al =>
                match r1 with
                | [] => (n, inr [expected_word "in" scope []])
                | kw :: r2 =>
                    if is_word (txt "in") (erase (s_tok kw)) then
                      match r2 with
                      | [] => (n, inr [error_at scope [] (txt "expected square brackets")])
                      | src :: r =>
                          match sparse_source_list n src with
                          | (n1, inl (vals, u)) =>
                              let (n2, rest) := sparse_loops r n1 in
                              (n2, match rest with
                                   | inl (items, rest', u') =>
                                       inl ({| sl_pattern := al; sl_values := vals |} :: items, rest', first_some u u')
                                   | inr e => inr e
                                   end)
                          | (n1, inr e) => (n1, inr e)
                          end
                      end
                    else (n, inr [expected_word "in" scope (stoks r1)])
                end
            end
        end
      else (n, inl ([], l, None))
  end.

(** raw_ast.rs 11-21, compose_item_spec.rs 9-19 *)
Definition sparse_header (n : N) (l : list satok)
  : option (list sloop_item) * option salias_spec * list satok * option syn_message + messages :=
  match sparse_loops l n with
  | (_, inr e) => inr e
  | (n1, inl (loops, l1, u1)) =>
      let loops' := match loops with [] => None | _ => Some loops end in
      if speek_ident l1 then
        match snd (sparse_spec l1 None None n1) with
        | inr e => inr e
        | inl (items, used, l2, u2) => inl (loops', Some {| ss_items := items; ss_comma := used |}, l2, first_some u1 u2)
        end
      else inl (loops', None, l1, u1)
  end.

Definition suses_semicolons (spec : option salias_spec) : bool :=
  match spec with
  | Some s => match ss_comma s with Some c => negb c | None => false end
  | None => false
  end.

(** What the parser does (raw_ast.rs 10-55, compose_item_spec.rs 8-50); [inr]: the messages of the syntax error. *)
Record sparsed := { sp_scope : option bool; sp_ast : sraw_ast (list pstmt) + messages }.
Definition ssyntax_error (sc : option bool) (e : messages) : sparsed := {| sp_scope := sc; sp_ast := inr e |}.

(** raw_ast.rs 43-47 *)
Definition strailing_mixed (t : stt) (spec : option salias_spec) : bool :=
  match spec with
  | Some s => xorb (is_comma (erase t)) (match ss_comma s with Some c => c | None => false end)
  | None => false
  end.

(** The end of [syn::parse2]: a token left unread inside a group, then one left at the end. *)
Definition finish (scope_ : option bool) (u : option syn_message) (rest : list stt) (ast : sraw_ast (list pstmt)) : sparsed :=
  match u, rest with
  | Some m, _ => ssyntax_error scope_ [m]
  | None, t :: _ => ssyntax_error scope_ [unexpected_token t]
  | None, [] => {| sp_scope := scope_; sp_ast := inl ast |}
  end.

(** raw_ast.rs 10-55 *)
Definition sparse_func_macro (n : N) (ts : list stt) : sparsed :=
  match sparse_header n (map sann ts) with
  | inr e => ssyntax_error None e
  | inl (loops, spec, l, u1) =>
      match spre_block SP (stoks l) with
      | None => ssyntax_error None (block_error SP (stoks l))
      | Some (block, k, u2) =>
          let sc := Some (suses_semicolons spec) in
          let ast := {| sa_loops := loops; sa_spec := spec; sa_block := block |} in
          match skipn k (stoks l) with
          | [] => finish sc (first_some u1 u2) [] ast
          | t :: r =>
              if is_separator (erase t) then
                if strailing_mixed t spec then ssyntax_error sc [error_at scope r mixing_sep_error]
                else finish sc (first_some u1 u2) r ast
              else finish sc (first_some u1 u2) (t :: r) ast
          end
      end
  end.

(** compose_item_spec.rs 28-43 *)
Definition sskip_separator (loops : option (list sloop_item)) (spec : option salias_spec) (ts : list stt) : list stt + messages :=
  match ts with
  | t :: r =>
      if is_separator (erase t) then
        match spec, loops with
        | Some _, _ => inl r
        | None, Some _ => inr [error_at scope ts (txt "Trailing separator after loops is not allowed in #[compose_item].")]
        | None, None => inl ts
        end
      else inl ts
  | [] => inl []
  end.

(** compose_item_spec.rs 8-50 and lib.rs 43-59: the braces put around the item are at
    [call_site]. *)
Definition sparse_attr_macro (n : N) (attr item : list stt) : sparsed :=
  match sparse_header n (map sann attr) with
  | inr e => ssyntax_error None e
  | inl (loops, spec, l, u1) =>
      let sc := Some (suses_semicolons spec) in
      match sskip_separator loops spec (stoks l) with
      | inr e => ssyntax_error sc e
      | inl rest =>
          let braces := [sgroup Brace call_site item] in
          match finish sc u1 rest {| sa_loops := loops; sa_spec := spec; sa_block := [] |} with
          | {| sp_ast := inr e |} => ssyntax_error sc e
          | {| sp_ast := inl _ |} =>
              match spre_block SP braces with
              | None => ssyntax_error sc (block_error SP braces)
              | Some (block, k, u2) =>
                  finish sc u2 (if Nat.eqb k 1 then [] else braces) {| sa_loops := loops; sa_spec := spec; sa_block := block |}
              end
          end
      end
  end.
End Parse.

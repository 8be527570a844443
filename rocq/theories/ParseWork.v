(** The parsing of loops and definitions (Parse) with a count of the rounds of attempts
    ([TerminatedValue::parse], /repo/src/parse/value.rs 32-115) that it makes.  The rest is
    as in Parse, to which C79_same ties it. *)
From Coq Require Import String.
From Verif Require Import Base Token Types Values Ast Item Interpreter Parse.
Open Scope list_scope.

(** The next id and the rounds so far. *)
Definition work := (N * N)%type.

Section Work.
Context (P : parsers) (has_func : str -> bool).

(** value.rs 26-115: one round. *)
Definition wparse_value (term : tt -> bool) (w : work) (ts : list tt) : work * (expr * nat * bool) :=
  let (n, r) := parse_value P term (fst w) ts in ((n, N.succ (snd w)), r).

Record wtok := {
  w_plain : atok;
  w_args : work -> work * list expr;
  w_tuple : work -> work * option (tuple expr * bool);
}.
Definition w_tok (t : wtok) : tt := a_tok (w_plain t).
Definition wtoks (l : list wtok) : list tt := map w_tok l.

(** call.rs 11-43. *)
Definition wparse_call (w : work) (l : list wtok) : option (work * (expr * nat)) :=
  match l with
  | f :: g :: _ =>
      match w_tok f, w_tok g with
      | TIdent x, TGroup Paren inner =>
          if ident_allowed P x && has_func x then
            let '((n1, c), args) := w_args g w in
            Some ((N.succ (N.succ n1), c), (ECall (N.succ n1) x args (Some (n1, inner)), 2))
          else None
      | _, _ => None
      end
  | _ => None
  end.

(** expr.rs 9-37: the call is parsed from a copy, once; a value is not tried after it. *)
Definition wparse_expr (w : work) (l : list wtok) : work * (expr * nat * bool) :=
  match wparse_call w l with
  | Some (w', (e, k)) => (w', (e, k, false))
  | None => wparse_value is_comma w (wtoks l)
  end.

Section Terminated.
Context {A : Type} (item : work -> list wtok -> work * option (A * nat)).
(** [Punctuated::parse_terminated]. *)
Fixpoint wparse_terminated (l : list wtok) (skip : option nat) (w : work) : work * option (list A) :=
  match l with
  | [] => (w, Some [])
  | t :: r =>
      match skip with
      | Some 0 => if is_comma (w_tok t) then wparse_terminated r None w else (w, None)
      | Some (S k) => wparse_terminated r (Some k) w
      | None =>
          match item w l with
          | (w1, None) => (w1, None)
          | (w1, Some (a, k)) =>
              let (w2, rest) := match k with
                                | 0 => if is_comma (w_tok t) then wparse_terminated r None w1 else (w1, None)
                                | S k' => wparse_terminated r (Some k') w1
                                end in
              (w2, option_map (cons a) rest)
          end
      end
  end.
End Terminated.

(** terminated.rs 35-69. *)
Fixpoint wuntil (term : tt -> bool) (l : list wtok) : list wtok :=
  match l with
  | [] => []
  | t :: r => if term (w_tok t) then [] else t :: wuntil term r
  end.
Definition wparse_arg (w : work) (l : list wtok) : work * option (expr * nat) :=
  let piece := wuntil is_comma l in
  match wparse_expr w piece with
  | (w', (e, k, u)) =>
      (w', match skipn k piece with [] => if u then None else Some (e, List.length piece) | _ => None end)
  end.
(** call.rs 26-35. *)
Definition wparse_args (l : list wtok) (w : work) : work * list expr :=
  match wparse_terminated wparse_arg l None w with
  | (w', Some args) => (w', args)
  | (w', None) => (w', [])
  end.

(** tuple.rs 48-66. *)
Definition wparse_tuple_value (w : work) (l : list wtok) : work * option (tuple_value expr * bool * nat) :=
  let as_value := match wparse_expr w l with (w', (e, k, u)) => (w', Some (TVValue e, u, k)) end in
  match l with
  | g :: _ =>
      match w_tok g with
      | TGroup Paren _ =>
          match w_tuple g w with
          | (w', Some (t, u)) => (w', Some (TVTuple t, u, 1))
          | (w', None) => (w', None)
          end
      | _ => as_value
      end
  | [] => as_value
  end.
(** tuple.rs 35-45. *)
Definition wparse_tuple (l : list wtok) (w : work) : work * option (tuple expr * bool) :=
  match wparse_terminated wparse_tuple_value l None w with
  | (w', o) => (w', option_map any_unexpected o)
  end.

(** What parsing the inside of a group yields and costs. *)
Fixpoint wann (t : tt) : wtok :=
  match t with
  | TGroup Paren ts =>
      let inside := map wann ts in
      {| w_plain := ann P has_func t; w_args := wparse_args inside; w_tuple := wparse_tuple inside |}
  | _ => {| w_plain := ann P has_func t; w_args := fun w => (w, []); w_tuple := fun w => (w, None) |}
  end.

(** alias_spec_item.rs 7-20, alias_value.rs 8-16, expr.rs 45-58. *)
Definition wparse_spec_item (w : work) (l : list wtok) : work * option (spec_item * nat * bool) :=
  match l with
  | f :: eq :: r =>
      match w_tok f with
      | TIdent x =>
          if ident_allowed P x && is_equals (w_tok eq) then
            match wparse_expr w r with
            | (w', (e, k, u)) =>
                (w', if ends is_separator (wtoks (skipn k r)) then Some (x, e, S (S k), u) else None)
            end
          else (w, None)
      | _ => (w, None)
      end
  | _ => (w, None)
  end.

(** alias_spec.rs 9-49. *)
Fixpoint wparse_spec (l : list wtok) (skip : option nat) (used : option bool) (w : work)
  : work * option (list spec_item * option bool * list wtok * bool) :=
  match skip, l with
  | Some _, [] => (w, Some ([], used, [], false))
  | Some (S k), _ :: r => wparse_spec r (Some k) used w
  | Some 0, t :: r =>
      if is_separator (w_tok t) then
        let current := is_comma (w_tok t) in
        let mixed := match used with Some u => negb (Bool.eqb u current) | None => false end in
        if mixed then (w, None)
        else if peek_ident P (map w_plain r) then wparse_spec r None (Some current) w
        else (w, Some ([], Some current, r, false))
      else (w, None)
  | None, [] => (w, None)
  | None, _ :: r =>
      match wparse_spec_item w l with
      | (w1, Some (item, S k, u)) =>
          let (w2, rest) := wparse_spec r (Some k) used w1 in
          (w2, option_map (fun '(items, used', rest', u') => (item :: items, used', rest', u || u')) rest)
      | (w1, _) => (w1, None)
      end
  end.

(** loop_source_value_list.rs 8-57: a tuple, and after it has failed an expression. *)
Definition wparse_source_value (w : work) (l : list wtok) : work * option (loop_source_value * bool * nat) :=
  let as_expr w := match wparse_expr w l with (w', (e, k, u)) => (w', Some (LSValue e, u, k)) end in
  match l with
  | g :: _ =>
      match w_tok g with
      | TGroup Paren _ =>
          match w_tuple g w with
          | (w', Some (t, u)) => (w', Some (LSTuple t, u, 1))
          | (w', None) => as_expr w'
          end
      | _ => as_expr w
      end
  | [] => as_expr w
  end.
Definition wparse_source_list (w : work) (t : wtok) : work * option (list loop_source_value * bool) :=
  match w_tok t with
  | TGroup Bracket ts =>
      match wparse_terminated wparse_source_value (map wann ts) None w with
      | (w', o) => (w', option_map any_unexpected o)
      end
  | _ => (w, None)
  end.

(** loop_spec.rs 6-21, loop_spec_item.rs 7-25. *)
Fixpoint wparse_loops (l : list wtok) (w : work) : work * option (list loop_item * list wtok * bool) :=
  match l with
  | [] => (w, Some ([], [], false))
  | f :: r0 =>
      if is_word (txt "for") (w_tok f) then
        match r0 with
        | pat :: kw :: src :: r =>
            match parse_loop_alias P (w_plain pat) with
            | Some al =>
                if is_word (txt "in") (w_tok kw) then
                  match wparse_source_list w src with
                  | (w1, Some (vals, u)) =>
                      let (w2, rest) := wparse_loops r w1 in
                      (w2, option_map (fun '(items, rest', u') =>
                             ({| loop_pattern := al; loop_values := vals |} :: items, rest', u || u')) rest)
                  | (w1, None) => (w1, None)
                  end
                else (w, None)
            | None => (w, None)
            end
        | _ => (w, None)
        end
      else (w, Some ([], l, false))
  end.

(** raw_ast.rs 11-21, compose_item_spec.rs 9-19. *)
Definition wparse_header (w : work) (l : list wtok)
  : work * option (option (list loop_item) * option alias_spec * list wtok * bool) :=
  match wparse_loops l w with
  | (w1, None) => (w1, None)
  | (w1, Some (loops, l1, u1)) =>
      let loops' := match loops with [] => None | _ => Some loops end in
      if peek_ident P (map w_plain l1) then
        match wparse_spec l1 None None w1 with
        | (w2, None) => (w2, None)
        | (w2, Some (items, used, l2, u2)) =>
            (w2, Some (loops', Some {| spec_items := items; is_comma_used := used |}, l2, u1 || u2))
        end
      else (w1, Some (loops', None, l1, u1))
  end.

(** The rounds made on the arguments of a macro. *)
Definition parse_rounds (ts : list tt) : N := snd (fst (wparse_header (0%N, 0%N) (map wann ts))).
End Work.

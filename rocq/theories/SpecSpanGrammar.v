(** What the definitions and loops hold, and with which spans, read off the tokens of the
    input.  The shape of the input is in SpecGrammar; this is where its parts come from. *)
From Coq Require Import String.
From Verif Require Import Base Token Types Values Ast Item Parse SpecParse SpecRepro SpanTokens SpanWalker SpanValues SpanEval SpanItem SpanParse.
Open Scope list_scope.

Definition comma (t : stt) : Prop := exists j s, t = SPunct 44%N j s.
Definition separator (c : bool) (t : stt) : Prop := exists j s, t = SPunct (if c then 44%N else 59%N) j s.

(** [a, b, c] or [a, b, c,]; [here ts x k]: [x] is written in the first [k] of [ts]. *)
Inductive separated {A} (here : list stt -> A -> nat -> Prop) : list stt -> list A -> Prop :=
| separated_none : separated here [] []
| separated_last : forall ts x k, ts <> [] -> here ts x k -> skipn k ts = [] -> separated here ts [x]
| separated_more : forall ts x k c r xs, here ts x k -> skipn k ts = c :: r -> comma c -> separated here r xs ->
    separated here ts (x :: xs).

Section Written.
Context (P : parsers) (SP : sparsers) (has_func : str -> bool).

(** A value: an identifier or [_] with the span of its token, or what a parser of syn makes of
    the tokens that lie ahead, or the tokens up to the comma. *)
Inductive value_written : list stt -> svalue -> nat -> Prop :=
| ident_written : forall x s r, ident_allowed P x = true -> value_written (SIdent x s :: r) (SVIdent x s) 1
| underscore_written : forall s r, value_written (SIdent (txt "_") s :: r) (SVIdent (txt "_") s) 1
| underscore_punct_written : forall j s r, value_written (SPunct 95%N j s :: r) (SVIdent (txt "_") s) 1
| int_written : forall ts d r s k, spre_lit_int SP ts = Some (d, r, s, k) -> value_written ts (SVLitInt d r s) k
| str_written : forall ts v p s k, spre_lit_str SP ts = Some (v, p, s, k) -> value_written ts (SVLitStr v p s) k
| path_written : forall ts n k, spre_path SP ts = Some (n, k, None) -> value_written ts (SVPath n) k
| type_written : forall ts n k, spre_type SP ts = Some (n, k, None) -> value_written ts (SVType n) k
| expr_written : forall ts n k, spre_expr SP ts = Some (n, k, None) -> value_written ts (SVExpr n) k
| tokens_written : forall ts a b, ts = a ++ b -> Forall (fun t => ~ comma t) a ->
    value_written ts (SVTokens a) (List.length a).
(** Nothing or a comma follows a value. *)
Definition comma_follows (ts : list stt) (k : nat) : Prop :=
  skipn k ts = [] \/ exists t r, skipn k ts = t :: r /\ comma t.

(** A call has the span of the name of the function and keeps the tokens in the parentheses. *)
Inductive written : list stt -> sexpr -> nat -> Prop :=
| value_is_written : forall id ts v k, value_written ts v k -> comma_follows ts k -> written ts (SEValue id v) k
| call_is_written : forall id rid x s inner gs r args, ident_allowed P x = true -> has_func x = true ->
    (* arguments that cannot be read are dropped *)
    args = [] \/
    separated (fun ts e k => Forall (fun t => ~ comma t) (firstn k ts) /\ exists j, written (firstn k ts) e j /\ skipn j (firstn k ts) = [])
      inner args ->
    written (SIdent x s :: SGroup Paren inner gs :: r) (SECall id x s args (Some (rid, inner))) 2.

(** Tuples are written in parentheses, each expression where it stands; the span of a tuple
    is that of the opening parenthesis. *)
Inductive element_written : list stt -> tuple_value sexpr -> nat -> Prop :=
| expression_element : forall ts e k, written ts e k -> element_written ts (TVValue e) k
| tuple_element : forall inner s r t, separated element_written inner t ->
    element_written (SGroup Paren inner s :: r) (TVTuple t) 1.
Inductive source_written : list stt -> ssource_value -> nat -> Prop :=
| expression_source : forall ts e k, written ts e k -> source_written ts (SLSValue e) k
| tuple_source : forall inner s r t, separated element_written inner t ->
    source_written (SGroup Paren inner s :: r) (SLSTuple (ds_open s) t) 1.
Inductive pattern_written : list stt -> tuple_value alias -> nat -> Prop :=
| name_pattern : forall x s r, ident_allowed P x = true -> pattern_written (SIdent x s :: r) (TVValue x) 1
| tuple_pattern : forall inner s r t, separated pattern_written inner t ->
    pattern_written (SGroup Paren inner s :: r) (TVTuple t) 1.
Inductive loop_alias_written : stt -> loop_alias -> Prop :=
| loop_name_written : forall x s, ident_allowed P x = true -> loop_alias_written (SIdent x s) (LASimple x)
| loop_tuple_written : forall inner s t, separated pattern_written inner t ->
    loop_alias_written (SGroup Paren inner s) (LATuple t).

(** [for p in [values]]; the tokens left are those after the loops. *)
Inductive loops_written : list stt -> list sloop_item -> list stt -> Prop :=
| no_loops_written : forall ts, (forall s r, ts <> SIdent (txt "for") s :: r) -> loops_written ts [] ts
| loop_written : forall s1 pat al s2 inner gs vs r ls rest, loop_alias_written pat al -> separated source_written inner vs ->
    loops_written r ls rest ->
    loops_written (SIdent (txt "for") s1 :: pat :: SIdent (txt "in") s2 :: SGroup Bracket inner gs :: r)
      ({| sl_pattern := al; sl_values := vs |} :: ls) rest.

(** [x = e]: the definitions with what separates them, all by commas or all by semicolons. *)
Definition name_ahead (ts : list stt) : Prop := exists x s r, ts = SIdent x s :: r /\ ident_allowed P x = true.
Inductive definitions_written (c : bool) : list stt -> list sitem -> option bool -> list stt -> Prop :=
| last_written : forall x s j es ts e k, ident_allowed P x = true -> written ts e k -> skipn k ts = [] ->
    definitions_written c (SIdent x s :: SPunct 61%N j es :: ts) [(x, e)] None []
| last_written_separator : forall x s j es ts e k sep r, ident_allowed P x = true -> written ts e k ->
    skipn k ts = sep :: r -> separator c sep -> ~ name_ahead r ->
    definitions_written c (SIdent x s :: SPunct 61%N j es :: ts) [(x, e)] (Some c) r
| more_written : forall x s j es ts e k sep r items used rest, ident_allowed P x = true -> written ts e k ->
    skipn k ts = sep :: r -> separator c sep -> name_ahead r -> definitions_written c r items used rest ->
    definitions_written c (SIdent x s :: SPunct 61%N j es :: ts) ((x, e) :: items) (Some c) rest.

Definition header_written (ts : list stt) (loops : option (list sloop_item)) (spec : option salias_spec) (rest : list stt) : Prop :=
  exists ls ts1, loops_written ts ls ts1 /\ loops = match ls with [] => None | _ => Some ls end /\
    match spec with
    | None => rest = ts1 /\ ~ name_ahead ts1
    | Some sp => exists c, definitions_written c ts1 (ss_items sp) (ss_comma sp) rest
    end.
(** The block is what syn makes of the tokens after the definitions. *)
Definition function_written (ts : list stt) (a : sraw_ast (list pstmt)) : Prop :=
  exists rest k, header_written ts (sa_loops a) (sa_spec a) rest /\ spre_block SP rest = Some (sa_block a, k, None) /\
    (skipn k rest = [] \/
     exists sep c, skipn k rest = [sep] /\ separator c sep /\ forall sp, sa_spec a = Some sp -> ss_comma sp = Some c).
(** The block of [#[compose_item]] is the item in braces, which have the span of the
    attribute. *)
Definition attribute_written (ts item : list stt) (a : sraw_ast (list pstmt)) : Prop :=
  exists rest, header_written ts (sa_loops a) (sa_spec a) rest /\
    spre_block SP [SGroup Brace item (single call_site)] = Some (sa_block a, 1, None) /\
    (rest = [] \/ exists sep c, rest = [sep] /\ separator c sep /\ sa_spec a <> None).
End Written.

(** What was read, without ids. *)
Fixpoint unnumbered (e : sexpr) : sexpr :=
  match e with
  | SEValue _ v => SEValue 0%N v
  | SECall _ f s args raw => SECall 0%N f s (map unnumbered args) (option_map (fun r => (0%N, snd r)) raw)
  end.
Definition unnumbered_source (v : ssource_value) : ssource_value :=
  match v with SLSValue e => SLSValue (unnumbered e) | SLSTuple s t => SLSTuple s (map_tuple unnumbered t) end.
Definition unnumbered_ast (a : sraw_ast (list pstmt)) : sraw_ast (list pstmt) :=
  {| sa_loops := option_map (map (fun l => {| sl_pattern := sl_pattern l; sl_values := map unnumbered_source (sl_values l) |})) (sa_loops a);
     sa_spec := option_map (fun s => {| ss_items := map (fun i => (fst i, unnumbered (snd i))) (ss_items s); ss_comma := ss_comma s |}) (sa_spec a);
     sa_block := sa_block a |}.

(** C90: moving the uses of the macros where there are invisible groups; and one use among
    others (C89). *)
From Coq Require Import String.
From Verif Require Import Base Token Types Values Ast Item Interpreter Parse Macro RustLexer RustInstance SpecInvisible InvisibleInstance
  SpanTokens SpanValues SpanInstance SpanParse SpanMacro SpanDress SpanRust SpanInvisible SpanInvisibleMacro SpanInvisibleInstance
  SpecSpanShift SpanShiftMacro SpanShiftInstance SpanShiftThroughMacro.
Open Scope list_scope.

(** ** C90: spans are handed on and never looked at, those of invisible groups included *)
(** C90: if the spans of every use are replaced by others, each use in its own way, the
    outcomes are the same with the spans replaced in the same way. *)
Theorem C90_moved : forall O SO P SP SY l, Forall (fun p => moving (fst p) SO SP SY) l ->
  sexpand_uses_through O SO P SP SY (map (fun p => shift_use (fst p) (snd p)) l) =
  map (fun p => shift_output (fst p) (snd p)) (combine (map fst l) (sexpand_uses_through O SO P SP SY (map snd l))).
Proof. exact uses_through_shift. Qed.
Print Assumptions C90_moved.

(** C90: so are the tokens that the compiler is given. *)
Theorem C90_emitted : forall O SO P SP SY l, Forall (fun p => moving (fst p) SO SP SY) l ->
  map emitted (sexpand_uses_through O SO P SP SY (map (fun p => shift_use (fst p) (snd p)) l)) =
  map (fun p => option_map (shift (fst p)) (emitted (snd p))) (combine (map fst l) (sexpand_uses_through O SO P SP SY (map snd l))).
Proof. exact uses_through_emitted_shift. Qed.
Print Assumptions C90_emitted.

(** C90: and the messages: the same texts, at the places moved. *)
Theorem C90_said : forall O SO P SP SY l, Forall (fun p => moving (fst p) SO SP SY) l ->
  map said (sexpand_uses_through O SO P SP SY (map (fun p => shift_use (fst p) (snd p)) l)) =
  map (fun p => shift_messages (fst p) (said (snd p))) (combine (map fst l) (sexpand_uses_through O SO P SP SY (map snd l))).
Proof. exact uses_through_said_shift. Qed.
Print Assumptions C90_said.

(** C90: there is one outcome per use, so none is lost when pairing them above. *)
Theorem C90_one_outcome_each : forall O SO P SP SY uses, List.length (sexpand_uses_through O SO P SP SY uses) = List.length uses.
Proof. exact uses_through_counted. Qed.
Print Assumptions C90_one_outcome_each.

(** C90: if one use among others is moved, its outcome is moved and those of the others stay
    as they are. *)
Theorem C90_among_others : forall g O SO P SP SY, moving g SO SP SY -> forall before u after, exists os o os',
  sexpand_uses_through O SO P SP SY (before ++ u :: after) = os ++ o :: os' /\
  sexpand_uses_through O SO P SP SY (before ++ shift_use g u :: after) = os ++ shift_output g o :: os' /\
  List.length os = List.length before.
Proof. exact use_through_among. Qed.
Print Assumptions C90_among_others.

(** C89: the same of input without invisible groups. *)
Theorem C89_among_others : forall g O SO SP SY, moving g SO SP SY -> forall P before u after, exists os o os',
  sexpand_uses O SO P SP SY (before ++ u :: after) = os ++ o :: os' /\
  sexpand_uses O SO P SP SY (before ++ shift_use g u :: after) = os ++ shift_output g o :: os' /\
  List.length os = List.length before.
Proof. exact use_among. Qed.
Print Assumptions C89_among_others.

(** ** Parsers that read through invisible groups *)
(** C90: made of any parsers with spans, they can be moved in the same ways. *)
Theorem C90_any_parsers : forall g SO SP SY, moving g SO SP SY -> moving g SO (sreading_through SP) SY.
Proof. exact reading_moves. Qed.
Print Assumptions C90_any_parsers.

(** C90: text further down comes to the same, further down. *)
Theorem C90_further_down : forall O P Y seed first_id next_id d n ts, n <> 0%N ->
  let outcome s := sexpand_uses_through O (dressed O) (reading_through P) (sreading_through (dressed_parsers P)) (dressed_syntax Y)
    [{| su_source := s; su_seed := seed; su_first_id := first_id; su_next_id := next_id |}] in
  outcome (SCompose (numbered_all ts (n + d))) = map (shift_output (later d)) (outcome (SCompose (numbered_all ts n))).
Proof. exact compose_through_later. Qed.
Print Assumptions C90_further_down.

(** C90: the same of the attribute macro. *)
Theorem C90_item_further_down : forall O P Y seed first_id next_id d n m attr item, n <> 0%N -> m <> 0%N ->
  let outcome s := sexpand_uses_through O (dressed O) (reading_through P) (sreading_through (dressed_parsers P)) (dressed_syntax Y)
    [{| su_source := s; su_seed := seed; su_first_id := first_id; su_next_id := next_id |}] in
  outcome (SComposeItem (numbered_all attr (n + d)) (numbered_all item (m + d))) =
  map (shift_output (later d)) (outcome (SComposeItem (numbered_all attr n) (numbered_all item m))).
Proof. exact compose_item_through_later. Qed.
Print Assumptions C90_item_further_down.

(** ** Cases *)
(** [a = concat(«x», ««y»»), { fn «a»() {} }] at 1 and at 1001, and [a «x», {}], whose error is
    at the opening of the invisible group. *)
Example C90_example :
  let code := lex "a = concat" ++ [TGroup Paren ([h "x"] ++ lex "," ++ [hidden [h "y"]])] ++ lex "," ++ [TGroup Brace (lex "fn" ++ [h "a"] ++ lex "() {}")] in
  let wrong := lex "a" ++ [h "x"] ++ lex ", { }" in
  let at_ n ts := placed_through (SCompose (numbered_all ts n)) in
  source_visible (erase_source (SCompose (numbered_all code 1))) = false /\
  at_ 1%N code = [SCode [SIdent (txt "fn") 21%N; SIdent (txt "xy") 3%N; SGroup Paren [] (single 28%N); SGroup Brace [] (single 31%N)]] /\
  at_ 1001%N code = [SCode [SIdent (txt "fn") 1021%N; SIdent (txt "xy") 1003%N; SGroup Paren [] (single 1028%N); SGroup Brace [] (single 1031%N)]] /\
  shown (at_ 1%N wrong) = [(txt "expected `=`", 2%N)] /\ shown (at_ 1001%N wrong) = [(txt "expected `=`", 1002%N)].
Proof. repeat split; vm_compute; reflexivity. Qed.
(** Two uses of which the second is moved: by [later] and by making all its spans one. *)
Example C90_one_of_two :
  let use ts := {| su_source := SCompose (numbered_all ts 1); su_seed := 1; su_first_id := 100; su_next_id := 1000 |} in
  let first := use (lex "a =" ++ [h "x"] ++ lex ", { fn a() {} }") in
  let second := use (lex "for (a, b) in" ++ [TGroup Bracket [h "c"]] ++ lex "{ fn a() {} }") in
  let one s := if N.eqb s call_site then call_site else 7%N in
  let run := sexpand_uses_through rust (dressed rust) (reading_through rust_parsers) (sreading_through (dressed_parsers rust_parsers)) (dressed_syntax rust_syntax) in
  moving one (dressed rust) (sreading_through (dressed_parsers rust_parsers)) (dressed_syntax rust_syntax) /\
  map emitted (firstn 1 (run [first; shift_use one second])) = map emitted (firstn 1 (run [first; second])) /\
  map (fun o => shown [o]) (run [first; second]) = [[]; [(txt "TypeError: Mismatched alias and value types", 11%N)]] /\
  map (fun o => shown [o]) (run [first; shift_use one second]) = [[]; [(txt "TypeError: Mismatched alias and value types", 7%N)]].
Proof.
  intros use first second one run. split; [apply reading_moves, dressed_moves; reflexivity|]. repeat split; vm_compute; reflexivity.
Qed.

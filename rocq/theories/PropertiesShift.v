(** C89: moving the uses of the macros moves what they come to. *)
From Coq Require Import String.
From Verif Require Import Base Token Types Values Ast Item Interpreter Parse Macro RustLexer RustInstance
  SpanTokens SpanValues SpanInstance SpanParse SpanMacro SpanDress SpanRust SpecSpanShift SpanShiftMacro SpanShiftInstance.
Open Scope list_scope.

(** ** C89: spans are handed on and never looked at *)
(** C89: if the spans of every use are replaced by others, each use in its own way, the
    outcomes are the same with the spans replaced in the same way: code, messages and
    errors. Different spans may become the same one. *)
Theorem C89_moved : forall O SO P SP SY l, Forall (fun p => moving (fst p) SO SP SY) l ->
  sexpand_uses O SO P SP SY (map (fun p => shift_use (fst p) (snd p)) l) =
  map (fun p => shift_output (fst p) (snd p)) (combine (map fst l) (sexpand_uses O SO P SP SY (map snd l))).
Proof. exact uses_shift. Qed.
Print Assumptions C89_moved.

(** C89: so are the tokens that the compiler is given. *)
Theorem C89_emitted : forall O SO P SP SY l, Forall (fun p => moving (fst p) SO SP SY) l ->
  map emitted (sexpand_uses O SO P SP SY (map (fun p => shift_use (fst p) (snd p)) l)) =
  map (fun p => option_map (shift (fst p)) (emitted (snd p))) (combine (map fst l) (sexpand_uses O SO P SP SY (map snd l))).
Proof. exact uses_emitted_shift. Qed.
Print Assumptions C89_emitted.

(** C89: and the messages: the same texts, at the places moved. *)
Theorem C89_said : forall O SO P SP SY l, Forall (fun p => moving (fst p) SO SP SY) l ->
  map said (sexpand_uses O SO P SP SY (map (fun p => shift_use (fst p) (snd p)) l)) =
  map (fun p => shift_messages (fst p) (said (snd p))) (combine (map fst l) (sexpand_uses O SO P SP SY (map snd l))).
Proof. exact uses_said_shift. Qed.
Print Assumptions C89_said.

(** C89: there is one outcome per use, so none is lost when pairing them above. *)
Theorem C89_one_outcome_each : forall O SO P SP SY uses, List.length (sexpand_uses O SO P SP SY uses) = List.length uses.
Proof. exact uses_counted. Qed.
Print Assumptions C89_one_outcome_each.

(** ** Parsers made from parsers without spans *)
(** C89: for these, every way of moving spans that leaves [call_site] alone will do. *)
Theorem C89_any_parsers : forall g, g call_site = call_site ->
  forall O P Y, moving g (dressed O) (dressed_parsers P) (dressed_syntax Y).
Proof. exact dressed_moves. Qed.
Print Assumptions C89_any_parsers.

(** C89: text further down comes to the same, further down. *)
Theorem C89_further_down : forall O P Y seed first_id next_id d n ts, n <> 0%N ->
  let outcome s := sexpand_uses O (dressed O) P (dressed_parsers P) (dressed_syntax Y)
    [{| su_source := s; su_seed := seed; su_first_id := first_id; su_next_id := next_id |}] in
  outcome (SCompose (numbered_all ts (n + d))) = map (shift_output (later d)) (outcome (SCompose (numbered_all ts n))).
Proof. exact compose_later. Qed.
Print Assumptions C89_further_down.

(** C89: the same of the attribute macro. *)
Theorem C89_item_further_down : forall O P Y seed first_id next_id d n m attr item, n <> 0%N -> m <> 0%N ->
  let outcome s := sexpand_uses O (dressed O) P (dressed_parsers P) (dressed_syntax Y)
    [{| su_source := s; su_seed := seed; su_first_id := first_id; su_next_id := next_id |}] in
  outcome (SComposeItem (numbered_all attr (n + d)) (numbered_all item (m + d))) =
  map (shift_output (later d)) (outcome (SComposeItem (numbered_all attr n) (numbered_all item m))).
Proof. exact compose_item_later. Qed.
Print Assumptions C89_item_further_down.

(** ** Cases *)
(** Two uses, the first moved by 500 and all spans of the second made one: code and a type
    error, which are not the same before and after. *)
Example C89_example :
  let use x := {| su_source := SCompose (numbered_text 1 x); su_seed := 1; su_first_id := 100; su_next_id := 1000 |} in
  let one s := if N.eqb s call_site then call_site else 7%N in
  let l := [(later 500, use "a = concat(x, y), { fn a() { 1 } }"%string); (one, use "for (a, b) in [c] { fn a() {} }"%string)] in
  let run := sexpand_uses rust (dressed rust) rust_parsers (dressed_parsers rust_parsers) (dressed_syntax rust_syntax) in
  Forall (fun p => moving (fst p) (dressed rust) (dressed_parsers rust_parsers) (dressed_syntax rust_syntax)) l /\
  map emitted (run (map snd l)) <> map emitted (run (map (fun p => shift_use (fst p) (snd p)) l)) /\
  shown (run (map snd l)) = [(txt "TypeError: Mismatched alias and value types", 10%N)] /\
  shown (run (map (fun p => shift_use (fst p) (snd p)) l)) = [(txt "TypeError: Mismatched alias and value types", 7%N)] /\
  map emitted (firstn 1 (run (map (fun p => shift_use (fst p) (snd p)) l))) =
    map (option_map (shift (later 500))) (map emitted (firstn 1 (run (map snd l)))).
Proof.
  intros use one l run. split; [|split; [vm_compute; discriminate|]].
  - apply Forall_cons; [apply dressed_moves; reflexivity|]. apply Forall_cons; [apply dressed_moves; reflexivity|apply Forall_nil].
  - repeat split; vm_compute; reflexivity.
Qed.
(** Syntax errors 1000 further down: one at a token moves with it, one at the end of the input
    is at [call_site] and stays. *)
Example C89_syntax_error :
  let item n := shown (placed (SComposeItem (numbered_text n "for name in [foo, bar],") (numbered_text (n + 99) "fn name() {}"))) in
  let mixed n := shown (placed (SCompose (numbered_text n "a = upper(x), b = y; { fn a() {} }"))) in
  item 1%N = [(txt "Trailing separator after loops is not allowed in #[compose_item].", 10%N)] /\
  item 1001%N = [(txt "Trailing separator after loops is not allowed in #[compose_item].", 1010%N)] /\
  map snd (mixed 1%N) = [call_site] /\ mixed 1001%N = mixed 1%N.
Proof. repeat split; vm_compute; reflexivity. Qed.

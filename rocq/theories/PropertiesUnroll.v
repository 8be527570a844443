(** C55: loops are unrolled.  [rounds] is in SpecMacro, [round_ast], [in_sequence],
    [loop_text], [loop_values_in] and [use_text] in SpecUnroll, [loops_text], [written_rounds],
    [round_text], [plain_loops] and [used_with] in SpecUnrollAll. *)
From Coq Require Import String.
From Verif Require Import Base Token Types Values Ast Env Item Deprecation Interpreter Parse Macro
  SpecMacro SpecParse SpecDeprecation SpecForms SpecUnroll SpecUnrollAll UnrollProofs UnrollAllProofs Concrete ConcreteSpecs ConcreteRuns ConcreteParse ConcreteForms.
Open Scope list_scope.

(** The rounds of an input are inputs without loops, executed one after the other; the first
    that fails is reported; nothing is executed when a pattern does not match. *)
Theorem C55_rounds : forall O Y env t ast,
  execute O Y env t ast =
  match all_some (rounds ast) with
  | Some rs => in_sequence (map (fun items => execute O Y env t (round_ast (ast_block ast) items)) rs)
  | None => Err TypeError
  end.
Proof. exact execute_rounds. Qed.
Print Assumptions C55_rounds.

(** [for x in [v1, v2, ..] rest] yields what [x = v1, rest], [x = v2, rest], .. yield one
    after the other, wherever they stand. *)
Theorem C55_source : forall O P Y uses i u us x vs rest ast, within P ->
  ident_allowed P x = true -> ident_allowed P (txt "for") = false -> not_for rest -> unterminated rest ->
  loop_values_in P (known O) rest vs ->
  nth_error uses i = Some u -> use_text (loop_text x vs ++ rest) u ->
  p_ast (inv_parsed (invocation_for O P u)) = Ok (Some ast) -> raised (invocation_for O P u) = [] ->
  Forall2 (fun v u' => use_text (definition_text (x, v) ++ comma :: rest) u' /\ u_seed u' = u_seed u) vs us ->
  nth_error (expand_uses O P Y uses) i = Some (outputs_in_sequence (expand_uses O P Y us)).
Proof. exact (fun O P Y uses i u us x vs rest ast Hw => uses_unrolled O P Y Hw uses i u us x vs rest ast). Qed.
Print Assumptions C55_source.

(** [for x in [p, concat(q, 1)] a = concat(x, y), { fn a() {} }]. *)
Example C55_example :
  let vs := [[i "p"]; [i "concat"; paren [i "q"; p1 ","; li "1"]]] in
  let rest := [i "a"; p1 "="; i "concat"; paren [i "x"; p1 ","; i "y"]; comma; brace (fn_named "a")] in
  let u := use_of (Compose (loop_text (txt "x") vs ++ rest)) in
  let us := map (fun v => use_of (ComposeIdents (definition_text (txt "x", v) ++ comma :: rest))) vs in
  within ascii_parsers /\ ident_allowed ascii_parsers (txt "x") = true /\ ident_allowed ascii_parsers (txt "for") = false /\
  not_for rest /\ unterminated rest /\ loop_values_in ascii_parsers (known ascii) rest vs /\
  (exists ast, p_ast (inv_parsed (invocation_for ascii ascii_parsers u)) = Ok (Some ast)) /\ raised (invocation_for ascii ascii_parsers u) = [] /\
  expand_uses ascii ascii_parsers syntax0 us = [Code (fn_named "py"); Code (fn_named "q1y")] /\
  expand_uses ascii ascii_parsers syntax0 [u] = [Code (fn_named "py" ++ fn_named "q1y")].
Proof.
  intros vs rest u us. split; [exact ascii_within|]. split; [reflexivity|]. split; [reflexivity|]. split; [reflexivity|]. split.
  { intros a t E. change rest with (removelast rest ++ [brace (fn_named "a")]) in E. apply app_inj_tail in E as (_ & <-). reflexivity. }
  split; [|split; [eexists; vm_compute; reflexivity|split; [reflexivity|split; vm_compute; reflexivity]]].
  assert (V1 : one_value ascii_parsers (known ascii) [i "p"]).
  { split; [discriminate|]. split; [intros ts r H; discriminate H|]. intros n. do 2 eexists. cbv -[N.add]. reflexivity. }
  assert (V2 : one_value ascii_parsers (known ascii) [i "concat"; paren [i "q"; p1 ","; li "1"]]).
  { split; [discriminate|]. split; [intros ts r H; discriminate H|]. intros n. do 2 eexists. cbv -[N.add]. reflexivity. }
  assert (I : forall v tail, In v vs -> tail = rest \/ tail = nth 1 vs [] -> ignores ascii_parsers v tail).
  { intros v tail [<-|[<-|[]]] [-> | ->]; vm_compute; auto. }
  split; [exact V1|]. split; [apply I; cbn; auto|]. split; [right; apply I; cbn; auto|].
  split; [exact V2|]. split; [apply I; cbn; auto|]. split; [left; reflexivity|constructor].
Qed.

(** Not for a loop in front of another: its alias would no longer be visible in the values
    of that one.  [for x in [p] for y in [concat(x, q)] { fn y() {} }] and
    [for y in [concat(x, q)] x = p, { fn y() {} }]. *)
Theorem C55_outer_refuted : exists x v inner block,
  let uses := map use_of [Compose (loop_text x [v] ++ inner ++ block); Compose (inner ++ definition_text (x, v) ++ comma :: block)] in
  expand_uses ascii ascii_parsers syntax0 uses = [Code (fn_named "pq"); Code (fn_named "xq")].
Proof.
  exists (txt "x"), [i "p"], (loop_text (txt "y") [[i "concat"; paren [i "x"; p1 ","; i "q"]]]), [brace (fn_named "y")].
  vm_compute. reflexivity.
Qed.
Print Assumptions C55_outer_refuted.

(** Nor for a loop behind another: the code would be in another order. *)
Theorem C55_inner_refuted : exists outer x v w block,
  let uses := map use_of [Compose (outer ++ loop_text x [v; w] ++ block);
                          Compose (outer ++ definition_text (x, v) ++ comma :: block);
                          Compose (outer ++ definition_text (x, w) ++ comma :: block)] in
  let os := expand_uses ascii ascii_parsers syntax0 uses in
  Forall (fun o => exists ts, o = Code ts) os /\ hd (Code []) os <> outputs_in_sequence (tl os).
Proof.
  exists (loop_text (txt "x") [[i "p"]; [i "q"]]), (txt "y"), [i "r"], [i "s"], [brace (i "fn" :: i "f" :: paren [i "x"; p1 ":"; i "y"] :: [brace []])].
  vm_compute. split; [repeat constructor; eexists; reflexivity|discriminate].
Qed.
Print Assumptions C55_inner_refuted.

(** But all the loops of an input at once, with any patterns, in either macro: the input
    yields what its rounds, [x = v, y = w, .. rest], yield one after the other. *)
Theorem C55_loops : forall O P Y item uses i u us ls rest ast rs, within P ->
  ls <> [] -> plain_loops P (known O) ls -> ident_allowed P (txt "for") = false -> not_for rest -> (item = None -> unterminated rest) ->
  nth_error uses i = Some u -> used_with item (loops_text ls ++ rest) u ->
  p_ast (inv_parsed (invocation_for O P u)) = Ok (Some ast) -> raised (invocation_for O P u) = [] ->
  all_some (written_rounds ls) = Some rs ->
  Forall2 (fun ds u' => used_with item (round_text ds rest) u' /\ u_seed u' = u_seed u) rs us ->
  nth_error (expand_uses O P Y uses) i = Some (outputs_in_sequence (expand_uses O P Y us)).
Proof. exact (fun O P Y item uses i u us ls rest ast rs Hw => all_unrolled O P Y Hw item uses i u us ls rest ast rs). Qed.
Print Assumptions C55_loops.

(** If a pattern does not match a value, there are no rounds. *)
Theorem C55_loops_misfit : forall O P Y item uses i u ls rest ast, within P ->
  ls <> [] -> plain_loops P (known O) ls -> ident_allowed P (txt "for") = false -> not_for rest -> (item = None -> unterminated rest) ->
  nth_error uses i = Some u -> used_with item (loops_text ls ++ rest) u ->
  p_ast (inv_parsed (invocation_for O P u)) = Ok (Some ast) -> raised (invocation_for O P u) = [] ->
  all_some (written_rounds ls) = None -> nth_error (expand_uses O P Y uses) i = Some (CompileError TypeError).
Proof. exact (fun O P Y item uses i u ls rest ast Hw => none_unrolled O P Y Hw item uses i u ls rest ast). Qed.
Print Assumptions C55_loops_misfit.

(** [for (x, (y, z)) in [(p, (q, r)), (s, (t, lower(V)))] for w in [1, 2] a = concat(x, y, z, w), { fn a() {} }],
    the same on an item, and with [(s, t)] for the second value. *)
Example C55_loops_example :
  let pat := LATuple [TVValue (txt "x"); TVTuple [TVValue (txt "y"); TVValue (txt "z")]] in
  let one := WTuple [TVValue [i "p"]; TVTuple [TVValue [i "q"]; TVValue [i "r"]]] in
  let two := WTuple [TVValue [i "s"]; TVTuple [TVValue [i "t"]; TVValue [i "lower"; paren [i "V"]]]] in
  let num := (LASimple (txt "w"), [WValue [li "1"]; WValue [li "2"]]) in
  let ls := [(pat, [one; two]); num] in
  let bad := [(pat, [one; WTuple [TVValue [i "s"]; TVValue [i "t"]]]); num] in
  let defs := [i "a"; p1 "="; i "concat"; paren [i "x"; p1 ","; i "y"; p1 ","; i "z"; p1 ","; i "w"]] in
  let rest := defs ++ [comma; brace (fn_named "a")] in
  let u := use_of (Compose (loops_text ls ++ rest)) in
  let v := use_of (ComposeItem (loops_text ls ++ defs) (fn_named "a")) in
  within ascii_parsers /\ plain_loops ascii_parsers (known ascii) ls /\ plain_loops ascii_parsers (known ascii) bad /\
  ident_allowed ascii_parsers (txt "for") = false /\ not_for rest /\ not_for defs /\ unterminated rest /\
  (exists ast, p_ast (inv_parsed (invocation_for ascii ascii_parsers u)) = Ok (Some ast)) /\ raised (invocation_for ascii ascii_parsers u) = [] /\
  (exists ast, p_ast (inv_parsed (invocation_for ascii ascii_parsers v)) = Ok (Some ast)) /\ raised (invocation_for ascii ascii_parsers v) = [] /\
  match all_some (written_rounds ls) with
  | Some rs =>
      expand_uses ascii ascii_parsers syntax0 (map (fun ds => use_of (Compose (round_text ds rest))) rs) =
        [Code (fn_named "pqr1"); Code (fn_named "pqr2"); Code (fn_named "stv1"); Code (fn_named "stv2")] /\
      expand_uses ascii ascii_parsers syntax0 (map (fun ds => use_of (ComposeItem (round_text ds defs) (fn_named "a"))) rs) =
        [Code (fn_named "pqr1"); Code (fn_named "pqr2"); Code (fn_named "stv1"); Code (fn_named "stv2")]
  | None => False
  end /\
  expand_uses ascii ascii_parsers syntax0 [u] = [Code (fn_named "pqr1" ++ fn_named "pqr2" ++ fn_named "stv1" ++ fn_named "stv2")] /\
  expand_uses ascii ascii_parsers syntax0 [v] = [Code (fn_named "pqr1" ++ fn_named "pqr2" ++ fn_named "stv1" ++ fn_named "stv2")] /\
  all_some (written_rounds bad) = None /\
  expand_uses ascii ascii_parsers syntax0 [use_of (Compose (loops_text bad ++ rest))] = [CompileError TypeError].
Proof.
  intros pat one two num ls bad defs rest u v. split; [exact ascii_within|].
  assert (W : forall t, In t [[i "p"]; [i "q"]; [i "r"]; [i "s"]; [i "t"]; [i "lower"; paren [i "V"]]; [li "1"]; [li "2"]] -> self_contained ascii_parsers (known ascii) t).
  { intros t Ht. split.
    - repeat destruct Ht as [<-|Ht]; [..|destruct Ht];
        (split; [discriminate|split; [intros ts r H; discriminate H|intros n; do 2 eexists; cbv -[N.add]; reflexivity]]).
    - intros [|c tail]; [repeat destruct Ht as [<-|Ht]; [..|destruct Ht]; repeat split|].
      pose proof (Nat.add_sub 1 (List.length tail)) as E1. pose proof (Nat.add_sub 2 (List.length tail)) as E2. cbn [Nat.add] in E1, E2.
      repeat destruct Ht as [<-|Ht]; [..|destruct Ht];
        (split; [|split; [|split; [|split]]]; cbn -[Nat.sub]; rewrite ?Nat.sub_succ, ?E1, ?E2; reflexivity). }
  split; [repeat constructor; apply W; cbn [In]; tauto|]. split; [repeat constructor; apply W; cbn [In]; tauto|].
  split; [reflexivity|]. split; [reflexivity|]. split; [reflexivity|]. split.
  { intros a t E. change rest with (removelast rest ++ [brace (fn_named "a")]) in E. apply app_inj_tail in E as (_ & <-). reflexivity. }
  split; [eexists; vm_compute; reflexivity|]. split; [reflexivity|]. split; [eexists; vm_compute; reflexivity|]. split; [reflexivity|].
  split; [split; vm_compute; reflexivity|]. split; [vm_compute; reflexivity|]. split; [vm_compute; reflexivity|]. split; vm_compute; reflexivity.
Qed.

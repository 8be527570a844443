(** C110: names composed of different identifiers.  [composes] is in SpecDistinct, [yields] in
    SpecEitherOrder, [call_meaning] in SpecFunctions, [names_print] in SpecStrings. *)
From Coq Require Import String.
From Verif Require Import Base Token Types Values Ast Env Item Deprecation Interpreter Parse Macro ConcreteParse RustLexer RustGrammar RustInstance RustLaws
  SpecMacro SpecPrograms SpecParse SpecElab SpecSubst SpecItem SpecDeprecation SpecRepro SpecCalls SpecFunctions SpecStrings SpecNested SpecEitherOrder SpecDistinct
  DistinctProofs RustStrings RustDistinct.
Open Scope list_scope.

(** Two calls of [concat] that differ in one argument compose different names. *)
Theorem C110_one_part : forall O seed raw raw' l r x y v, call_meaning O seed (txt "concat") raw (map VIdent (l ++ x :: r)) = Ok v ->
  call_meaning O seed (txt "concat") raw' (map VIdent (l ++ y :: r)) = Ok v -> x = y.
Proof. exact one_part. Qed.
Print Assumptions C110_one_part.

(** So do two calls that differ in two arguments with another one between them, if the first of the
    two does not contain the character with which the one between them begins. *)
Theorem C110_two_parts : forall O seed raw raw' l r x y x' y' c s v, ~ In c x -> ~ In c x' ->
  call_meaning O seed (txt "concat") raw (map VIdent (l ++ x :: (c :: s) :: y :: r)) = Ok v ->
  call_meaning O seed (txt "concat") raw' (map VIdent (l ++ x' :: (c :: s) :: y' :: r)) = Ok v -> x = x' /\ y = y'.
Proof. exact two_parts. Qed.
Print Assumptions C110_two_parts.

(** [concat(f, x, _, y_z)] and [concat(f, xy, _, z)]. *)
Example C110_parts : forall c, c = 95%N ->
  ~ In c (txt "x") /\ ~ In c (txt "xy") /\
  call_meaning rust 7 (txt "concat") None (map VIdent ([txt "f"] ++ txt "x" :: (c :: []) :: txt "y_z" :: [])) = Ok (VIdent (txt "fx_y_z")) /\
  call_meaning rust 7 (txt "concat") None (map VIdent ([txt "f"] ++ txt "xy" :: (c :: []) :: txt "z" :: [])) = Ok (VIdent (txt "fxy_z")).
Proof. intros c ->. vm_compute. intuition discriminate. Qed.

(** A use with a loop over identifiers: the name composed of the loop variable is in every round
    another one, if the identifiers are different. *)
Theorem C110_loop : forall O P Y seed ast var values n l r ts uses i c, faithful O (reparse Y) -> covers Y -> (forall x, In x item_keywords -> ~ In x (ast_aliases ast)) ->
  composes ast var values n l r -> yields O P Y ast seed ts uses i c ->
  exists bss, c = flat_map (fun bs => substituted O (fun x => assoc_str x bs) ts) bss /\
    Forall2 (fun p bs => assoc_str n bs = Some (VIdent (List.concat (map snd l) ++ snd p ++ List.concat (map snd r)))) values bss /\
    (NoDup (map snd values) -> NoDup (map (assoc_str n) bss)).
Proof. exact use_names. Qed.
Print Assumptions C110_loop.

(** All hypotheses together; there may be other definitions before and after. *)
Example C110_example :
  let ts := lex "struct N; fn f(x: T) { g(m) }" in
  let c := lex "struct MY; fn my_u8_fn(x: u8) { g(u8_u8) } struct MY; fn my_u16_fn(x: u16) { g(u16_u16) }" in
  let uses := [use_of (Compose (lex "for T in [u8, u16] N = upper(my), f = concat(my_, T, _fn), m = concat(T, _, T)," ++ [TGroup Brace ts]))] in
  exists ast values l r,
    faithful rust (reparse rust_syntax) /\ covers rust_syntax /\ (forall x, In x item_keywords -> ~ In x (ast_aliases ast)) /\
    composes ast (txt "T") values (txt "f") l r /\ yields rust rust_parsers rust_syntax ast 7 ts uses 0 c /\ NoDup (map snd values).
Proof.
  intros ts c uses.
  destruct (p_ast (inv_parsed (invocation_for rust rust_parsers (use_of (Compose (lex "for T in [u8, u16] N = upper(my), f = concat(my_, T, _fn), m = concat(T, _, T)," ++ [TGroup Brace ts])))))) as [[ast|]|e|m] eqn:E; try (vm_compute in E; discriminate E).
  exists (erase_ast ast), [(0%N, txt "u8"); (0%N, txt "u16")], [(0%N, txt "my_")], [(0%N, txt "_fn")]. vm_compute in E. injection E as <-.
  split; [exact rust_faithful|]. split; [exact rust_covers|]. split; [intros x Hx Hin; vm_compute in Hx, Hin; intuition congruence|].
  split. { split; [vm_compute; reflexivity|]. split.
    - eexists [_], _, _, _, _. vm_compute. reflexivity.
    - intros x Hx Hin. vm_compute in Hx, Hin. intuition congruence. }
  split; [eexists _, _; split; [reflexivity|]; split; [vm_compute; reflexivity|]; vm_compute; repeat split; left; reflexivity|].
  repeat constructor; cbn; intuition discriminate.
Qed.

(** The same for parts of other kinds, such as integers, behind an identifier: if their texts are
    different, so are the names. *)
Theorem C110_values : forall O seed raw raw' x l r v w z, names_print O -> words_read O -> Forall (wordy O) (VIdent x :: l ++ v :: r) -> Forall (wordy O) (VIdent x :: l ++ w :: r) ->
  call_meaning O seed (txt "concat") raw (VIdent x :: l ++ v :: r) = Ok z -> call_meaning O seed (txt "concat") raw' (VIdent x :: l ++ w :: r) = Ok z -> text_of O v = text_of O w.
Proof. exact one_value. Qed.
Print Assumptions C110_values.

Theorem C110_any_loop : forall O P Y seed ast var values n l r ts uses i c, faithful O (reparse Y) -> covers Y -> (forall x, In x item_keywords -> ~ In x (ast_aliases ast)) ->
  names_print O -> words_read O -> Forall (wordy O) (map snd values) -> Forall (fun x => wordy O (VIdent x)) (map snd (l ++ r)) ->
  composes_with ast var values n l r -> yields O P Y ast seed ts uses i c ->
  exists bss, c = flat_map (fun bs => substituted O (fun x => assoc_str x bs) ts) bss /\
    Forall2 (fun p bs => assoc_str n bs = Some (VIdent (List.concat (map snd l) ++ text_of O (snd p) ++ List.concat (map snd r)))) values bss /\
    (NoDup (map (fun p => text_of O (snd p)) values) -> NoDup (map (assoc_str n) bss)).
Proof. exact use_texts. Qed.
Print Assumptions C110_any_loop.

(** All hypotheses together, with integers and an identifier in the loop. *)
Example C110_any_example :
  let ts := lex "fn f() { g(T) }" in
  let c := lex "fn test_1_case() { g(1) } fn test_20u8_case() { g(20u8) } fn test_x_case() { g(x) }" in
  let uses := [use_of (Compose (lex "for T in [1, 20u8, x] f = concat(test_, T, _case)," ++ [TGroup Brace ts]))] in
  exists ast values l r,
    faithful rust (reparse rust_syntax) /\ covers rust_syntax /\ (forall x, In x item_keywords -> ~ In x (ast_aliases ast)) /\
    names_print rust /\ words_read rust /\ Forall (wordy rust) (map snd values) /\ Forall (fun x => wordy rust (VIdent x)) (map snd (l ++ r)) /\
    composes_with ast (txt "T") values (txt "f") l r /\ yields rust rust_parsers rust_syntax ast 7 ts uses 0 c /\ NoDup (map (fun p => text_of rust (snd p)) values).
Proof.
  intros ts c uses.
  destruct (p_ast (inv_parsed (invocation_for rust rust_parsers (use_of (Compose (lex "for T in [1, 20u8, x] f = concat(test_, T, _case)," ++ [TGroup Brace ts])))))) as [[ast|]|e|m] eqn:E; try (vm_compute in E; discriminate E).
  exists (erase_ast ast), [(0%N, VLitInt (txt "1") (txt "1")); (0%N, VLitInt (txt "20") (txt "20u8")); (0%N, VIdent (txt "x"))], [(0%N, txt "test_")], [(0%N, txt "_case")]. vm_compute in E. injection E as <-.
  split; [exact rust_faithful|]. split; [exact rust_covers|]. split; [intros x Hx Hin; vm_compute in Hx, Hin; intuition congruence|].
  split; [exact rust_names_print|]. split; [exact rust_words_read|].
  split; [do 3 (apply Forall_cons; [split; [vm_compute; reflexivity|intros y Hy; try discriminate Hy; injection Hy as <-; left; vm_compute; reflexivity]|]); apply Forall_nil|].
  split; [do 2 (apply Forall_cons; [split; [vm_compute; reflexivity|intros y Hy; injection Hy as <-; left; vm_compute; reflexivity]|]); apply Forall_nil|].
  split. { split; [vm_compute; reflexivity|]. split; [|split; [discriminate|]].
    - eexists [], _, _, _, _. vm_compute. reflexivity.
    - intros x Hx Hin. vm_compute in Hx, Hin. intuition congruence. }
  split; [eexists _, _; split; [reflexivity|]; split; [vm_compute; reflexivity|]; vm_compute; repeat split; left; reflexivity|].
  vm_compute. repeat constructor; cbn; intuition discriminate.
Qed.

(** Two loops, with the values of both in the name and something between them: one round for every
    pair, and every round another name, if what is between them begins with a character that the
    values of the first do not contain. *)
Theorem C110_two_loops : forall O P Y seed ast a xs b ys n l sep r ts uses i c, faithful O (reparse Y) -> covers Y -> (forall x, In x item_keywords -> ~ In x (ast_aliases ast)) ->
  composes_two ast a xs b ys n l sep r -> yields O P Y ast seed ts uses i c ->
  exists bss, c = flat_map (fun bs => substituted O (fun x => assoc_str x bs) ts) bss /\
    Forall2 (fun p bs => assoc_str n bs = Some (VIdent (List.concat (map snd l) ++ fst p ++ sep ++ snd p ++ List.concat (map snd r)))) (list_prod (map snd xs) (map snd ys)) bss /\
    (forall d s, sep = d :: s -> (forall x, In x (map snd xs) -> ~ In d x) -> NoDup (map snd xs) -> NoDup (map snd ys) -> NoDup (map (assoc_str n) bss)).
Proof. exact use_two_loops. Qed.
Print Assumptions C110_two_loops.

(** All hypotheses together. *)
Example C110_two_example :
  let ts := lex "fn n() { g::<T>(op) }" in
  let c := lex "fn u8_add_in() { g::<u8>(add_in) } fn u8_sub() { g::<u8>(sub) } fn u16_add_in() { g::<u16>(add_in) } fn u16_sub() { g::<u16>(sub) }" in
  let uses := [use_of (Compose (lex "for T in [u8, u16] for op in [add_in, sub] n = concat(T, _, op)," ++ [TGroup Brace ts]))] in
  exists ast xs ys d s,
    faithful rust (reparse rust_syntax) /\ covers rust_syntax /\ (forall x, In x item_keywords -> ~ In x (ast_aliases ast)) /\
    composes_two ast (txt "T") xs (txt "op") ys (txt "n") [] (d :: s) [] /\ yields rust rust_parsers rust_syntax ast 7 ts uses 0 c /\
    (forall x, In x (map snd xs) -> ~ In d x) /\ NoDup (map snd xs) /\ NoDup (map snd ys).
Proof.
  intros ts c uses.
  destruct (p_ast (inv_parsed (invocation_for rust rust_parsers (use_of (Compose (lex "for T in [u8, u16] for op in [add_in, sub] n = concat(T, _, op)," ++ [TGroup Brace ts])))))) as [[ast|]|e|m] eqn:E; try (vm_compute in E; discriminate E).
  exists (erase_ast ast), [(0%N, txt "u8"); (0%N, txt "u16")], [(0%N, txt "add_in"); (0%N, txt "sub")], 95%N, []. vm_compute in E. injection E as <-.
  split; [exact rust_faithful|]. split; [exact rust_covers|]. split; [intros x Hx Hin; vm_compute in Hx, Hin; intuition congruence|].
  split. { split; [vm_compute; reflexivity|]. split; [|split; [|split]].
    - eexists [], _, _, _, _, _, _. vm_compute. reflexivity.
    - intros Hin. vm_compute in Hin. intuition congruence.
    - intros Hin. vm_compute in Hin. intuition congruence.
    - intros x Hx Hin. vm_compute in Hx, Hin. intuition congruence. }
  split; [eexists _, _; split; [reflexivity|]; split; [vm_compute; reflexivity|]; vm_compute; repeat split; left; reflexivity|].
  split; [intros x Hx Hin; vm_compute in Hx; destruct Hx as [<-|[<-|[]]]; vm_compute in Hin; intuition discriminate|].
  split; repeat constructor; cbn; intuition discriminate.
Qed.

(** Two loop variables side by side, even with an underscore between them, can compose the same
    name twice. *)
Theorem C110_side_by_side_refuted : exists u u' c c',
  u = use_of (Compose (lex "for a in [x, xy] for b in [yz, z] n = concat(a, b), { fn n() {} }")) /\
  u' = use_of (Compose (lex "for a in [x, x_y] for b in [y_z, z] n = concat(a, _, b), { fn n() {} }")) /\
  c = Code (lex "fn xyz() {} fn xz() {} fn xyyz() {} fn xyz() {}") /\ c' = Code (lex "fn x_y_z() {} fn x_z() {} fn x_y_y_z() {} fn x_y_z() {}") /\
  expand_uses rust rust_parsers rust_syntax [u; u'] = [c; c'].
Proof. do 4 eexists. do 4 (split; [reflexivity|]). vm_compute. reflexivity. Qed.
Print Assumptions C110_side_by_side_refuted.

(** Case conversions can make different identifiers the same. *)
Theorem C110_case_refuted : exists u c,
  u = use_of (Compose (lex "for a in [x, X] n = concat(f_, lower(a)), { fn n() {} }")) /\ c = Code (lex "fn f_x() {} fn f_x() {}") /\
  expand_uses rust rust_parsers rust_syntax [u] = [c].
Proof. do 2 eexists. do 2 (split; [reflexivity|]). vm_compute. reflexivity. Qed.
Print Assumptions C110_case_refuted.

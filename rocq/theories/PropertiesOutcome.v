(** C44: how substitution ends, and with it the exact outcome of a use.  [block_parts],
    [part_failure] and [exact_meaning] are in SpecOutcome. *)
From Coq Require Import String.
From Verif Require Import Base Token Types Values Ast Env Item AliasSubstitution Deprecation Interpreter Parse Macro
  SpecElab SpecSubst SpecItem SpecParse SpecDeprecation SpecMacro SpecOutcome OutcomeProofs
  Concrete ConcreteSpecs ConcreteRuns ConcreteParse.
Open Scope list_scope.

(** C44: the visit of a block fails as the first of its parts, in source order, that fails;
    it succeeds if none does. *)
Theorem C44_first_part : forall O lookup reparse, faithful O reparse -> forall l,
  match first_part_failure O lookup reparse (block_parts l) with
  | None => exists l', visit_block O lookup reparse l = Ok l'
  | Some (Fails e) => visit_block O lookup reparse l = Err e
  | Some (Panics p) => visit_block O lookup reparse l = Panic p
  end.
Proof. exact block_ends. Qed.
Print Assumptions C44_first_part.

Theorem C44_success : forall O lookup reparse l, faithful O reparse ->
  ((exists l', visit_block O lookup reparse l = Ok l') <-> Forall (fun p => part_failure O lookup reparse p = None) (block_parts l)).
Proof. exact block_succeeds. Qed.
Print Assumptions C44_success.

(** A part does not fail exactly if all stages of its replacement are accepted. *)
Theorem C44_part : forall O lookup accepts ts, tokens_failure O lookup accepts ts = None <->
  accepts (substituted O lookup ts) = true /\ (forall s, In s (substitution_stages O lookup ts) -> accepts (snd s) = true).
Proof. exact tokens_fail. Qed.
Print Assumptions C44_part.

(** The outcome of a use, failures included; where it is code it is the meaning of C42. *)
Theorem C44_use : forall O Y P uses i u ast, faithful O (reparse Y) -> nth_error uses i = Some u ->
  p_ast (inv_parsed (invocation_for O P u)) = Ok (Some ast) ->
  (forall x, In x item_keywords -> ~ In x (ast_aliases ast)) ->
  nth_error (expand_uses O P Y uses) i = Some
    match exact_meaning O (reparse Y) (new_initialized O (u_seed u) (u_first_id u))
            (with_warnings Y (prefix_of (u_source (hd u uses))) (raised (invocation_for O P u))) ast with
    | Ok ts => Code ts | Err e => CompileError e | Panic p => Panicked p
    end.
Proof. exact use_exact. Qed.
Print Assumptions C44_use.

Theorem C44_code : forall O Y env finish ast ts,
  exact_meaning O (reparse Y) env finish ast = Ok ts -> meaning O env finish ast = Ok ts.
Proof. exact exact_meaning_ok. Qed.
Print Assumptions C44_code.

(** [a = x, b = 1] in [fn a() {} fn b() {} fn f() { b }]: the second function is the one that
    stops parsing; the statement [b] would not.  [fn a() {} fn f() { b }] succeeds. *)
Example C44_example :
  let lookup := aliases [("a", VIdent (txt "x")); ("b", VLitInt (txt "1") (txt "1"))]%string in
  let ok := [fn_stmt "a"; SItem (IFn [] [] [i "fn"; i "f"; paren []] [SOther [i "b"]])] in
  let l := fn_stmt "a" :: fn_stmt "b" :: ok in
  faithful ascii named_node /\
  map (part_failure ascii lookup named_node) (block_parts l) =
    [None; None; None; None; None; Some (Fails (SubstitutionError (txt "b"))); None; None; None; None; None; None; None] /\
  visit_block ascii lookup named_node l = Err (SubstitutionError (txt "b")) /\
  first_part_failure ascii lookup named_node (block_parts ok) = None.
Proof. split; [exact named_faithful|]. split; [|split]; vm_compute; reflexivity. Qed.

(** [for (n, m) in [(x, 1), (y, 2), (z, 3)] { fn n() { m } }], and with the third pair the
    other way around. *)
Example C44_use_example :
  let pair a b := paren [a; p1 ","; b] in
  let use last := use_of (Compose [i "for"; pair (i "n") (i "m"); i "in";
    bracket [pair (i "x") (li "1"); p1 ","; pair (i "y") (li "2"); p1 ","; last];
    brace [i "fn"; i "n"; paren []; brace [i "m"]]]) in
  let fn x m := [i x; paren []; brace [li m]] in
  expand_uses ascii ascii_parsers syntax1 [use (pair (i "z") (li "3")); use (pair (li "3") (i "z"))] =
    [Code (i "fn" :: fn "x"%string "1"%string ++ i "fn" :: fn "y"%string "2"%string ++ i "fn" :: fn "z"%string "3"%string);
     CompileError (SubstitutionError (txt "n"))].
Proof. vm_compute. reflexivity. Qed.

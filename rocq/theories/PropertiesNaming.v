(** C46, C47: naming values and renaming aliases.  [inlined], [renamed] and [renamed_code] are
    in SpecNaming. *)
From Coq Require Import String.
From Verif Require Import Base Token Types Values Ast Env Item Eval Interpreter SpecPrograms SpecItem SpecSubst SpecElab SpecOutcome
  SpecFormat FormatString SpecNaming NamingProofs SettledProofs Concrete ConcreteSpecs ConcreteRuns ConcreteParse.
Open Scope list_scope.

(** C46: after [a = w], for a plain value [w], it makes no difference whether later
    definitions say [a] or [w], in any number of places, for results and errors alike; unless
    [w] is itself an identifier that is defined in between. *)
Theorem C46_plain_values_partial : forall O seed first_id pre a id w post post' c,
  NoDup (item_ids (pre ++ (a, EValue id w) :: post)) -> NoDup (item_ids (pre ++ (a, EValue id w) :: post')) ->
  inlined_items a w post post' -> (forall y, w = VIdent y -> ~ In y (map fst post)) ->
  make_substitutions O (new_initialized O seed first_id) {| spec_items := pre ++ (a, EValue id w) :: post; is_comma_used := c |} =
  make_substitutions O (new_initialized O seed first_id) {| spec_items := pre ++ (a, EValue id w) :: post'; is_comma_used := c |}.
Proof. exact naming_plain. Qed.
Print Assumptions C46_plain_values_partial.

(** [a = "s", b = concat(upper(a), a)] and [a = "s", b = concat(upper("s"), a)]. *)
Example C46_example :
  let s := VLitStr (txt "s") [] in
  let use x := (txt "b", ECall 1 (txt "concat") [ECall 2 (txt "upper") [EValue 3 x] None; id_ 4 "a"] None) in
  inlined_items (txt "a") s [use (VIdent (txt "a"))] [use s] /\
  make_substitutions ascii env0 (spec_of [(txt "a", EValue 0 s); use s]) =
    Ok [(txt "a", s); (txt "b", VLitStr (txt "Ss") [])].
Proof.
  cbv zeta. split; [|vm_compute; reflexivity]. constructor; [|constructor]. split; [reflexivity|].
  constructor; [|intros _; reflexivity]. constructor; [constructor; [constructor; [constructor|constructor]|intros _; reflexivity]|].
  constructor; [constructor|constructor].
Qed.

(** The side condition: [a = x, x = y, b = upper(a)] is [X], with [x] instead of [a] it is [Y]. *)
Theorem C46_shadowed_refuted : exists post post',
  let pre := (txt "a", EValue 0 (VIdent (txt "x"))) in
  inlined_items (txt "a") (VIdent (txt "x")) post post' /\
  make_substitutions ascii env0 (spec_of (pre :: post)) <> make_substitutions ascii env0 (spec_of (pre :: post')).
Proof.
  exists [(txt "x", id_ 1 "y"); (txt "b", ECall 2 (txt "upper") [id_ 3 "a"] None)],
         [(txt "x", id_ 1 "y"); (txt "b", ECall 2 (txt "upper") [id_ 3 "x"] None)].
  split; [|vm_compute; discriminate]. constructor; [split; [reflexivity|constructor]|].
  constructor; [|constructor]. split; [reflexivity|]. constructor; [constructor; [constructor|constructor]|intros _; reflexivity].
Qed.
Print Assumptions C46_shadowed_refuted.

(** Calls: [b = concat(x, hash("s"))] composes an identifier, while naming the hash first,
    [h = hash("s"), b = concat(x, h)], is an error.  The type an argument is wanted for takes
    part in the choice of its overload. *)
Theorem C46_calls_refuted : exists call,
  let named := [(txt "h", call); (txt "b", ECall 3 (txt "concat") [id_ 4 "x"; id_ 5 "h"] None)] in
  let inline := [(txt "b", ECall 3 (txt "concat") [id_ 4 "x"; call] None)] in
  make_substitutions ascii env0 (spec_of named) = Err EvalError /\
  (exists x, make_substitutions ascii env0 (spec_of inline) = Ok [(txt "b", VIdent x)]).
Proof.
  exists (ECall 1 (txt "hash") [EValue 2 (VLitStr (txt "s") [])] None).
  split; [vm_compute; reflexivity|]. eexists. vm_compute. reflexivity.
Qed.
Print Assumptions C46_calls_refuted.

(** Calls that have one meaning whatever type is wanted of them may be written out wherever
    their name is used, as long as nothing they mention is defined in between. *)
Theorem C46_settled_calls : forall O seed first_id pre a d post post' c,
  NoDup (item_ids (pre ++ (a, d) :: post)) -> NoDup (item_ids (pre ++ (a, d) :: post')) ->
  (forall tis, elab_items (new_initialized O seed first_id) [] pre = Ok tis -> settled (new_initialized O seed first_id) (tenv_of tis) d) ->
  expanded_items a d post post' -> (forall y, In y (mentions d) -> y <> a /\ ~ In y (map fst post)) ->
  make_substitutions O (new_initialized O seed first_id) {| spec_items := pre ++ (a, d) :: post; is_comma_used := c |} =
  make_substitutions O (new_initialized O seed first_id) {| spec_items := pre ++ (a, d) :: post'; is_comma_used := c |}.
Proof. exact naming_settled. Qed.
Print Assumptions C46_settled_calls.

(** These are such calls, nested to any depth: the case functions of names and of strings,
    [normalize], [raw], [normalize2], [hash] of names, the [to_] functions of tokens, [concat]
    of arguments of one kind, and of a name and tokens. *)
Theorem C46_steady : forall O seed first_id G id name args raw t,
  steady G (ECall id name args raw) t ->
  settled (new_initialized O seed first_id) G (ECall id name args raw) /\
  exists te, elab (new_initialized O seed first_id) G (ECall id name args raw) None = inl (te, 0%N) /\ target_of te = t.
Proof. exact steady_settled. Qed.
Print Assumptions C46_steady.

(** [a = upper(concat(x, y)), b = concat(a, a)] and [..., b = concat(upper(concat(x, y)), a)]. *)
Example C46_calls_example :
  let d k := ECall k (txt "upper") [ECall (k + 1) (txt "concat") [id_ (k + 2) "x"; id_ (k + 3) "y"] None] None in
  let use e := (txt "b", ECall 20 (txt "concat") [e; id_ 21 "a"] None) in
  (forall G, (forall x, assoc_str x G = None) -> steady G (d 0%N) TyIdent) /\
  expanded_items (txt "a") (d 0%N) [use (id_ 22 "a")] [use (d 10%N)] /\
  make_substitutions ascii env0 (spec_of [(txt "a", d 0%N); use (d 10%N)]) =
    Ok [(txt "a", VIdent (txt "XY")); (txt "b", VIdent (txt "XYXY"))].
Proof.
  cbv zeta. split; [|split; [|vm_compute; reflexivity]].
  - intros G HG. apply StCase; [cbn; auto|auto|]. apply StConcat; [discriminate|cbn; auto|].
    assert (E : forall x, static_type G (VIdent (txt x)) = TyIdent) by (intros x; cbn; rewrite HG; reflexivity).
    assert (Hs : forall k x, steady G (id_ k x) TyIdent) by (intros k x; rewrite <- (E x); constructor).
    constructor; [apply Hs|constructor; [apply Hs|constructor]].
  - constructor; [|constructor]. split; [reflexivity|]. constructor; [|intros _; reflexivity].
    constructor; [|constructor; [apply ExpLeaf|constructor]]. apply ExpHere.
    constructor; [|intros _; reflexivity]. constructor; [|constructor]. constructor; [|intros _; reflexivity].
    constructor; [constructor|constructor; [constructor|constructor]].
Qed.

(** The side condition: [a = concat(a, x), b = a] is [ax]; written out, [b] is [axx]. *)
Theorem C46_own_name_refuted : exists d post post',
  expanded_items (txt "a") d post post' /\
  make_substitutions ascii env0 (spec_of ((txt "a", d) :: post)) <> make_substitutions ascii env0 (spec_of ((txt "a", d) :: post')).
Proof.
  exists (ECall 0 (txt "concat") [id_ 1 "a"; id_ 2 "x"] None), [(txt "b", id_ 3 "a")],
    [(txt "b", ECall 4 (txt "concat") [id_ 5 "a"; id_ 6 "x"] None)].
  split; [|vm_compute; discriminate]. constructor; [|constructor]. split; [reflexivity|]. apply ExpHere.
  constructor; [|intros _; reflexivity]. constructor; [constructor|constructor; [constructor|constructor]].
Qed.
Print Assumptions C46_own_name_refuted.

(** C47: an alias may be called anything that is not used: the same values under the new
    name, the same errors. *)
Theorem C47_definitions : forall O seed first_id pre a b e post post' c,
  NoDup (item_ids (pre ++ (a, e) :: post)) -> NoDup (item_ids (pre ++ (b, e) :: post')) ->
  renamed_items a b post post' ->
  (forall x, In x (map fst pre) \/ In x (map fst post) -> x <> a /\ x <> b) ->
  make_substitutions O (new_initialized O seed first_id) {| spec_items := pre ++ (b, e) :: post'; is_comma_used := c |} =
  let! bs := make_substitutions O (new_initialized O seed first_id) {| spec_items := pre ++ (a, e) :: post; is_comma_used := c |} in
  Ok (rename_bindings a b bs).
Proof. exact renaming. Qed.
Print Assumptions C47_definitions.

(** Code, identifiers and placeholders alike. *)
Theorem C47_code : forall O a b bs, In a (map fst bs) -> ~ In b (map fst bs) -> forall ts ts', renamed_code O a b ts ts' ->
  substituted O (fun x => assoc_str x bs) ts = substituted O (fun x => assoc_str x (rename_bindings a b bs)) ts'.
Proof. exact renamed_substituted. Qed.
Print Assumptions C47_code.

(** Both: what a block yields when its alias is called otherwise. *)
Theorem C47_round : forall O seed first_id reparse pre a b e post post' block block' code code',
  renamed_items a b post post' ->
  (forall x, In x (map fst pre) \/ In x (map fst post) -> x <> a /\ x <> b) -> a <> b ->
  renamed_code O a b (block_tokens (map drop_where_stmt block)) (block_tokens (map drop_where_stmt block')) ->
  round_outcome O reparse (new_initialized O seed first_id) block (pre ++ (a, e) :: post) = Ok code ->
  round_outcome O reparse (new_initialized O seed first_id) block' (pre ++ (b, e) :: post') = Ok code' ->
  code = code'.
Proof. exact renamed_round. Qed.
Print Assumptions C47_round.

(** [a = concat(x, y), c = upper(a)] in [fn a() { a; c; "%a%!" }], with [a] called [b]. *)
Example C47_example :
  let items (a : string) := [(txt a, ECall 1 (txt "concat") [id_ 2 "x"; id_ 3 "y"] None); (txt "c", ECall 4 (txt "upper") [id_ 5 a] None)] in
  let block (a c s : string) := [SOther ([i "fn"; i a; paren []; brace [i a; p1 ";"; i c; p1 ";"; ls s]])] in
  renamed_items (txt "a") (txt "b") (tl (items "a"%string)) (tl (items "b"%string)) /\
  renamed_code ascii (txt "a") (txt "b") (block_tokens (map drop_where_stmt (block "a" "c" "%a%!")%string))
    (block_tokens (map drop_where_stmt (block "b" "c" "%b%!")%string)) /\
  round_outcome ascii any_node env0 (block "a" "c" "%a%!")%string (items "a"%string) = Ok (block_tokens (block "xy" "XY" "xy!")%string) /\
  round_outcome ascii any_node env0 (block "b" "c" "%b%!")%string (items "b"%string) = Ok (block_tokens (block "xy" "XY" "xy!")%string).
Proof.
  cbv zeta. split; [|split; [|split; vm_compute; reflexivity]].
  - cbn [tl]. constructor; [|constructor]. split; [reflexivity|]. constructor; [constructor; [constructor|constructor]|intros _; reflexivity].
  - unfold renamed_code. cbn.
    repeat first [ apply Forall2_nil | apply RtHere | apply RtPunct | apply RtIdent; vm_compute; discriminate
                 | apply RtGroup | apply Forall2_cons ].
    eapply RtStr; [reflexivity|reflexivity|].
    exists [PHole (txt "a") 0; PText (txt "!")], [PHole (txt "b") 0; PText (txt "!")], None.
    assert (Hw : forall x, x <> 37%N -> wf percent [PHole [x] 0; PText (txt "!")] None).
    { intros x Hx. split; [|split; [cbn; auto|exact I]].
      constructor; [split; [discriminate|intros [E|[]]; exact (Hx E)]|constructor; [|constructor]].
      split; [discriminate|]. intros [E|[]]; vm_compute in E; discriminate E. }
    split; [apply Hw; discriminate|]. split; [apply Hw; discriminate|]. split; [|split; vm_compute; reflexivity].
    constructor; [apply RpHole; vm_compute; reflexivity|]. constructor; [|constructor]. apply RpSame. intros t k E. discriminate E.
Qed.

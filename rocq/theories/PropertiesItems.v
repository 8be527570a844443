(** C25, C26: what the item visitor emits.  [drop_where], [untouched], [item_ok] and
    [faithful] are in SpecItem, [respelled], [unaliased], [indifferent] and [item_outer] in
    SpecRespelled, [substituted] in SpecSubst. *)
From Coq Require Import String.
From Verif Require Import Base Token Types Values SpecSubst Item AliasSubstitution SpecItem SpecRespelled VisitorProofs VisitorTotal RespelledProofs ItemFacts Concrete ConcreteSpecs.
Open Scope list_scope.

(** C25 is false of structs, enums, unions, traits and impls with a where clause: it is
    dropped. *)
Theorem C25_where_clause_refuted : exists it it',
  item_ok ascii any_node it /\ untouched ascii (fun _ => None) (item_tokens it) /\
  visit_item ascii (fun _ => None) any_node it = Ok it' /\ item_tokens it' <> item_tokens it.
Proof. exact where_lost. Qed.
Print Assumptions C25_where_clause_refuted.

(** Nor do items with inner attributes come out: the macro panics. *)
Theorem C25_inner_attribute_refuted : exists it1 it2,
  it1 = IFn [{| is_inner := true; meta := [i "inline"] |}] [] [i "fn"; i "f"; paren []] [] /\
  it2 = IMod [{| is_inner := true; meta := [i "doc"; p1 "="; ls "text"] |}] [] false (txt "m") (Some []) /\
  visit_item ascii (fun _ => None) any_node it1 = Panic PUnreachable /\
  visit_item ascii (fun _ => None) any_node it2 = Panic PErrorData.
Proof. exact inner_attributes_panic. Qed.
Print Assumptions C25_inner_attribute_refuted.

(** And string literals are written anew, without their raw spelling or suffix. *)
Theorem C25_raw_string_refuted : exists s,
  visit_stmt ascii (fun _ => None) any_node (SOther [TLit (LStr (txt "text") s)]) = Ok (SOther [ls "text"]) /\ s <> [].
Proof. exact raw_strings_respelled. Qed.
Print Assumptions C25_raw_string_refuted.

(** Everything else is unchanged: items whose nodes can be parsed again, without aliases,
    with plain strings. *)
Theorem C25_unchanged_partial : forall O lookup reparse it,
  item_ok O reparse it -> untouched O lookup (item_tokens (drop_where it)) ->
  exists it', visit_item O lookup reparse it = Ok it' /\ item_tokens it' = item_tokens (drop_where it).
Proof. exact item_total. Qed.
Print Assumptions C25_unchanged_partial.

Theorem C25_unchanged_block_partial : forall O lookup reparse l,
  fold_right and True (map (stmt_ok O reparse) l) -> untouched O lookup (block_tokens (map drop_where_stmt l)) ->
  exists l', visit_block O lookup reparse l = Ok l' /\ block_tokens l' = block_tokens (map drop_where_stmt l).
Proof. exact block_total. Qed.
Print Assumptions C25_unchanged_block_partial.

Example C25_example :
  let it := IMod [doc "a module"] [i "pub"] false (txt "m") (Some
    [IStruct [] [i "pub"] (txt "S") no_generics (FNamed [plain_field "a" (i "u8"); plain_field "b" (i "T")] true);
     IImpl [] false false no_generics (Some (false, [i "Tr"])) [i "S"]
       [MFn [doc "f"] [] false [i "fn"; i "f"; paren []] [SOther [i "g"; paren []; p1 ";"]; SItem (IOther [i "use"; i "x"; p1 ";"])]]]) in
  item_ok ascii any_node it /\ untouched ascii (fun _ => None) (item_tokens it) /\ drop_where it = it /\
  (let! it' := visit_item ascii (fun _ => None) any_node it in Ok (item_tokens it')) = Ok (item_tokens it).
Proof. exact unchanged_example. Qed.

(** With any strings: items come out without their where clauses and with their strings
    written anew, if the parsers print what they read and do not look into strings. *)
Theorem C25_respelled : forall O lookup reparse, indifferent O reparse -> faithful O reparse ->
  forall it, (forall k, In k item_keywords -> lookup k = None) ->
  item_ok O reparse it -> unaliased O lookup (item_tokens (drop_where it)) ->
  exists it', visit_item O lookup reparse it = Ok it' /\ item_tokens it' = respelled O (item_tokens (drop_where it)).
Proof. exact item_respelled. Qed.
Print Assumptions C25_respelled.

Theorem C25_respelled_block : forall O lookup reparse, indifferent O reparse -> faithful O reparse ->
  forall l, (forall k, In k item_keywords -> lookup k = None) ->
  fold_right and True (map (stmt_ok O reparse) l) -> unaliased O lookup (block_tokens (map drop_where_stmt l)) ->
  exists l', visit_block O lookup reparse l = Ok l' /\ block_tokens l' = respelled O (block_tokens (map drop_where_stmt l)).
Proof. exact block_respelled. Qed.
Print Assumptions C25_respelled_block.

(** Inner attributes never come out, whatever the aliases and the parsers: what comes out had
    none. *)
Theorem C25_inner_attributes : forall O lookup reparse it it',
  visit_item O lookup reparse it = Ok it' -> item_outer it.
Proof. exact item_is_outer. Qed.
Print Assumptions C25_inner_attributes.

Theorem C25_inner_attributes_block : forall O lookup reparse l l',
  visit_block O lookup reparse l = Ok l' -> all_of stmt_outer l.
Proof. exact block_is_outer. Qed.
Print Assumptions C25_inner_attributes_block.

Example C25_instance : indifferent ascii any_node.
Proof. exact ascii_indifferent. Qed.

Example C25_respelled_example :
  let it := IStruct [doc "d"] [i "pub"] (txt "S") {| g_params := [p1 "<"; i "T"; p1 ">"]; g_where := [i "where"; i "T"; p1 ":"; i "Copy"] |}
    (FNamed [{| f_attrs := [{| is_inner := false; meta := [i "serde"; paren [TLit (LStr (txt "x") (txt "r#"))]] |}]; f_vis := []; f_ident := Some (txt "a"); f_ty := [i "T"] |}] false) in
  item_ok ascii any_node it /\ unaliased ascii (fun _ => None) (item_tokens (drop_where it)) /\
  (let! it' := visit_item ascii (fun _ => None) any_node it in Ok (item_tokens it')) =
  Ok [p1 "#"; bracket [i "doc"; p1 "="; ls "d"]; i "pub"; i "struct"; i "S"; p1 "<"; i "T"; p1 ">";
      brace [p1 "#"; bracket [i "serde"; paren [ls "x"]]; i "a"; p1 ":"; i "T"]].
Proof. exact respelled_example. Qed.

(** C26 *)
Theorem C26_every_part : forall O lookup reparse, faithful O reparse ->
  (forall k, In k item_keywords -> lookup k = None) ->
  forall it it', visit_item O lookup reparse it = Ok it' ->
  item_tokens it' = substituted O lookup (item_tokens (drop_where it)).
Proof. exact item_emit. Qed.
Print Assumptions C26_every_part.

Theorem C26_every_part_of_a_block : forall O lookup reparse, faithful O reparse ->
  (forall k, In k item_keywords -> lookup k = None) ->
  forall l l', visit_block O lookup reparse l = Ok l' ->
  block_tokens l' = substituted O lookup (block_tokens (map drop_where_stmt l)).
Proof. exact block_emit. Qed.
Print Assumptions C26_every_part_of_a_block.

(** No alias that is not inserted by another alias is left in what is emitted. *)
Theorem C26_no_alias_left : forall O lookup reparse, faithful O reparse ->
  (forall k, In k item_keywords -> lookup k = None) ->
  (forall x v y, lookup x = Some v -> In (TIdent y) (leaves (to_tokens v)) -> lookup y = None) ->
  forall it it' x, visit_item O lookup reparse it = Ok it' -> In (TIdent x) (leaves (item_tokens it')) -> lookup x = None.
Proof. exact no_alias_left. Qed.
Print Assumptions C26_no_alias_left.

Example C26_example :
  let a := aliases [("name", VIdent (txt "S")); ("ty", VType [i "Vec"; p1 "<"; i "u8"; p1 ">"]); ("fld", VIdent (txt "x")); ("n", VLitInt (txt "3") (txt "3"))]%string in
  let run it := let! it' := visit_item ascii a any_node it in Ok (item_tokens it') in
  run (IStruct [doc "%name%"] [] (txt "name") no_generics (FNamed [plain_field "fld" (i "ty")] false)) =
    Ok [p1 "#"; bracket [i "doc"; p1 "="; ls "S"]; i "struct"; i "S"; brace [i "x"; p1 ":"; i "Vec"; p1 "<"; i "u8"; p1 ">"]] /\
  run (IEnum [] [] (txt "E") no_generics [{| v_attrs := []; v_ident := txt "name"; v_fields := FUnnamed [{| f_attrs := []; f_vis := []; f_ident := None; f_ty := [i "ty"] |}] true; v_disc := Some [i "n"] |}] false) =
    Ok [i "enum"; i "E"; brace [i "S"; paren [i "Vec"; p1 "<"; i "u8"; p1 ">"; p1 ","]; p1 "="; li "3"]] /\
  run (ITrait [] [] false false (txt "T") no_generics [[i "name"]; [i "Q"]] false [TFn [] [i "fn"; i "fld"; paren []] (Some [SOther [i "n"]])]) =
    Ok [i "trait"; i "T"; p1 ":"; i "S"; p1 "+"; i "Q"; brace [i "fn"; i "x"; paren []; brace [li "3"]]] /\
  faithful ascii any_node /\ (forall k, In k item_keywords -> a k = None).
Proof. exact every_part_example. Qed.

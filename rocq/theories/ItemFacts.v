(** Witnesses and corollaries about the item visitor. *)
From Coq Require Import String.
From Verif Require Import Base Token Types Values SpecSubst SubstFacts Item AliasSubstitution SpecItem SpecRespelled VisitorProofs VisitorTotal RespelledProofs Concrete ConcreteSpecs.
Open Scope list_scope.

Ltac plain_leaves := split; [intros ? _; reflexivity|intros l H; cbn in H; intuition (try discriminate);
  match goal with H : TLit _ = TLit _ |- _ => injection H as <- end; right; eexists; repeat split; cbn; intuition discriminate].

Lemma where_lost : exists it it',
  item_ok ascii any_node it /\ untouched ascii (fun _ => None) (item_tokens it) /\
  visit_item ascii (fun _ => None) any_node it = Ok it' /\ item_tokens it' <> item_tokens it.
Proof.
  exists (IStruct [] [] (txt "S") {| g_params := [p1 "<"; i "T"; p1 ">"]; g_where := [i "where"; i "T"; p1 ":"; i "Copy"] |} (FNamed [plain_field "a" (i "T")] false)).
  eexists. split; [repeat constructor; cbn; intros ? H; injection H as <-; reflexivity|]. split; [plain_leaves|]. split; [vm_compute; reflexivity|]. vm_compute. discriminate.
Qed.

Lemma inner_attributes_panic : exists it1 it2,
  it1 = IFn [{| is_inner := true; meta := [i "inline"] |}] [] [i "fn"; i "f"; paren []] [] /\
  it2 = IMod [{| is_inner := true; meta := [i "doc"; p1 "="; ls "text"] |}] [] false (txt "m") (Some []) /\
  visit_item ascii (fun _ => None) any_node it1 = Panic PUnreachable /\
  visit_item ascii (fun _ => None) any_node it2 = Panic PErrorData.
Proof. eexists _, _. repeat split; vm_compute; reflexivity. Qed.

Lemma raw_strings_respelled : exists s,
  visit_stmt ascii (fun _ => None) any_node (SOther [TLit (LStr (txt "text") s)]) = Ok (SOther [ls "text"]) /\ s <> [].
Proof. exists (txt "r#"). split; [vm_compute; reflexivity|discriminate]. Qed.

Lemma unchanged_example :
  let it := IMod [doc "a module"] [i "pub"] false (txt "m") (Some
    [IStruct [] [i "pub"] (txt "S") no_generics (FNamed [plain_field "a" (i "u8"); plain_field "b" (i "T")] true);
     IImpl [] false false no_generics (Some (false, [i "Tr"])) [i "S"]
       [MFn [doc "f"] [] false [i "fn"; i "f"; paren []] [SOther [i "g"; paren []; p1 ";"]; SItem (IOther [i "use"; i "x"; p1 ";"])]]]) in
  item_ok ascii any_node it /\ untouched ascii (fun _ => None) (item_tokens it) /\ drop_where it = it /\
  (let! it' := visit_item ascii (fun _ => None) any_node it in Ok (item_tokens it')) = Ok (item_tokens it).
Proof.
  intros it. split; [|split; [plain_leaves|split; [reflexivity|vm_compute; reflexivity]]].
  repeat split; try reflexivity; try (repeat constructor; fail).
  all: try (repeat constructor; cbn; intros ? H; injection H as <-; reflexivity).
  all: intros; cbn; reflexivity.
Qed.

Lemma no_alias_left O lookup reparse : faithful O reparse ->
  (forall k, In k item_keywords -> lookup k = None) ->
  (forall x v y, lookup x = Some v -> In (TIdent y) (leaves (to_tokens v)) -> lookup y = None) ->
  forall it it' x, visit_item O lookup reparse it = Ok it' -> In (TIdent x) (leaves (item_tokens it')) -> lookup x = None.
Proof.
  intros F Hkw Hc it it' x Hv Hin. rewrite (item_emit O lookup reparse F Hkw it it' Hv), substituted_leaves in Hin.
  apply in_flat_map in Hin as (t & Hl & Ht). destruct t as [y|c j|l|d g].
  - destruct (lookup y) as [v|] eqn:E; [eapply Hc; eassumption|]. destruct Ht as [H|[]]. congruence.
  - destruct Ht as [H|[]]. discriminate.
  - destruct (parse_lit_str O [TLit l]) as [[v p]|]; destruct Ht as [H|[]]; discriminate.
  - exfalso. exact (leaves_no_group _ _ _ Hl).
Qed.

Lemma every_part_example :
  let a := aliases [("name", VIdent (txt "S")); ("ty", VType [i "Vec"; p1 "<"; i "u8"; p1 ">"]); ("fld", VIdent (txt "x")); ("n", VLitInt (txt "3") (txt "3"))]%string in
  let run it := let! it' := visit_item ascii a any_node it in Ok (item_tokens it') in
  run (IStruct [doc "%name%"] [] (txt "name") no_generics (FNamed [plain_field "fld" (i "ty")] false)) =
    Ok [p1 "#"; bracket [i "doc"; p1 "="; ls "S"]; i "struct"; i "S"; brace [i "x"; p1 ":"; i "Vec"; p1 "<"; i "u8"; p1 ">"]] /\
  run (IEnum [] [] (txt "E") no_generics [{| v_attrs := []; v_ident := txt "name"; v_fields := FUnnamed [{| f_attrs := []; f_vis := []; f_ident := None; f_ty := [i "ty"] |}] true; v_disc := Some [i "n"] |}] false) =
    Ok [i "enum"; i "E"; brace [i "S"; paren [i "Vec"; p1 "<"; i "u8"; p1 ">"; p1 ","]; p1 "="; li "3"]] /\
  run (ITrait [] [] false false (txt "T") no_generics [[i "name"]; [i "Q"]] false [TFn [] [i "fn"; i "fld"; paren []] (Some [SOther [i "n"]])]) =
    Ok [i "trait"; i "T"; p1 ":"; i "S"; p1 "+"; i "Q"; brace [i "fn"; i "x"; paren []; brace [li "3"]]] /\
  faithful ascii any_node /\ (forall k, In k item_keywords -> a k = None).
Proof.
  intros a run. split; [vm_compute; reflexivity|]. split; [vm_compute; reflexivity|]. split; [vm_compute; reflexivity|]. split.
  - constructor.
    + intros k ts ts' H. destruct k, ts; cbn in H; congruence.
    + intros ts x H. cbv [parse_ident ascii] in H. destruct ts as [|[y| | |] [|]]; try discriminate. destruct (is_kw y); [discriminate|]. injection H as <-. reflexivity.
    + intros ts v p H. cbn in H. destruct ts as [|[| |[w q| |]|] [|]]; try discriminate. injection H as <- <-. reflexivity.
  - intros k H. cbn in H. repeat (destruct H as [<-|H]; [reflexivity|]). contradiction.
Qed.

(** The ASCII instance does not look into strings. *)
Lemma ascii_indifferent : indifferent ascii any_node.
Proof.
  split.
  - intros k ts ts' H E. destruct k; cbn [any_node] in *; try discriminate E.
    destruct H; [reflexivity|discriminate E].
  - intros ts ts' H E. destruct H as [|t t' r r' Ht Hr]; [reflexivity|]. destruct Ht; try reflexivity. destruct Hr; [|reflexivity]. exact E.
  - intros ts ts' H E. destruct H as [|t t' r r' Ht Hr]; [reflexivity|]. destruct Ht as [| |l| |]; try reflexivity; [destruct l; destruct Hr; try reflexivity; exact E|destruct Hr; [discriminate E|reflexivity]].
  - intros l r E. destruct l; cbn in E; try discriminate E. eauto.
Qed.

Lemma respelled_example :
  let it := IStruct [doc "d"] [i "pub"] (txt "S") {| g_params := [p1 "<"; i "T"; p1 ">"]; g_where := [i "where"; i "T"; p1 ":"; i "Copy"] |}
    (FNamed [{| f_attrs := [{| is_inner := false; meta := [i "serde"; paren [TLit (LStr (txt "x") (txt "r#"))]] |}]; f_vis := []; f_ident := Some (txt "a"); f_ty := [i "T"] |}] false) in
  item_ok ascii any_node it /\ unaliased ascii (fun _ => None) (item_tokens (drop_where it)) /\
  (let! it' := visit_item ascii (fun _ => None) any_node it in Ok (item_tokens it')) =
  Ok [p1 "#"; bracket [i "doc"; p1 "="; ls "d"]; i "pub"; i "struct"; i "S"; p1 "<"; i "T"; p1 ">";
      brace [p1 "#"; bracket [i "serde"; paren [ls "x"]]; i "a"; p1 ":"; i "T"]].
Proof.
  intros it. split; [repeat constructor; cbn; intros ? H; injection H as <-; reflexivity|]. split; [|vm_compute; reflexivity].
  split; [intros ? _; reflexivity|]. intros l c s H E. cbn in H. repeat (destruct H as [H|H]; [try discriminate H; injection H as <-; cbn in E; injection E as <- <-; cbn; intuition discriminate|]). destruct H.
Qed.

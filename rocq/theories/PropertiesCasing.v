(** C74: the case conversions, on ASCII text.  [words] and the spellings are in SpecCasing. *)
From Coq Require Import String.
From Verif Require Import Base Token Types Values Ast Env Eval FormatString SpecElab SpecCalls SpecNesting SpecCasing
  CasingProofs CasingLaws Concrete ConcreteSpecs RustInstance.
Open Scope list_scope.

(** The three conversions write the same words, which are found position by position. *)
Theorem C74_spellings : forall x,
  to_snake_case rust x = join (txt "_") (snake_words x) /\
  to_pascal_case rust x = List.concat (pascal_words x) /\ to_camel_case rust x = List.concat (camel_words x).
Proof. intros x. split; [exact (snake_is x)|]. split; [exact (pascal_is x)|exact (camel_is x)]. Qed.
Print Assumptions C74_spellings.

Example C74_words_example :
  map (fun x => words (txt x)) ["fooBar"; "HTTPServer2x"; "my_XMLFile"; "a1B"; "A1Bc"; "__1__"; "1Ab"]%string =
  map (map txt) [["foo"; "Bar"]; ["HTTP"; "Server2x"]; ["my"; "XML"; "File"]; ["a1"; "B"]; ["A1"; "Bc"]; ["1"]; ["1Ab"]]%string.
Proof. vm_compute. reflexivity. Qed.

(** No letter or digit is lost, added or moved; only the case and what is between them changes. *)
Theorem C74_letters : forall x,
  filter is_alnum (to_snake_case rust x) = map low (filter is_alnum x) /\
  map low (to_pascal_case rust x) = map low (filter is_alnum x) /\ map low (to_camel_case rust x) = map low (filter is_alnum x).
Proof. exact letters_kept. Qed.
Print Assumptions C74_letters.

(** The result of [snake_case] is in snake case, and what is in snake case stays as it is. *)
Theorem C74_snake : forall x, snake_shaped (to_snake_case rust x) /\ (snake_shaped x -> to_snake_case rust x = x).
Proof. intros x. split; [exact (snake_shape x)|exact (shaped_snake x)]. Qed.
Print Assumptions C74_snake.

(** Constants in capitals go back to snake case. *)
Theorem C74_constants : forall x, to_snake_case rust (upper rust (to_snake_case rust x)) = to_snake_case rust x.
Proof. exact snake_screaming. Qed.
Print Assumptions C74_constants.

(** Texts with the same snake case have the same pascal case and the same camel case. *)
Theorem C74_snake_decides : forall x y, to_snake_case rust x = to_snake_case rust y ->
  to_pascal_case rust x = to_pascal_case rust y /\ to_camel_case rust x = to_camel_case rust y.
Proof. exact snake_decides. Qed.
Print Assumptions C74_snake_decides.

(** From pascal case and from camel case one gets back to snake case exactly if the words can
    be told apart without the underscores. *)
Theorem C74_back : forall x,
  (to_snake_case rust (to_pascal_case rust x) = to_snake_case rust x <-> all_apart (pascal_words x) = true) /\
  (to_snake_case rust (to_camel_case rust x) = to_snake_case rust x <-> all_apart (camel_words x) = true).
Proof. intros x. split; [exact (snake_pascal x)|exact (snake_camel x)]. Qed.
Print Assumptions C74_back.

Example C74_back_example :
  all_apart (pascal_words (txt "my_xml_file")) = true /\ all_apart (camel_words (txt "my_xml_file")) = true /\
  all_apart (pascal_words (txt "a_bc")) = true /\ all_apart (camel_words (txt "a_b")) = true /\
  all_apart (pascal_words (txt "a_b")) = false /\ all_apart (pascal_words (txt "part_2")) = false.
Proof. vm_compute. repeat split. Qed.

(** So [pascal_case] and [camel_case] are not what they are twice: [a_b], [AB], [Ab], and
    [a_b_c], [aBC], [aBc]. *)
Theorem C74_twice_refuted : exists x y,
  to_pascal_case rust (to_pascal_case rust x) <> to_pascal_case rust x /\ to_camel_case rust (to_camel_case rust y) <> to_camel_case rust y.
Proof. exists (txt "a_b"), (txt "a_b_c"). vm_compute. split; discriminate. Qed.
Print Assumptions C74_twice_refuted.

(** The result of a conversion is an identifier exactly if the first letter or digit is a
    letter; [upper] and [lower] keep identifiers. *)
Theorem C74_identifiers : forall x,
  let ok := match first_alnum x with Some c => is_alpha c | None => false end in
  ident_ok rust (to_snake_case rust x) = ok /\ ident_ok rust (to_pascal_case rust x) = ok /\ ident_ok rust (to_camel_case rust x) = ok /\
  ident_ok rust (upper rust x) = ident_ok rust x /\ ident_ok rust (lower rust x) = ident_ok rust x.
Proof.
  intros x. destruct (names_kept x) as (H1 & H2 & H3). split; [exact H1|]. split; [exact H2|]. split; [exact H3|]. split; [exact (upper_names x)|exact (lower_names x)].
Qed.
Print Assumptions C74_identifiers.

(** So a name without letters, or with a digit before them, makes the macro panic:
    [a = snake_case(_1x)]. *)
Example C74_panic_example :
  ident_ok rust (txt "_1x") = true /\ ident_ok rust (txt "__") = true /\
  map (fun x => make_substitutions rust (new_initialized rust 1 0) (spec_of [(txt "a", ECall 1 (txt "snake_case") [id_ 2 x] None)])) ["_1x"; "__"; "_x1"]%string =
  [Panic PIdentNew; Panic PIdentNew; Ok [(txt "a", VIdent (txt "x1"))]].
Proof. repeat split; vm_compute; reflexivity. Qed.

(** In definitions: a conversion to snake case makes no difference inside of another
    conversion, nor does [upper] or [lower] inside of [upper] or [lower]. *)
Theorem C74_absorbed : forall outer inner, In (outer, inner) absorbed -> forall seed first_id pre a e post i j raw raw' raw'' c c',
  let nested := ECall i outer [ECall j inner [e] raw'] raw in
  let flat := ECall i outer [e] raw'' in
  NoDup (item_ids (pre ++ (a, nested) :: post)) -> NoDup (item_ids (pre ++ (a, flat) :: post)) ->
  independent_items [] (pre ++ (a, nested) :: post) = true -> independent_items [] (pre ++ (a, flat) :: post) = true ->
  make_substitutions rust (new_initialized rust seed first_id) {| spec_items := pre ++ (a, nested) :: post; is_comma_used := c |} =
  make_substitutions rust (new_initialized rust seed first_id) {| spec_items := pre ++ (a, flat) :: post; is_comma_used := c' |}.
Proof. exact absorbed_law. Qed.
Print Assumptions C74_absorbed.

(** [a = pascal_case(snake_case(concat(my, XMLFile)))] and [a = pascal_case(concat(my, XMLFile))]. *)
Example C74_absorbed_example :
  let e := ECall 3 (txt "concat") [id_ 4 "my"; id_ 5 "XMLFile"] None in
  let nested := [(txt "a", ECall 1 (txt "pascal_case") [ECall 2 (txt "snake_case") [e] None] None)] in
  let flat := [(txt "a", ECall 1 (txt "pascal_case") [e] None)] in
  In (txt "pascal_case", txt "snake_case") absorbed /\ independent_items [] nested = true /\ independent_items [] flat = true /\
  make_substitutions rust (new_initialized rust 1 0) (spec_of nested) = Ok [(txt "a", VIdent (txt "MyXmlFile"))] /\
  make_substitutions rust (new_initialized rust 1 0) (spec_of flat) = Ok [(txt "a", VIdent (txt "MyXmlFile"))].
Proof. cbv zeta. split; [cbn; tauto|]. repeat split; vm_compute; reflexivity. Qed.

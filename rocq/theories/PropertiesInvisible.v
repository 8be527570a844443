(** C69: invisible groups, which hold what the fragments of a [macro_rules!] macro stand for.
    [flats], [all_visible], [all_fine], [part_of], [transparent_at], [same_parse], [separated],
    [begins] and [each_argument] are in SpecInvisible, [go] in SpecCursor, [position] and
    [reads] in SpecDistance. *)
From Coq Require Import String.
From Verif Require Import Base Token Types Values Ast Env Item Deprecation Interpreter Parse Macro
  SpecParse SpecForms InvisibleParse InvisibleMacro SpecInvisible InvisibleInstance InvisibleTop
  TokenDistance SpecDistance SpecCursor InvisibleDistance
  Concrete ConcreteSpecs ConcreteRuns ConcreteParse ConcreteForms RustLexer RustInstance RustLaws.
Open Scope list_scope.

(** Without such groups the parser is the one of Parse.v, which the other claims are about. *)
Theorem C69_visible : forall P has_func n ts, all_visible ts = true ->
  InvisibleParse.parse_func_macro P has_func n ts = Parse.parse_func_macro P has_func n ts.
Proof. exact func_visible. Qed.
Print Assumptions C69_visible.
Theorem C69_visible_item : forall P has_func n attr item, all_visible attr = true -> all_visible item = true ->
  InvisibleParse.parse_attr_macro P has_func n attr item = Parse.parse_attr_macro P has_func n attr item.
Proof. exact attr_visible. Qed.
Print Assumptions C69_visible_item.
Theorem C69_visible_uses : forall O P Y uses, Forall (fun u => source_visible (u_source u) = true) uses ->
  expand_uses_through O P Y uses = expand_uses O P Y uses.
Proof. exact uses_visible. Qed.
Print Assumptions C69_visible_uses.

(** With them, if [syn]'s own parsers read through them, none is empty and none holds a comma
    at its top: the input parses as without them, but for those kept in what was parsed. *)
Theorem C69_transparent : forall P has_func n ts, all_fine ts = true -> (forall s, part_of ts s -> transparent_at P s) ->
  same_parse (InvisibleParse.parse_func_macro P has_func n ts) (Parse.parse_func_macro P has_func n (flats ts)).
Proof. exact func_through. Qed.
Print Assumptions C69_transparent.
Theorem C69_transparent_item : forall P has_func n attr item, all_fine attr = true -> all_fine item = true ->
  (forall s, part_of attr s \/ part_of [TGroup Brace item] s -> transparent_at P s) ->
  same_parse (InvisibleParse.parse_attr_macro P has_func n attr item) (Parse.parse_attr_macro P has_func n (flats attr) (flats item)).
Proof. exact attr_through. Qed.
Print Assumptions C69_transparent_item.

(** There are parsers that read through all invisible groups. *)
Theorem C69_instance : forall P, within P -> forall ts, transparent_at (reading_through P) ts.
Proof. exact instance_transparent. Qed.
Print Assumptions C69_instance.

(** [for x in [p, «q r»] «f» = concat(«foo», «_», x), { fn f() «{}» }] *)
Example C69_example :
  let inv ts := TGroup NoDelim ts in
  let ts := [i "for"; i "x"; i "in"; bracket [inv [i "p"]; p1 ","; i "q"]; inv [i "f"]; p1 "="; i "concat";
             paren [inv [i "foo"]; p1 ","; i "_"; p1 ","; inv [inv [i "x"]]]; comma; inv [brace (fn_named "f")]] in
  let P := reading_through ascii_parsers in
  all_fine ts = true /\ all_visible ts = false /\ (forall s, transparent_at P s) /\
  (exists a, p_ast (InvisibleParse.parse_func_macro P known0 0 ts) = Ok (Some a)) /\
  expand_uses_through ascii P syntax1 [use_of (Compose ts)] = [Code (fn_named "foo_p" ++ fn_named "foo_q")].
Proof.
  intros inv ts P. split; [reflexivity|]. split; [reflexivity|]. split; [intros s; apply instance_transparent, ascii_within|].
  split; [eexists; vm_compute; reflexivity|]. vm_compute. reflexivity.
Qed.

(** The two conditions are needed.  Behind a comma an empty group is one more value, without it
    there is none.  (As from [$v:vis] where there is no [pub].) *)
Theorem C69_empty_refuted : exists P has_func n ts a b, (forall s, transparent_at P s) /\
  p_ast (InvisibleParse.parse_func_macro P has_func n ts) = Ok (Some a) /\
  p_ast (Parse.parse_func_macro P has_func n (flats ts)) = Ok (Some b) /\ flat_ast a <> flat_ast b.
Proof.
  exists (reading_through ascii_parsers), known0, 0%N, [i "for"; i "x"; i "in"; bracket [i "p"; p1 ","; TGroup NoDelim []]; brace (fn_named "x")].
  eexists. eexists. split; [intros s; apply instance_transparent, ascii_within|].
  split; [vm_compute; reflexivity|]. split; [vm_compute; reflexivity|]. vm_compute. discriminate.
Qed.
Print Assumptions C69_empty_refuted.

(** Behind a value an empty group is one more token: [upper(x «»)] is no call of [upper], which
    has no overload for tokens. *)
Example C69_trailing_empty :
  let P := reading_through ascii_parsers in
  let call ts := Compose [i "a"; p1 "="; i "upper"; paren ts; comma; brace (fn_named "a")] in
  expand_uses_through ascii P syntax1 [use_of (call [i "x"; TGroup NoDelim []]); use_of (call [TGroup NoDelim []; i "x"]); use_of (call [i "x"])]
  = [CompileError (SignatureError (txt "upper")); Code (fn_named "X"); Code (fn_named "X")].
Proof. vm_compute. reflexivity. Qed.

(** A comma in a group does not end an argument, while one in the tokens would. *)
Theorem C69_comma_refuted : exists P has_func n ts a b, (forall s, transparent_at P s) /\
  p_ast (InvisibleParse.parse_func_macro P has_func n ts) = Ok (Some a) /\
  p_ast (Parse.parse_func_macro P has_func n (flats ts)) = Ok (Some b) /\ flat_ast a <> flat_ast b.
Proof.
  exists (reading_through rust_parsers), (known rust), 0%N,
    (lex "n = normalize2" ++ TGroup Paren [TGroup NoDelim (lex "HashMap<K, V>")] :: lex ", { fn n() {} }").
  eexists. eexists. split; [intros s; apply instance_transparent, rust_within|].
  split; [vm_compute; reflexivity|]. split; [vm_compute; reflexivity|]. vm_compute. discriminate.
Qed.
Print Assumptions C69_comma_refuted.

(** What is an argument: the token trees between commas that are not in invisible groups,
    whatever these hold behind their first token. *)
Theorem C69_arguments : forall P has_func pieces n, Forall (fun p => p <> [] /\ forallb begins p = true) pieces ->
  parse_args P has_func (flat_map (ann P has_func) (separated pieces)) (separated pieces) n =
  match each_argument P has_func n pieces with (n', o) => (n', match o with Some args => args | None => [] end) end.
Proof. exact arguments_each. Qed.
Print Assumptions C69_arguments.
(** [normalize2(«HashMap<K, V>», u8)]: two arguments; without the group there are three. *)
Example C69_arguments_example :
  let P := reading_through rust_parsers in
  let args ts := snd (parse_args P (known rust) (flat_map (ann P (known rust)) ts) ts 0%N) in
  let pieces := [[TGroup NoDelim (lex "HashMap<K, V>")]; lex "u8"] in
  Forall (fun p => p <> [] /\ forallb begins p = true) pieces /\
  args (separated pieces) = [EValue 0 (VPath (lex "HashMap<K, V>")); EValue 1 (VIdent (txt "u8"))] /\
  args (flats (separated pieces)) = [EValue 0 (VExpr (lex "HashMap<K")); EValue 1 (VTokens (lex "V>")); EValue 2 (VIdent (txt "u8"))].
Proof. intros P args pieces. split; [repeat constructor; discriminate|]. split; vm_compute; reflexivity. Qed.

(** The distance the model uses is the one token_distance.rs computes on [syn]'s buffer. *)
Theorem C69_distance : forall ts c l k, position (buffer ts) c -> reads (buffer ts) c l -> k <= all_entries l ->
  exists c', go k (buffer ts) c = Some c' /\ token_distance (buffer ts) c c' = Ok (distance k l).
Proof. exact distance_through. Qed.
Print Assumptions C69_distance.
Example C69_distance_example :
  let ts := [i "a"; TGroup NoDelim [i "b"; TGroup NoDelim []; paren [i "c"; i "d"]]; i "e"] in
  let c := begin (buffer ts) in
  reads (buffer ts) c ts /\ position (buffer ts) c /\ all_entries ts = 6 /\
  map (fun k => option_map (token_distance (buffer ts) c) (go k (buffer ts) c)) [0; 1; 2; 3; 4; 5; 6]
  = map (fun n => Some (Ok n)) [0; 1; 1; 2; 2; 4; 5].
Proof. intros ts c. split; [apply DistanceProofs.reads_begin|]. split; [apply at_begin|]. split; vm_compute; reflexivity. Qed.

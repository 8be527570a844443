(** C45: reproducibility.  [same_use] and [hash_free] are in SpecRepro. *)
From Coq Require Import String.
From Verif Require Import Base Token Types Values Ast Env Item Deprecation Interpreter Parse Macro
  SpecElab SpecPrograms SpecParse SpecRepro ReproProofs Concrete ConcreteSpecs ConcreteRuns ConcreteParse.
Open Scope list_scope.

(** C45: what the uses in a compilation yield depends on their sources and, for those that
    hash something, on their seeds; not on the ids given to functions and nodes. *)
Theorem C45_counters_do_not_matter : forall O P Y uses uses', Forall2 (same_use O P) uses uses' ->
  expand_uses O P Y uses = expand_uses O P Y uses'.
Proof. exact uses_same. Qed.
Print Assumptions C45_counters_do_not_matter.

(** Parsing draws ids but reads the same. *)
Theorem C45_parsing : forall P has_func n n' ts,
  erase_parsed (parse_func_macro P has_func n ts) = erase_parsed (parse_func_macro P has_func n' ts).
Proof. exact func_macro_same. Qed.
Print Assumptions C45_parsing.
Theorem C45_parsing_item : forall P has_func n n' attr item,
  erase_parsed (parse_attr_macro P has_func n attr item) = erase_parsed (parse_attr_macro P has_func n' attr item).
Proof. exact attr_macro_same. Qed.
Print Assumptions C45_parsing_item.

(** Definitions that do not hash do not see the seed. *)
Theorem C45_seed : forall O seed seed' first_id items,
  Forall (calls_known (fun f => negb (str_eqb f (txt "hash")))) (map snd items) ->
  bindings O (new_initialized O seed first_id) items = bindings O (new_initialized O seed' first_id) items.
Proof. exact bindings_seed. Qed.
Print Assumptions C45_seed.

(** Hashes do: a use of [hash] yields other code with another seed, that is, when the number
    of ids drawn before it changes, for instance by another use of a macro in front of it. *)
Theorem C45_sources_suffice_refuted : exists O P Y u u', u_source u = u_source u' /\
  expand_uses O P Y [u] <> expand_uses O P Y [u'].
Proof.
  exists ascii, ascii_parsers, syntax0.
  set (s := Compose [i "a"; p1 "="; i "hash"; paren [i "x"]; p1 ","; brace (fn_named "a")]).
  exists {| u_source := s; u_seed := 7; u_first_id := 100; u_next_id := 1000 |},
         {| u_source := s; u_seed := 8; u_first_id := 100; u_next_id := 1000 |}.
  split; [reflexivity|]. vm_compute. discriminate.
Qed.
Print Assumptions C45_sources_suffice_refuted.

(** [a = concat(upper(x), y), { fn a() {} }] with other seeds and other ids. *)
Example C45_example :
  let s := Compose [i "a"; p1 "="; i "concat"; paren [i "upper"; paren [i "x"]; p1 ","; i "y"]; p1 ","; brace (fn_named "a")] in
  let u a b c := {| u_source := s; u_seed := a; u_first_id := b; u_next_id := c |} in
  same_use ascii ascii_parsers (u 7 100 1000)%N (u 8 200 5)%N /\
  (exists ast, p_ast (inv_parsed (invocation_for ascii ascii_parsers (u 7 100 1000)%N)) = Ok (Some ast)) /\
  expand_uses ascii ascii_parsers syntax0 [u 7 100 1000; u 8 200 5]%N = [Code (fn_named "Xy"); Code (fn_named "Xy")].
Proof.
  split; [split; [reflexivity|right]|split; [eexists; vm_compute; reflexivity|vm_compute; reflexivity]].
  intros ast H. vm_compute in H. injection H as <-. unfold hash_free. repeat constructor.
Qed.

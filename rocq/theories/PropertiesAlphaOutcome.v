(** C106: what uses with other names for their aliases come to, failures included.
    [rename_error], [rename_failure], [scoped_parts] and [values_kept] are in SpecAlphaOutcome,
    [names_alike], [scoped_use] and [aliases_before] in SpecAlpha, [renames] in SpecRename,
    [first_part_failure] in SpecOutcome. *)
From Coq Require Import String.
From Verif Require Import Base Token Types Values Ast Env Item Deprecation Interpreter Parse Macro ConcreteParse RustLexer RustGrammar RustInstance RustLaws RustRename
  SpecMacro SpecFormat SpecElab SpecSubst SpecItem SpecDeprecation SpecNaming SpecNested SpecRename SpecHeaders SpecOutcome SpecAlpha SpecAlphaOutcome RustAlpha AlphaOutcomeProofs RustAlphaOutcome.
Open Scope list_scope.

(** Definitions fail for the same reason; a name defined twice is reported as the other name. *)
Theorem C106_definitions : forall O r seed k items, one_to_one r -> aliases_before r [] items ->
  bindings O (new_initialized O seed k) (map (rename_definition r) items) =
  match bindings O (new_initialized O seed k) items with
  | Ok bs => Ok (rename_keys r bs)
  | Err e => Err (rename_error r e)
  | Panic p => Panic p
  end.
Proof. exact (fun O r seed k items R => definitions_end O r R seed k items). Qed.
Print Assumptions C106_definitions.

(** A use in whose source all aliases have other names comes to the same: the same code and
    the same warnings, or the same error, or the same panic; an error that names an alias names the
    other one. *)
Theorem C106_use : forall O P Y r uses i u ast uses' j u', names_alike O P r -> renames r O P Y -> faithful O (reparse Y) ->
  nth_error uses i = Some u -> p_ast (inv_parsed (invocation_for O P u)) = Ok (Some ast) ->
  nth_error uses' j = Some u' -> u_source u' = rename_source r (u_source u) -> u_seed u' = u_seed u -> prefix_of (u_source (hd u' uses')) = prefix_of (u_source (hd u uses)) ->
  (forall x, In x item_keywords -> ~ In x (ast_aliases ast)) -> scoped_use O r ast -> scoped_parts O r ast -> values_kept O r (new_initialized O (u_seed u) (u_first_id u)) ast ->
  nth_error (expand_uses O P Y uses') j = option_map (rename_failure r) (nth_error (expand_uses O P Y uses) i).
Proof. exact (fun O P Y r uses i u ast uses' j u' A N F => use_end O P Y r A N F uses i u ast uses' j u'). Qed.
Print Assumptions C106_use.

(** What is not read with the one names is not read with the others. *)
Theorem C106_unread : forall O P Y r uses i u uses' j u', names_alike O P r ->
  nth_error uses i = Some u -> nth_error uses' j = Some u' -> u_source u' = rename_source r (u_source u) ->
  nth_error (expand_uses O P Y uses) i = Some SyntaxError -> nth_error (expand_uses O P Y uses') j = Some SyntaxError.
Proof. exact (fun O P Y r uses i u uses' j u' A => use_unread O P Y r A uses i u uses' j u'). Qed.
Print Assumptions C106_unread.

(** What is assumed of syn holds of the parsers of RustInstance.v. *)
Theorem C106_rust : forall l, (forall p, In p l -> ~ In (fst p) grammar_words /\ ~ In (snd p) grammar_words) -> renames (exchanging l) rust rust_parsers rust_syntax.
Proof. exact exchanging_renames. Qed.
Print Assumptions C106_rust.

(** All hypotheses together, in a use that fails: a number where the structure needs a name. *)
Example C106_example :
  let u := use_of (Compose (lex "a = foo, n = 1, { fn a() -> u8 { n } struct n; }")) in
  let u' := use_of (Compose (lex "b = foo, k = 1, { fn b() -> u8 { k } struct k; }")) in
  let r := exchanging [(txt "a", txt "b"); (txt "n", txt "k")] in
  exists ast,
    names_alike rust rust_parsers r /\ renames r rust rust_parsers rust_syntax /\ faithful rust (reparse rust_syntax) /\
    p_ast (inv_parsed (invocation_for rust rust_parsers u)) = Ok (Some ast) /\
    u_source u' = rename_source r (u_source u) /\ u_seed u' = u_seed u /\ prefix_of (u_source u') = prefix_of (u_source u) /\
    (forall x, In x item_keywords -> ~ In x (ast_aliases ast)) /\ scoped_use rust r ast /\ scoped_parts rust r ast /\ values_kept rust r (new_initialized rust (u_seed u) (u_first_id u)) ast /\
    expand_uses rust rust_parsers rust_syntax [u] = [CompileError (SubstitutionError (txt "n"))] /\
    expand_uses rust rust_parsers rust_syntax [u'] = [CompileError (SubstitutionError (txt "k"))].
Proof.
  intros u u' r.
  destruct (p_ast (inv_parsed (invocation_for rust rust_parsers u))) as [[ast|]|e|m] eqn:E; try (vm_compute in E; discriminate E).
  exists ast. vm_compute in E. injection E as <-.
  split. { apply rust_exchanging. intros p Hp. cbn in Hp. repeat (destruct Hp as [<-|Hp]; [repeat split; try (vm_compute; reflexivity); intros H; vm_compute in H; intuition discriminate|]). destruct Hp. }
  split. { apply exchanging_renames. intros p Hp. cbn in Hp. repeat (destruct Hp as [<-|Hp]; [split; intros H; vm_compute in H; intuition discriminate|]). destruct Hp. }
  split; [exact rust_faithful|]. split; [reflexivity|]. split; [vm_compute; reflexivity|]. split; [reflexivity|]. split; [reflexivity|].
  split; [intros x Hx Hin; vm_compute in Hx, Hin; intuition congruence|].
  split.
  { intros items Hi. vm_compute in Hi. destruct Hi as [Hi|[]]; injection Hi as <-.
    split; [cbn [aliases_before fst snd scoped_expr map fold_right]; repeat split; try (right; vm_compute; reflexivity); vm_compute; reflexivity|].
    split; [intros x Hx; vm_compute in Hx; repeat (destruct Hx as [Hx|Hx]; [try discriminate Hx; injection Hx as <-; first [right; vm_compute; reflexivity|left; vm_compute; auto 10]|]); destruct Hx|].
    intros l v p Hl Hp; vm_compute in Hl; repeat (destruct Hl as [Hl|Hl]; [discriminate Hl|]); destruct Hl. }
  split.
  { intros items q Hi Hq. vm_compute in Hi. destruct Hi as [Hi|[]]; injection Hi as <-. vm_compute in Hq.
    repeat (destruct Hq as [<-|Hq]; [split;
      [intros x Hx; vm_compute in Hx; repeat (destruct Hx as [Hx|Hx]; [try discriminate Hx; injection Hx as <-; first [right; vm_compute; reflexivity|left; vm_compute; auto 10]|]); destruct Hx
      |intros l v p Hl Hp; vm_compute in Hl; repeat (destruct Hl as [Hl|Hl]; [discriminate Hl|]); destruct Hl]|]). destruct Hq. }
  split.
  { intros items bs b Hi Hb Hin. vm_compute in Hi. destruct Hi as [Hi|[]]; injection Hi as <-. vm_compute in Hb. injection Hb as <-. destruct Hin as [<-|[<-|[]]]; vm_compute; reflexivity. }
  vm_compute. split; reflexivity.
Qed.

(** A name that is defined twice. *)
Example C106_redefined :
  expand_uses rust rust_parsers rust_syntax [use_of (Compose (lex "a = foo, a = bar, { fn a() { } }"))] = [CompileError (RedefinedNameError (txt "a"))] /\
  expand_uses rust rust_parsers rust_syntax [use_of (Compose (lex "b = foo, b = bar, { fn b() { } }"))] = [CompileError (RedefinedNameError (txt "b"))].
Proof. vm_compute. split; reflexivity. Qed.

(** Not if two names become one. *)
Theorem C106_merged_refuted : exists r ts, (forall l, on_literals r l = l) /\ known rust (txt "a") = known rust (r (txt "a")) /\
  expand_uses rust rust_parsers rust_syntax [use_of (Compose ts)] = [Code (lex "fn foo() { bar }")] /\
  expand_uses rust rust_parsers rust_syntax [use_of (Compose (rename r ts))] = [CompileError (RedefinedNameError (txt "b"))].
Proof. exists {| on_idents := fun x => if str_eqb x (txt "a") then txt "b" else x; on_literals := fun l => l |}, (lex "a = foo, b = bar, { fn a() { b } }"). split; [reflexivity|]. vm_compute. repeat split; reflexivity. Qed.
Print Assumptions C106_merged_refuted.

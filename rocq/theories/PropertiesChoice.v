(** C94: overloads that no call takes in the end do not matter.  [more_overloads], [none_taken]
    and [new_not_taken] are in SpecChoice. *)
From Coq Require Import String.
From Verif Require Import Base Token Types Values Ast Env Expand Resolve Item Deprecation Interpreter Parse Macro SpecParse SpecScope
  Concrete ConcreteParse RustLexer RustInstance ConcreteExtend SpecExtend SpecOverload SpecChoice ExtendProofs OverloadProofs ChoiceProofs.
Open Scope list_scope.

(** C94: overloads may be added that accept the arguments of calls: if no call is resolved to
    an added one, nothing changes. *)
Theorem C94_not_taken : forall O P Y new rows rows' uses, Forall (fun u => more_overloads new rows rows' u /\ new_not_taken P rows' new u) uses ->
  expand_uses_with O P Y rows uses = expand_uses_with O P Y rows' uses.
Proof. intros O P Y new rows rows' uses H. exact (f_equal snd (not_taken new O P Y rows rows' uses H None)). Qed.
Print Assumptions C94_not_taken.

(** C94: an expression that is resolved still is after overloads have been added, and does not
    cost more. *)
Theorem C94_still_resolves : forall (rows rows' : list row) seed first_id G sc e expected sc' c,
  (forall x, match assoc_str x rows, assoc_str x rows' with
             | Some vs, Some vs' => interspersed (fun _ => True) vs vs'
             | None, None => True
             | _, _ => False
             end) ->
  ready G sc e -> resolve_expr (table_environment rows seed first_id) e sc expected = Ok sc' -> recorded_cost sc' e = Ok c ->
  exists sc2 c2, resolve_expr (table_environment rows' seed first_id) e sc expected = Ok sc2 /\ recorded_cost sc2 e = Ok c2 /\ (c2 <= c)%N.
Proof. exact still_resolves. Qed.
Print Assumptions C94_still_resolves.

(** [upper] of any tokens and [concat] of paths accept all the arguments here and are taken for
    none. *)
Example C94_example :
  let use := use_of (Compose (lex "for x in [a, b] y = concat(x, upper(made)), z = concat(x, _, 1, upper(y)), { fn y() {} fn z() {} }")) in
  more_overloads wider_new (Env.table rust) wider_table use /\ new_not_taken rust_parsers wider_table wider_new use /\
  takes token_upper 1 = true /\ takes path_concat 2 = true /\
  expand_uses_with rust rust_parsers rust_syntax wider_table [use] =
    [Code (lex "fn aMADE() {} fn a_1AMADE() {} fn bMADE() {} fn b_1BMADE() {}")].
Proof.
  cbv zeta. split; [|split; [|split; [reflexivity|split; [reflexivity|vm_compute; reflexivity]]]].
  - intros x Hx. vm_compute in Hx.
    assert (E : x = txt "concat" \/ x = txt "upper") by (repeat (destruct Hx as [<-|Hx]; [auto|]); contradiction).
    destruct E as [->| ->]; (constructor 3; [unfold wider_new; auto|apply interspersed_refl]).
  - intros ast rws rw H1 H2 H3. apply (none_recorded_taken wider_new _ wider_newb).
    + intros x o [(-> & ->)|(-> & ->)]; reflexivity.
    + set (env := table_environment wider_table _ _). vm_compute in H1. injection H1 as <-. vm_compute in H2. injection H2 as <-.
      destruct H3 as [<-|[<-|[]]]; vm_compute; reflexivity.
Qed.

(** [upper(1)] has no meaning without the added overload: an added one that is taken matters. *)
Theorem C94_taken_overload_matters :
  let use := use_of (Compose (lex "y = upper(1), { fn y() {} }")) in
  (exists msg, expand_uses_with rust rust_parsers rust_syntax (Env.table rust) [use] = [CompileError msg]) /\
  expand_uses_with rust rust_parsers rust_syntax wider_table [use] = [Code (lex "fn UPPER_TOKENS() {}")].
Proof. cbv zeta. split; [eexists; vm_compute; reflexivity|vm_compute; reflexivity]. Qed.
Print Assumptions C94_taken_overload_matters.

(** A use of several definitions may fail after an overload has been added: the first
    definition gets a type that the second cannot use. *)
Theorem C94_may_break :
  let use := use_of (Compose (lex "a = upper(x), b = upper(a), { fn b() {} }")) in
  more_overloads (fun _ _ => True) (Env.table rust) odd_table use /\
  expand_uses_with rust rust_parsers rust_syntax (Env.table rust) [use] = [Code (lex "fn X() {}")] /\
  exists msg, expand_uses_with rust rust_parsers rust_syntax odd_table [use] = [CompileError msg].
Proof.
  cbv zeta. split; [|split; [vm_compute; reflexivity|eexists; vm_compute; reflexivity]].
  intros x Hx. vm_compute in Hx. repeat (destruct Hx as [<-|Hx]; [constructor 3; [exact I|apply interspersed_refl]|]). contradiction.
Qed.
Print Assumptions C94_may_break.

(** C93: overloads that no call can take do not matter.  [same_but_for_overloads], [takes] and
    [arities] are in SpecOverload. *)
From Coq Require Import String.
From Verif Require Import Base Token Types Values Ast Env Item Deprecation Interpreter Parse Macro SpecParse
  Concrete ConcreteParse RustLexer RustInstance ConcreteExtend SpecExtend SpecOverload ExtendProofs OverloadProofs.
Open Scope list_scope.

(** C93: more overloads of the functions that the uses call change nothing if each takes
    another number of arguments than every call of its function. *)
Theorem C93_useless_overloads : forall O P Y rows rows' uses, Forall (same_but_for_overloads P rows rows') uses ->
  expand_uses_with O P Y rows uses = expand_uses_with O P Y rows' uses.
Proof. intros O P Y rows rows' uses H. exact (f_equal snd (useless_overloads O P Y rows rows' uses H None)). Qed.
Print Assumptions C93_useless_overloads.

(** An overload is refused by its number of parameters whatever the arguments are. *)
Theorem C93_refused : forall x id o args raw expected, takes o (List.length args) = false ->
  SpecElab.elab_func {| f_id := id; f_name := x; f_arg_types := fst (fst o); f_out_type := snd (fst o); f_impl := snd o |} args raw expected = None.
Proof. exact refused. Qed.
Print Assumptions C93_refused.

(** This is more than C92 says. *)
Theorem C93_covers_C92 : forall P rows rows' u, same_functions rows rows' u -> same_but_for_overloads P rows rows' u.
Proof. exact same_functions_overloads. Qed.
Print Assumptions C93_covers_C92.

(** [upper] with two arguments or none and [concat] with three do not disturb [upper] with one
    and [concat] with two or four. *)
Example C93_example :
  let use := use_of (Compose (lex "for x in [a, b] y = concat(x, upper(made)), z = concat(x, _, 1, upper(y)), { fn y() {} fn z() {} }")) in
  same_but_for_overloads rust_parsers (Env.table rust) richer_table use /\
  expand_uses_with rust rust_parsers rust_syntax richer_table [use] =
    [Code (lex "fn aMADE() {} fn a_1AMADE() {} fn bMADE() {} fn b_1BMADE() {}")].
Proof.
  cbv zeta. split; [|vm_compute; reflexivity].
  intros x Hx. vm_compute in Hx.
  assert (N : forall y o, (forall n, In n match p_ast (parse_source rust_parsers (Env.table rust) 1000 (Compose (lex "for x in [a, b] y = concat(x, upper(made)), z = concat(x, _, 1, upper(y)), { fn y() {} fn z() {} }"))) with Ok (Some ast) => flat_map (arities y) (ast_exprs ast) | _ => [] end -> takes o n = false) ->
    forall ast, p_ast (parse_source rust_parsers (Env.table rust) 1000 (Compose (lex "for x in [a, b] y = concat(x, upper(made)), z = concat(x, _, 1, upper(y)), { fn y() {} fn z() {} }"))) = Ok (Some ast) -> never_taken y ast o).
  { intros y o H ast Ha e n He Hn. rewrite Ha in H. apply H, in_flat_map. eauto. }
  assert (E : x = txt "concat" \/ x = txt "upper") by (repeat (destruct Hx as [<-|Hx]; [auto|]); contradiction).
  destruct E as [->| ->].
  - constructor 3; [|apply interspersed_refl]. apply N. intros n Hn. vm_compute in Hn. repeat (destruct Hn as [<-|Hn]; [reflexivity|]); contradiction.
  - constructor 3; [apply N; intros n Hn; vm_compute in Hn; repeat (destruct Hn as [<-|Hn]; [reflexivity|]); contradiction|].
    cbn [Env.table Env.str_funcs snd app]. repeat (constructor 2). constructor 3; [|constructor].
    apply N. intros n Hn. vm_compute in Hn. repeat (destruct Hn as [<-|Hn]; [reflexivity|]); contradiction.
Qed.

(** An overload that takes the number of arguments may be preferred. *)
Theorem C93_taken_overload_matters :
  let use := use_of (Compose (lex "y = concat(a, _, b), { fn y() {} }")) in
  takes triple_concat 3 = true /\
  expand_uses_with rust rust_parsers rust_syntax (Env.table rust) [use] = [Code (lex "fn a_b() {}")] /\
  expand_uses_with rust rust_parsers rust_syntax richer_table [use] = [Code (lex "fn triple() {}")].
Proof. cbv zeta. split; [reflexivity|]. split; vm_compute; reflexivity. Qed.
Print Assumptions C93_taken_overload_matters.

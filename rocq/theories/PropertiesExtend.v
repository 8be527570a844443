(** C92: functions that are not called do not matter.  [expand_uses_with] (SpecExtend) are the
    macros with another table of functions in place of funcs.rs; [called_by] are the names that
    stand directly before parentheses in the definitions of a use. *)
From Coq Require Import String.
From Verif Require Import Base Token Types Values Ast Env Item Deprecation Interpreter Parse Macro
  Concrete ConcreteParse RustLexer RustInstance ConcreteExtend SpecRepro SpecExtend ExtendProofs.
Open Scope list_scope.

(** C92: two tables with the same overloads of the functions that the uses name expand them
    alike. *)
Theorem C92_functions_not_called : forall O P Y rows rows' uses, Forall (same_functions rows rows') uses ->
  expand_uses_with O P Y rows uses = expand_uses_with O P Y rows' uses.
Proof. intros O P Y rows rows' uses H. exact (f_equal snd (unnamed_functions O P Y rows rows' uses H None)). Qed.
Print Assumptions C92_functions_not_called.

(** With the table of funcs.rs these are the macros. *)
Theorem C92_own_table : forall O P Y uses, expand_uses_with O P Y (Env.table O) uses = expand_uses O P Y uses.
Proof. exact own_table. Qed.
Print Assumptions C92_own_table.

(** Functions that are added take ids from the counter before the nodes do: the uses see other
    values of it, and come to the same as before. *)
Theorem C92_functions_added : forall O P Y rows uses uses', Forall2 (same_use O P) uses uses' -> Forall (same_functions (Env.table O) rows) uses' ->
  expand_uses_with O P Y rows uses' = expand_uses O P Y uses.
Proof. exact more_functions. Qed.
Print Assumptions C92_functions_added.

(** Wherever they are added. *)
Theorem C92_added_before : forall extra rows u, (forall x, In x (called_by (u_source u)) -> ~ In x (map fst extra)) -> same_functions rows (extra ++ rows) u.
Proof. exact added_front. Qed.
Print Assumptions C92_added_before.
Theorem C92_added_after : forall extra rows u, (forall x, In x (called_by (u_source u)) -> ~ In x (map fst extra)) -> same_functions rows (rows ++ extra) u.
Proof. exact added_back. Qed.
Print Assumptions C92_added_after.

(** [concat(a, made)] mentions [made] but does not call it; the uses hash, repeat and warn. *)
Example C92_example : let uses := map use_of
    [Compose (lex "for x in [a, b] y = concat(x, made), z = hash(1), { fn y() {} fn z() {} }");
     ComposeIdents (lex "y = upper(made), { const y: u8 = made(1); }");
     ComposeItem (lex "y = concat(hash(1), _, made)") (lex "fn y() {}")] in
  Forall (same_functions (Env.table rust) longer_table) uses /\
  flat_map (fun u => called_by (u_source u)) uses = [txt "concat"; txt "hash"; txt "upper"; txt "concat"; txt "hash"] /\
  expand_uses_with rust rust_parsers rust_syntax longer_table uses = expand_uses rust rust_parsers rust_syntax uses /\
  Forall (fun o => exists ts, o = Code ts) (expand_uses rust rust_parsers rust_syntax uses).
Proof.
  cbv zeta. set (uses := map use_of _).
  assert (H : Forall (same_functions (Env.table rust) longer_table) uses).
  { repeat constructor; intros x Hx; vm_compute in Hx; repeat (destruct Hx as [<-|Hx]; [reflexivity|]); contradiction. }
  split; [exact H|]. split; [vm_compute; reflexivity|]. split.
  - rewrite <- C92_own_table. symmetry. apply C92_functions_not_called, H.
  - set (os := expand_uses _ _ _ uses). vm_compute in os. subst os. repeat constructor; eexists; reflexivity.
Qed.

(** Called functions matter: a function [made] changes a use of a Rust function [made]. *)
Theorem C92_called_function_matters :
  let use := use_of (Compose (lex "a = made(1), { const X: u8 = a; }")) in
  called_by (u_source use) = [txt "made"] /\
  expand_uses_with rust rust_parsers rust_syntax (Env.table rust) [use] = [Code (lex "const X: u8 = made(1);")] /\
  expand_uses_with rust rust_parsers rust_syntax longer_table [use] = [Code (lex "const X: u8 = made_of_number;")].
Proof. cbv zeta. split; [vm_compute; reflexivity|]. split; vm_compute; reflexivity. Qed.
Print Assumptions C92_called_function_matters.

(** Nor is a name enough that stands apart from the parentheses, or in braces. *)
Example C92_not_called : called (lex "a = made, b = concat(made, [made, (1)]), { made(1); }") = [txt "concat"].
Proof. vm_compute. reflexivity. Qed.

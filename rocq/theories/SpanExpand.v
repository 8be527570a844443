(** Expansion of loops with spans: /repo/src/expand/raw_ast.rs, the same code as Expand.v with
    the texts and places of its errors. *)
From Coq Require Import String.
From Verif Require Import Base Token Types Values Ast Tuple CrossProduct Expand Failures SpanTokens SpanWalker SpanValues SpanEval SpanItem SpanParse.
Open Scope list_scope.

(** The iterators do not fail. *)
Definition slift {A} (r : res A) : sres A :=
  match r with Ok a => SOk a | Err _ => SErr FInternal call_site | Panic p => SPanic p end.

(** raw_ast.rs 13-38: both errors are reported where the whole tuple begins. *)
Definition smatch_tuples (alias_tuple : tuple alias) (s : span) (expr_tuple : tuple sexpr) : sres unit :=
  let? aks := slift (iter_destructuring alias_tuple) in
  let? eks := slift (iter_destructuring expr_tuple) in
  if Nat.eqb (List.length aks) (List.length eks) then
    if kinds_match aks eks then SOk Datatypes.tt
    else SErr (FType (txt "Shape of the value tuple doesn't match the shape of the alias tuple")) s
  else SErr (FType (txt "Mismatched number of elements in the tuple")) s.

(** ast/loop_source_value_list.rs 33-38 *)
Definition source_span (SO : soracles) (v : ssource_value) : span :=
  match v with SLSValue e => expr_span SO e | SLSTuple s _ => s end.

(** raw_ast.rs 41-73 *)
Definition smake_spec_items (SO : soracles) (al : loop_alias) (sv : ssource_value) : sres (list sitem) :=
  match al, sv with
  | LASimple a, SLSValue e => SOk [(a, e)]
  | LATuple at_, SLSTuple s et =>
      let? _ := smatch_tuples at_ s et in
      let? aliases := slift (iter_recursive at_) in
      let? exprs := slift (iter_recursive et) in
      SOk (combine aliases exprs)
  | _, _ => SErr (FType (txt "Mismatched alias and value types")) (source_span SO sv)
  end.

(** raw_ast.rs 101-106 *)
Fixpoint sloop_items (SO : soracles) (loops : list sloop_item) (vals : list ssource_value) : sres (list sitem) :=
  match loops, vals with
  | l :: loops', v :: vals' =>
      let? items := smake_spec_items SO (sl_pattern l) v in
      let? rest := sloop_items SO loops' vals' in
      SOk (items ++ rest)
  | _, _ => SOk []
  end.

Section Expand.
Context {B : Type} (SO : soracles).

(** raw_ast.rs 108-119 *)
Definition srewrite_for (ast : sraw_ast B) (loops : list sloop_item) (vals : list ssource_value) : sres (salias_spec * B) :=
  let? items := sloop_items SO loops vals in
  SOk (match sa_spec ast with
       | Some spec => {| ss_items := items ++ ss_items spec; ss_comma := ss_comma spec |}
       | None => {| ss_items := items; ss_comma := None |}
       end, sa_block ast).

(** raw_ast.rs 100-120 *)
Fixpoint sexpand_loop (fuel : nat) (ast : sraw_ast B) (loops : list sloop_item) (it : cp ssource_value)
  : sres (list (salias_spec * B)) :=
  match fuel with
  | 0 => SPanic PFuel
  | S fuel' =>
      let? (o, it') := slift (next it) in
      match o with
      | None => SOk []
      | Some vals =>
          let? rw := srewrite_for ast loops vals in
          let? rest := sexpand_loop fuel' ast loops it' in
          SOk (rw :: rest)
      end
  end.

(** raw_ast.rs 78-123 *)
Definition sexpand (ast : sraw_ast B) : sres (list (salias_spec * B)) :=
  match sa_loops ast with
  | None =>
      SOk [(match sa_spec ast with Some sp => sp | None => {| ss_items := []; ss_comma := None |} end, sa_block ast)]
  | Some loops =>
      let per_loop_values := map sl_values loops in
      let fuel := S (fold_right (fun v n => List.length v * n) 1 per_loop_values) in
      sexpand_loop fuel ast loops (from_vecs per_loop_values)
  end.
End Expand.

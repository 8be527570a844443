(** Model of /repo/src/expand/raw_ast.rs. *)
From Verif Require Import Base Token Types Values Ast Tuple CrossProduct.

(** raw_ast.rs 21-36: the loop comparing the kinds pairwise. *)
Fixpoint kinds_match {V W} (a : list (tuple_value V)) (b : list (tuple_value W)) : bool :=
  match a, b with
  | TVValue _ :: a', TVValue _ :: b' => kinds_match a' b'
  | TVTuple _ :: a', TVTuple _ :: b' => kinds_match a' b'
  | [], _ | _, [] => true
  | _, _ => false
  end.

(** raw_ast.rs 13-38: [match_tuples]. *)
Definition match_tuples (alias_tuple : tuple alias) (expr_tuple : tuple expr) : res unit :=
  let! aks := iter_destructuring alias_tuple in
  let! eks := iter_destructuring expr_tuple in
  if Nat.eqb (length aks) (length eks) then
    if kinds_match aks eks then Ok Datatypes.tt else Err TypeError
  else Err TypeError.

(** raw_ast.rs 41-73: [make_spec_items]. *)
Definition make_spec_items (al : loop_alias) (sv : loop_source_value) : res (list spec_item) :=
  match al, sv with
  | LASimple a, LSValue e => Ok [(a, e)]
  | LATuple at_, LSTuple et =>
      let! _ := match_tuples at_ et in
      let! aliases := iter_recursive at_ in
      let! exprs := iter_recursive et in
      Ok (combine aliases exprs)
  | _, _ => Err TypeError
  end.

(** raw_ast.rs 101-106: the items of all loops for one combination. *)
Fixpoint loop_items (loops : list loop_item) (vals : list loop_source_value) : res (list spec_item) :=
  match loops, vals with
  | l :: loops', v :: vals' =>
      let! items := make_spec_items (loop_pattern l) v in
      let! rest := loop_items loops' vals' in
      Ok (items ++ rest)
  | _, _ => Ok []
  end.

Section Expand.
Context {B : Type}.

(** raw_ast.rs 108-119: the rewrite of one combination. *)
Definition rewrite_for (ast : raw_ast B) (loops : list loop_item) (vals : list loop_source_value)
  : res (block_rewrite B) :=
  let! items := loop_items loops vals in
  Ok (match ast_spec ast with
      | Some spec =>
          {| spec_items := items ++ spec_items spec; is_comma_used := is_comma_used spec |}
      | None => {| spec_items := items; is_comma_used := None |}
      end, ast_block ast).

(** raw_ast.rs 100-120: the [for] loop over the cross product. *)
Fixpoint expand_loop (fuel : nat) (ast : raw_ast B) (loops : list loop_item)
  (it : cp loop_source_value) : res (list (block_rewrite B)) :=
  match fuel with
  | 0 => Panic PFuel
  | S fuel' =>
      let! (o, it') := next it in
      match o with
      | None => Ok []
      | Some vals =>
          let! rw := rewrite_for ast loops vals in
          let! rest := expand_loop fuel' ast loops it' in
          Ok (rw :: rest)
      end
  end.

(** raw_ast.rs 78-123: [expand]. *)
Definition expand (ast : raw_ast B) : res (list (block_rewrite B)) :=
  match ast_loops ast with
  | None =>
      let spec := match ast_spec ast with
                  | Some sp => sp
                  | None => {| spec_items := []; is_comma_used := None |}
                  end in
      Ok [(spec, ast_block ast)]
  | Some loops =>
      let per_loop_values := map loop_values loops in
      let fuel := S (fold_right (fun v n => length v * n) 1 per_loop_values) in
      expand_loop fuel ast loops (from_vecs per_loop_values)
  end.
End Expand.

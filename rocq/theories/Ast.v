(** The macro's AST: /repo/src/ast/*.rs. *)
From Verif Require Import Base Token Types Values.

(** ast/expr.rs 7-17, ast/value.rs 20-23, ast/call.rs 8-17.  Node ids are kept
    ([Expr::id] is the id of the inner node, ast/expr.rs 46-52).  The raw form of
    a call's arguments is always [Expr::from_value(Value::from_raw(tokens))]
    (parse/call.rs 36-39): we keep its id and its tokens. *)
Inductive expr :=
| EValue (id : N) (v : value)
| ECall (id : N) (name : str) (raw_args : list expr) (raw_tokens : option (N * list tt)).

Section expr_ind'.
  Variable P : expr -> Prop.
  Hypothesis Hv : forall id v, P (EValue id v).
  Hypothesis Hc : forall id name args raw, Forall P args -> P (ECall id name args raw).
  Fixpoint expr_ind' (e : expr) : P e :=
    match e with
    | EValue id v => Hv id v
    | ECall id name args raw =>
        Hc id name args raw
           ((fix go (l : list expr) : Forall P l :=
               match l with
               | [] => Forall_nil P
               | x :: r => Forall_cons x (expr_ind' x) (go r)
               end) args)
    end.
End expr_ind'.

Definition expr_id (e : expr) : N :=
  match e with EValue id _ => id | ECall id _ _ _ => id end.

(** ast/alias.rs 5-9: an alias is its identifier. *)
Definition alias := str.

(** ast/alias_spec_item.rs 6-11, ast/alias_value.rs 6-11: an alias and its value expression. *)
Definition spec_item := (alias * expr)%type.

(** ast/alias_spec.rs 7-11. *)
Record alias_spec := { spec_items : list spec_item; is_comma_used : option bool }.

(** ast/tuple.rs 11-15, 76-80, 118-121: [Tuple<V>] is a list of [TupleValue<V>]. *)
Inductive tuple_value (V : Type) :=
| TVValue (v : V)
| TVTuple (l : list (tuple_value V)).
Arguments TVValue {V} v.
Arguments TVTuple {V} l.
Definition tuple (V : Type) := list (tuple_value V).

Section tuple_ind'.
  Context {V : Type}.
  Variable P : tuple_value V -> Prop.
  Hypothesis Hv : forall v, P (TVValue v).
  Hypothesis Ht : forall l, Forall P l -> P (TVTuple l).
  Fixpoint tuple_ind' (t : tuple_value V) : P t :=
    match t with
    | TVValue v => Hv v
    | TVTuple l =>
        Ht l ((fix go (l : tuple V) : Forall P l :=
                 match l with
                 | [] => Forall_nil P
                 | x :: r => Forall_cons x (tuple_ind' x) (go r)
                 end) l)
    end.
End tuple_ind'.

(** ast/loop_alias.rs 9-13, ast/loop_source_value_list.rs 7-11. *)
Inductive loop_alias := LASimple (a : alias) | LATuple (t : tuple alias).
Inductive loop_source_value := LSValue (e : expr) | LSTuple (t : tuple expr).

(** ast/loop_spec_item.rs 8-14: alias pattern and list of values of one [for]. *)
Record loop_item := { loop_pattern : loop_alias; loop_values : list loop_source_value }.

(** ast/raw_ast.rs 9-14; the block stays a parameter. *)
Record raw_ast (B : Type) := {
  ast_loops : option (list loop_item);
  ast_spec : option alias_spec;
  ast_block : B;
}.
Arguments ast_loops {B}. Arguments ast_spec {B}. Arguments ast_block {B}.

(** ast/expanded.rs 7-11: a [BlockRewrite] is a spec with a clone of the block. *)
Definition block_rewrite (B : Type) := (alias_spec * B)%type.

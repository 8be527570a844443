(** Vocabulary for comparing the macros: what a parser sees of the tokens behind a comma, the
    form of blocks, inputs up to the separator they use. *)
From Coq Require Import String.
From Verif Require Import Base Token Types Values Ast Item Interpreter Parse Macro SpecParse.
Open Scope list_scope.

Definition comma : tt := sep true.

(** What is read from [s] does not depend on a comma behind it or on the tokens behind the
    comma; the same for any part of [ts] that reaches its end. *)
Definition ignores (P : parsers) (s tail : list tt) : Prop :=
  pre_lit_int P (s ++ comma :: tail) = pre_lit_int P s /\
  pre_lit_str P (s ++ comma :: tail) = pre_lit_str P s /\
  pre_path P (s ++ comma :: tail) = pre_path P s /\
  pre_type P (s ++ comma :: tail) = pre_type P s /\
  pre_expr P (s ++ comma :: tail) = pre_expr P s.
Definition stops (P : parsers) (ts tail : list tt) : Prop := forall a s, ts = a ++ s -> ignores P s tail.

(** A block is a group of braces; what follows it does not matter. *)
Definition braced (P : parsers) : Prop :=
  (forall ts b k u, pre_block P ts = Some (b, k, u) -> k = 1 /\ exists inner r, ts = TGroup Brace inner :: r) /\
  (forall inner r, pre_block P (TGroup Brace inner :: r) = pre_block P [TGroup Brace inner]).

(** The tokens do not end with a separator. *)
Definition unterminated (ts : list tt) : Prop := forall a t, ts = a ++ [t] -> is_separator t = false.

(** The definitions are separated by commas: the list with a comma behind it. *)
Definition with_comma {B} (ast : raw_ast B) : option (raw_ast B) :=
  match ast_spec ast with
  | Some s => match is_comma_used s with
              | Some false => None
              | _ => Some {| ast_loops := ast_loops ast;
                             ast_spec := Some {| spec_items := spec_items s; is_comma_used := Some true |};
                             ast_block := ast_block ast |}
              end
  | None => None
  end.

(** The same use with another macro, or the same use. *)
Inductive other_name : source -> source -> Prop :=
| other_same : forall s, other_name s s
| other_old : forall ts, other_name (Compose ts) (ComposeIdents ts)
| other_new : forall ts, other_name (ComposeIdents ts) (Compose ts).
Definition renamed_use (u u' : use) : Prop :=
  other_name (u_source u) (u_source u') /\ u_seed u = u_seed u' /\ u_first_id u = u_first_id u' /\ u_next_id u = u_next_id u'.

(** No loop follows. *)
Definition not_for (ts : list tt) : Prop := match ts with t :: _ => is_word (txt "for") t = false | [] => True end.

(** Specification of strings and identifiers as values that are not taken for each other:
    CHANGELOG, v0.3.0, "Removed interchangeable use of literal strings and ident arguments". *)
From Coq Require Import String.
From Verif Require Import Base Token Types Values Ast Item Interpreter Parse SpecElab SpecNaming SpecNesting SpecBrackets.
Open Scope list_scope.

Section Spelling.
Context (O : oracles).

(** A name, raw or not. *)
Definition is_name (x : str) : Prop := ident_ok O x = true \/ exists y, x = txt "r#" ++ y /\ ident_ok O y = true.
(** A quotation mark after nothing but [r] and [#]. *)
Definition mark (c : chr) : Prop := c = 114%N \/ c = 35%N.
Definition quoted (x : str) : Prop := exists w s, x = w ++ 34%N :: s /\ Forall mark w.
(** Names and strings that are written like names and strings. *)
Definition spelled (v : value) : Prop :=
  match v with
  | VIdent x => is_name x
  | VLitStr x p => quoted (to_string O [TLit (LStr x p)])
  | _ => False
  end.
Definition is_string (v : value) : Prop := exists x p, v = VLitStr x p.

(** A name is written as it is; and names followed by a quotation mark are not one name. *)
Definition names_print : Prop := forall x, is_name x -> to_string O [TIdent x] = x.
Definition quotes_end_names : Prop :=
  forall l w s, Forall is_name l -> Forall mark w -> parse_str_ident O (List.concat l ++ w ++ 34%N :: s) = None.
End Spelling.

(** The value of a literal, which cannot be a name. *)
Inductive literal_value : value -> Prop :=
| string_value x p : literal_value (VLitStr x p)
| int_value d p : literal_value (VLitInt d p).
(** No function is named by a literal. *)
Definition fn_takes_name (Y : syntax) : Prop :=
  forall q l r, Forall qualifier q -> reparse Y KSig (q ++ TIdent (txt "fn") :: TLit l :: r) = None.

(** [e'] is [e] with names written instead of [to_ident] of the same string, and strings
    instead of [to_str] of the same name; [names] are those with a meaning of their own. *)
Inductive requoted (O : oracles) (names : list str) : expr -> expr -> Prop :=
| RqIdent i j k s p raw : parse_lit_str O [TLit (LStr s p)] = Some (s, p) -> parse_str_ident O s = Some s -> ~ In s names ->
    requoted O names (ECall i (txt "to_ident") [EValue j (VLitStr s p)] raw) (EValue k (VIdent s))
| RqStr i j k s raw : parse_ident O [TIdent s] = Some s -> ~ In s names ->
    requoted O names (ECall i (txt "to_str") [EValue j (VIdent s)] raw) (EValue k (VLitStr s []))
| RqLeaf i k v : requoted O names (EValue i v) (EValue k v)
| RqCall i k name args args' raw raw' :
    Forall2 (requoted O names) args args' ->
    (takes_raw name -> option_map snd raw = option_map snd raw') ->
    requoted O names (ECall i name args raw) (ECall k name args' raw').

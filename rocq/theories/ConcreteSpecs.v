(** Shorthands for alias definitions in examples. *)
From Coq Require Import String.
From Verif Require Import Base Token Types Values Ast Env Item Concrete.

Definition spec_of (items : list spec_item) : alias_spec := {| spec_items := items; is_comma_used := None |}.
Definition id_ (n : N) (x : string) : expr := EValue n (VIdent (txt x)).
Definition env0 := new_initialized ascii 7 100.

(** The substitutions of a block, by name. *)
Definition aliases (l : list (string * value)) (x : str) : option value :=
  option_map snd (find (fun p => str_eqb x (txt (fst p))) l).

(** A node parser that accepts everything but the empty signature. *)
Definition any_node (k : kind) (ts : list tt) : option (list tt) :=
  match k, ts with KSig, [] => None | _, _ => Some ts end.
Definition no_generics : generics := {| g_params := []; g_where := [] |}.
Definition plain_field (x : string) (t : tt) : field := {| f_attrs := []; f_vis := []; f_ident := Some (txt x); f_ty := [t] |}.
Definition doc (x : string) : attr := {| is_inner := false; meta := [i "doc"; p1 "="; ls x] |}.

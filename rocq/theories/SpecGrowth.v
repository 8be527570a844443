(** Specification for C78: how large the values of the definitions and the code get. *)
From Coq Require Import String.
From Verif Require Import Base Token Types Values Ast Env Item Deprecation.
Open Scope list_scope.

Definition long {A} (l : list A) : N := N.of_nat (List.length l).
Definition sum (l : list N) : N := fold_right N.add 0%N l.
Definition product (l : list N) : N := fold_right N.mul 1%N l.

(** The size of tokens: one for each, and their text. *)
Fixpoint letters (t : tt) : N :=
  match t with
  | TIdent x => (1 + long x)%N
  | TPunct _ _ => 1%N
  | TLit (LStr v p) => (1 + long v + long p)%N
  | TLit (LInt d r) => (1 + long d + long r)%N
  | TLit (LOther r) => (1 + long r)%N
  | TGroup _ ts => (1 + sum (map letters ts))%N
  end.
Definition bulk (ts : list tt) : N := sum (map letters ts).
Definition value_bulk (v : value) : N := bulk (to_tokens v).

(** The external functions enlarge what they are given by a factor only. *)
Record modest (c : N) (O : oracles) : Prop := {
  modest_factor : (1 <= c)%N;
  modest_print : forall ts, (long (to_string O ts) <= c * bulk ts)%N;
  modest_upper : forall x, (long (upper O x) <= c * long x)%N;
  modest_lower : forall x, (long (lower O x) <= c * long x)%N;
  modest_snake : forall x, (long (to_snake_case O x) <= c * long x)%N;
  modest_camel : forall x, (long (to_camel_case O x) <= c * long x)%N;
  modest_pascal : forall x, (long (to_pascal_case O x) <= c * long x)%N;
  modest_ident : forall ts x, parse_ident O ts = Some x -> (1 + long x <= c * bulk ts)%N;
  modest_path : forall ts r, parse_path O ts = Some r -> (bulk r <= c * bulk ts)%N;
  modest_type : forall ts r, parse_type O ts = Some r -> (bulk r <= c * bulk ts)%N;
  modest_expr : forall ts r, parse_expr O ts = Some r -> (bulk r <= c * bulk ts)%N;
  modest_lit_str : forall ts v p, parse_lit_str O ts = Some (v, p) -> (1 + long v + long p <= c * bulk ts)%N;
  modest_lit_int : forall ts d r, parse_lit_int O ts = Some (d, r) -> (1 + long d + long r <= c * bulk ts)%N;
  modest_str_ident : forall x y, parse_str_ident O x = Some y -> (long y <= c * long x)%N;
  modest_new_int : forall x d r, lit_int_new O x = Some (d, r) -> (long d + long r <= c * long x)%N;
  modest_hash : forall seed x, (hash64 O seed x < 2 ^ 64)%N;
  modest_segments : forall ts, (sum (map (fun x => 2 + long x) (path_segments O ts)) <= c * bulk ts)%N;
}.

(** The size of a definition, each token counted [k] times for itself and each call around it. *)
Fixpoint extent (k : N) (e : expr) : N :=
  match e with
  | EValue _ v => (k * (1 + value_bulk v))%N
  | ECall _ _ args raw =>
      (k * (1 + sum (map (extent k) args) + match raw with Some (_, ts) => bulk ts | None => 0 end))%N
  end.
(** The product of the sizes of some definitions. *)
Definition growth (k : N) (items : list spec_item) : N := product (map (fun i => extent k (snd i)) items).

(** The size of the attributes of some warnings. *)
Definition attributes_bulk (prefix : str) (ws : list warning) : N :=
  sum (map (fun w => bulk (attr_tokens (to_attribute (with_prefix prefix w)))) ws).

(** Definitions each of which puts the one before it twice: [a0 = x, a1 = concat(a0, a0), ..]. *)
Definition twice (name : nat -> str) (n : nat) : spec_item :=
  let id := N.of_nat (4 * n) in
  (name (S n), ECall (id + 1) (txt "concat")
     [EValue (id + 2) (VIdent (name n)); EValue (id + 3) (VIdent (name n))]
     (Some (id + 4, [TIdent (name n); TPunct 44 false; TIdent (name n)])))%N.
Fixpoint doubling (name : nat -> str) (x : str) (n : nat) : list spec_item :=
  match n with
  | 0 => [(name 0, EValue 0 (VIdent x))]
  | S n' => doubling name x n' ++ [twice name n']
  end.
Definition times (n : nat) (x : str) : str := List.concat (repeat x n).

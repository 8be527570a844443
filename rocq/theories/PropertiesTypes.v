(** C11, C38, C40: types, coercions, casts. *)
From Coq Require Import String.
From Verif Require Import Base Token Types Values SpecTypes TypesProofs Concrete.
Open Scope list_scope.

(** C11: the implemented table is the documented relation. *)
Theorem C11_coercions_are_the_documented_ones : forall a b c,
  coercion_cost a b = Some c <-> coerces_param a b c.
Proof. exact cost_iff. Qed.
Print Assumptions C11_coercions_are_the_documented_ones.

Theorem C11_triangle : forall a b c x y,
  coercion_cost a b = Some x -> coercion_cost b c = Some y ->
  exists z, coercion_cost a c = Some z /\ (z <= x + y)%N.
Proof. exact cost_triangle. Qed.
Print Assumptions C11_triangle.

Theorem C11_zero_cost_is_identity : forall a b, coercion_cost a b = Some 0%N -> a = b.
Proof. exact cost_zero. Qed.
Print Assumptions C11_zero_cost_is_identity.

Example C11_example :
  coercion_cost TyIdent TyExpr = Some 3%N /\ coercion_cost TyExpr TyTokens = Some 4%N /\
  coercion_cost TyIdent TyTokens = Some 4%N /\ coercion_cost TyPath TyType = None /\
  coercion_cost (TyVariadic TyIdent) (TyVariadic TyTokens) = Some 4%N.
Proof. repeat split; vm_compute; reflexivity. Qed.

(** C38 is false: `expr` (and `raw`, `type`, variadics) cannot be read back, even by a
    parser that does not refuse keywords. *)
Theorem C38_type_names_round_trip_refuted :
  exists t, ty_parse_ident (fun _ => false) (ty_display t) <> Some t.
Proof. exact type_names_wrong. Qed.
Print Assumptions C38_type_names_round_trip_refuted.

(** Exactly ident, path, str, int and tokens round-trip.  Missing: type, expr, raw and
    the variadic types. *)
Theorem C38_round_trip_partial : forall kw t,
  kw (txt "type") = true ->
  (forall t, readable t = true -> kw (ty_display t) = false) ->
  (ty_parse_ident kw (ty_display t) = Some t <-> readable t = true).
Proof. exact round_trip_iff. Qed.
Print Assumptions C38_round_trip_partial.

Example C38_example :
  is_kw (txt "type") = true /\
  forallb (fun t => negb (is_kw (ty_display t))) [TyIdent; TyPath; TyLitStr; TyLitInt; TyTokens] = true /\
  ty_parse_ident is_kw (ty_display TyPath) = Some TyPath.
Proof. repeat split; vm_compute; reflexivity. Qed.

(** C40 *)
Theorem C40_cast_gives_requested_type : forall O v t w, try_cast O v t = Ok w -> type_of w = t.
Proof. exact cast_type. Qed.
Print Assumptions C40_cast_gives_requested_type.

Theorem C40_cast_to_own_type : forall O v, try_cast O v (type_of v) = Ok v.
Proof. exact cast_same. Qed.
Print Assumptions C40_cast_to_own_type.

Theorem C40_cast_to_tokens_keeps_tokens : forall O v,
  exists w, try_cast O v TyTokens = Ok w /\ to_tokens w = to_tokens v /\ type_of w = TyTokens.
Proof. exact cast_tokens. Qed.
Print Assumptions C40_cast_to_tokens_keeps_tokens.

Theorem C40_cast_there_and_back : forall O v t parse,
  parser_of O t = Some parse -> parse (to_tokens v) = Some (to_tokens v) -> type_of v = t ->
  exists w, try_cast O v TyTokens = Ok w /\ try_cast O w t = Ok v.
Proof. exact cast_syntactic. Qed.
Print Assumptions C40_cast_there_and_back.

Theorem C40_ident_string_round_trip : forall O x,
  parse_str_ident O x = Some x ->
  exists w, try_cast O (VIdent x) TyLitStr = Ok w /\ try_cast O w TyIdent = Ok (VIdent x).
Proof. exact cast_ident_str. Qed.
Print Assumptions C40_ident_string_round_trip.

(** Failed casts are type errors; casts never panic. *)
Theorem C40_failed_casts_are_type_errors : forall O v t e, try_cast O v t = Err e -> e = TypeError.
Proof. exact cast_errors. Qed.
Print Assumptions C40_failed_casts_are_type_errors.

Theorem C40_casts_never_panic : forall O v t p, try_cast O v t <> Panic p.
Proof. exact cast_never_panics. Qed.
Print Assumptions C40_casts_never_panic.

Theorem C40_coercions_are_casts : forall O v t c,
  (forall x, parse_type O [TIdent x] <> None) -> (forall x, parse_expr O [TIdent x] <> None) ->
  coercion_cost (type_of v) t = Some c -> exists w, try_cast O v t = Ok w.
Proof. exact coercion_cast. Qed.
Print Assumptions C40_coercions_are_casts.

Example C40_example :
  try_cast ascii (VPath ([i "std"] ++ colons ++ [i "vec"])) TyTokens
    = Ok (VTokens ([i "std"] ++ colons ++ [i "vec"])) /\
  try_cast ascii (VTokens ([i "std"] ++ colons ++ [i "vec"])) TyPath
    = Ok (VPath ([i "std"] ++ colons ++ [i "vec"])) /\
  try_cast ascii (VTokens [ls "foo"]) TyIdent = Ok (VIdent (txt "foo")) /\
  try_cast ascii (VTokens [li "1"]) TyIdent = Err TypeError.
Proof. repeat split; vm_compute; reflexivity. Qed.

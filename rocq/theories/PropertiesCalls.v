(** C13, C14, C35, C36: what the built-in calls give.  [pre] are the definitions before the
    call, [bs] their values; a plain argument naming an alias stands for the alias's value. *)
From Coq Require Import String.
From Verif Require Import Base Token Types Values Ast Env Eval SpecElab SpecCalls ResolveFacts Concrete ConcreteSpecs.
Open Scope list_scope.

(** C13 *)
Theorem C13_concat : forall O seed n pre a id leaves raw bs c c',
  NoDup (item_ids (pre ++ [(a, ECall id (txt "concat") (plain leaves) raw)])) -> ~ In a (map fst pre) ->
  make_substitutions O (new_initialized O seed n) {| spec_items := pre; is_comma_used := c |} = Ok bs ->
  make_substitutions O (new_initialized O seed n)
    {| spec_items := pre ++ [(a, ECall id (txt "concat") (plain leaves) raw)]; is_comma_used := c' |} =
  let! v := concat_meaning O (map (fun l => lookup_value bs (snd l)) leaves) in Ok (bs ++ [(a, v)]).
Proof. exact concat_call. Qed.
Print Assumptions C13_concat.

Example C13_example :
  let x := (1%N, VIdent (txt "x")) in let b := (2%N, VIdent (txt "b")) in
  let n := (3%N, VLitInt (txt "1") (txt "1")) in let s := (4%N, VLitStr (txt "s") []) in
  let run l := match make_substitutions ascii env0 (spec_of [(txt "b", id_ 9 "q"); (txt "a", ECall 10 (txt "concat") (plain l) None)]) with
               | Ok [_; (_, v)] => Ok v | Ok _ => Panic PFuel | Err e => Err e | Panic p => Panic p end in
  run [x; b] = Ok (VIdent (txt "xq")) /\ run [s] = Ok (VLitStr (txt "s") []) /\ run [n] = Ok (VLitInt (txt "1") (txt "1")) /\
  run [x; n; b] = Ok (VIdent (txt "x1q")) /\ run [n; b] = Ok (VTokens [li "1"; i "q"]) /\ run [] = Err (SignatureError (txt "concat")).
Proof. repeat split; vm_compute; reflexivity. Qed.

(** C14 is false: the first argument is an identifier, so the identifier overload of
    concat wins and [syn] refuses the composed text as an identifier. *)
Theorem C14_documented_conversions_refuted : exists e1 e2,
  e1 = ECall 1 (txt "to_path") [ECall 2 (txt "concat") (plain
         [(3%N, VIdent (txt "std")); (4%N, VTokens colons); (5%N, VIdent (txt "vec"))]) None] None /\
  e2 = ECall 1 (txt "to_type") [ECall 2 (txt "concat") (plain
         [(3%N, VIdent (txt "Vec")); (4%N, VTokens [p1 "<"]); (5%N, VIdent (txt "u32")); (6%N, VTokens [p1 ">"])]) None] None /\
  make_substitutions ascii env0 (spec_of [(txt "a", e1)]) = Err EvalError /\
  make_substitutions ascii env0 (spec_of [(txt "a", e2)]) = Err EvalError /\
  parse_path ascii (i "std" :: colons ++ [i "vec"]) = Some (i "std" :: colons ++ [i "vec"]) /\
  parse_type ascii [i "Vec"; p1 "<"; i "u32"; p1 ">"] = Some [i "Vec"; p1 "<"; i "u32"; p1 ">"].
Proof. exact conversions_wrong. Qed.
Print Assumptions C14_documented_conversions_refuted.

(** For every oracle: the composed text is parsed as one identifier, or the call fails. *)
Theorem C14_ident_first_composition_partial : forall O seed n pre a t id id' l l' rest raw raw' bs c c',
  t <> TyRaw -> t <> TyTokens -> (forall t', t <> TyVariadic t') ->
  let e := ECall id (cast_name t) [ECall id' (txt "concat") (plain (l :: l' :: rest)) raw'] raw in
  NoDup (item_ids (pre ++ [(a, e)])) -> ~ In a (map fst pre) ->
  make_substitutions O (new_initialized O seed n) {| spec_items := pre; is_comma_used := c |} = Ok bs ->
  let vs := map (fun l => lookup_value bs (snd l)) (l' :: rest) in
  type_of (lookup_value bs (snd l)) = TyIdent -> existsb (fun v => negb (ty_eqb TyIdent (type_of v))) vs = true ->
  make_substitutions O (new_initialized O seed n) {| spec_items := pre ++ [(a, e)]; is_comma_used := c' |} =
  match parse_str_ident O (List.concat (map (text_of O) (lookup_value bs (snd l) :: vs))) with
  | None => Err EvalError
  | Some z => let! v := try_cast O (VTokens [TIdent z]) t in Ok (bs ++ [(a, v)])
  end.
Proof. exact cast_concat_call. Qed.
Print Assumptions C14_ident_first_composition_partial.

(** What works: the first argument converted to tokens. *)
Theorem C14_token_first_composition_partial : forall O seed n pre a t id id' id2 l rest raw raw' raw2 bs c c',
  t <> TyRaw -> t <> TyTokens -> (forall t', t <> TyVariadic t') ->
  let e := ECall id (cast_name t)
             [ECall id' (txt "concat") (ECall id2 (txt "to_tokens") (plain [l]) raw2 :: plain rest) raw'] raw in
  NoDup (item_ids (pre ++ [(a, e)])) -> ~ In a (map fst pre) ->
  make_substitutions O (new_initialized O seed n) {| spec_items := pre; is_comma_used := c |} = Ok bs ->
  make_substitutions O (new_initialized O seed n) {| spec_items := pre ++ [(a, e)]; is_comma_used := c' |} =
  let! v := try_cast O (VTokens (List.concat (map (fun l => to_tokens (lookup_value bs (snd l))) (l :: rest)))) t in
  Ok (bs ++ [(a, v)]).
Proof. exact cast_token_concat_call. Qed.
Print Assumptions C14_token_first_composition_partial.

Example C14_example :
  make_substitutions ascii env0 (spec_of [(txt "a",
    ECall 1 (txt "to_path") [ECall 2 (txt "concat") [ECall 3 (txt "to_tokens") [id_ 4 "std"] None; EValue 5 (VTokens colons); id_ 6 "vec"] None] None)])
  = Ok [(txt "a", VPath (i "std" :: colons ++ [i "vec"]))].
Proof. vm_compute. reflexivity. Qed.

(** C35 *)
Theorem C35_hash : forall O seed n pre a id lid v raw bs c c',
  NoDup (item_ids (pre ++ [(a, ECall id (txt "hash") (plain [(lid, v)]) raw)])) -> ~ In a (map fst pre) ->
  make_substitutions O (new_initialized O seed n) {| spec_items := pre; is_comma_used := c |} = Ok bs ->
  make_substitutions O (new_initialized O seed n)
    {| spec_items := pre ++ [(a, ECall id (txt "hash") (plain [(lid, v)]) raw)]; is_comma_used := c' |} =
  let! w := hash_meaning O seed (lookup_value bs v) in Ok (bs ++ [(a, w)]).
Proof. exact hash_call. Qed.
Print Assumptions C35_hash.

(** The result: two underscores and decimal digits, or a string of decimal digits, which
    denote the hash of the text under the invocation's seed. *)
Theorem C35_hash_text : forall O seed v w, hash_meaning O seed v = Ok w ->
  exists d, is_numeral d /\
    (numeral_value d = hash64 O seed (match v with VLitStr x _ => x | VIdent x => x | _ => text_of O v end)) /\
    w = match v with VLitStr _ _ => VLitStr d [] | _ => VIdent (txt "__" ++ d) end.
Proof. exact hash_shape. Qed.
Print Assumptions C35_hash_text.

Example C35_example :
  match make_substitutions ascii env0 (spec_of
    [(txt "a", ECall 1 (txt "hash") [id_ 2 "x"] None); (txt "b", ECall 3 (txt "hash") [id_ 4 "x"] None);
     (txt "c", ECall 5 (txt "hash") [EValue 6 (VLitStr (txt "x") [])] None);
     (txt "d", ECall 7 (txt "hash") [EValue 8 (VTokens colons)] None)]) with
  | Ok [(_, va); (_, vb); (_, vc); (_, vd)] =>
      va = VIdent (txt "__337") /\ vb = va /\ vc = VLitStr (txt "337") [] /\ vd = VIdent (txt "__8583")
  | _ => False
  end.
Proof. vm_compute. repeat split. Qed.

(** C36 *)
Theorem C36_raw : forall O seed n pre a id args rid ts bs c c',
  NoDup (item_ids (pre ++ [(a, ECall id (txt "raw") args (Some (rid, ts)))])) -> ~ In a (map fst pre) ->
  make_substitutions O (new_initialized O seed n) {| spec_items := pre; is_comma_used := c |} = Ok bs ->
  make_substitutions O (new_initialized O seed n)
    {| spec_items := pre ++ [(a, ECall id (txt "raw") args (Some (rid, ts)))]; is_comma_used := c' |} =
  Ok (bs ++ [(a, VTokens ts)]).
Proof. exact raw_call. Qed.
Print Assumptions C36_raw.

Theorem C36_converted_raw : forall O seed n pre a t id id' args rid ts raw bs c c',
  (forall t', t <> TyVariadic t') -> t <> TyRaw ->
  let e := ECall id (cast_name t) [ECall id' (txt "raw") args (Some (rid, ts))] raw in
  NoDup (item_ids (pre ++ [(a, e)])) -> ~ In a (map fst pre) ->
  make_substitutions O (new_initialized O seed n) {| spec_items := pre; is_comma_used := c |} = Ok bs ->
  make_substitutions O (new_initialized O seed n) {| spec_items := pre ++ [(a, e)]; is_comma_used := c' |} =
  let! v := try_cast O (VTokens ts) t in Ok (bs ++ [(a, v)]).
Proof. exact cast_raw_call. Qed.
Print Assumptions C36_converted_raw.

Example C36_example :
  make_substitutions ascii env0 (spec_of [(txt "b", id_ 1 "q");
    (txt "a", ECall 2 (txt "raw") [id_ 3 "b"; ECall 4 (txt "nope") [] None] (Some (5%N, [i "b"; p1 ","; i "nope"; paren []])));
    (txt "c", ECall 6 (txt "to_type") [ECall 7 (txt "raw") [] (Some (8%N, [i "b"; p1 "<"; i "u8"; p1 ">"]))] None)]) =
  Ok [(txt "b", VIdent (txt "q")); (txt "a", VTokens [i "b"; p1 ","; i "nope"; paren []]);
      (txt "c", VType [i "b"; p1 "<"; i "u8"; p1 ">"])].
Proof. vm_compute. reflexivity. Qed.

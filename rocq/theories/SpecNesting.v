(** What nested calls mean: the functions' meanings (SpecFunctions) applied to the values of
    their arguments, without overloads and wanted types. *)
From Coq Require Import String.
From Verif Require Import Base Token Types Values Ast Env SpecElab SpecCalls SpecFunctions.
Open Scope list_scope.

(** The type of a function's result, given those of its arguments. *)
Definition one (f : ty -> option ty) (ss : list ty) : option ty := match ss with [s] => f s | _ => None end.
Definition same_text (s : ty) : option ty := match s with TyIdent | TyLitStr => Some s | _ => None end.
Definition concat_type (ss : list ty) : option ty :=
  match ss with
  | [] => None
  | s :: _ =>
      if forallb (ty_eqb TyIdent) ss then Some TyIdent
      else if forallb (ty_eqb TyLitStr) ss then Some TyLitStr
      else if forallb (ty_eqb TyLitInt) ss then Some TyLitInt
      else if ty_eqb TyIdent s then Some TyIdent
      else Some TyTokens
  end.
Definition result_types : list (str * (list ty -> option ty)) :=
  [ (txt "upper", one same_text); (txt "lower", one same_text); (txt "snake_case", one same_text);
    (txt "camel_case", one same_text); (txt "pascal_case", one same_text);
    (txt "normalize", one (fun _ => Some TyIdent)); (txt "normalize2", one (fun _ => Some TyIdent));
    (txt "hash", one (fun s => match s with TyLitStr => Some TyLitStr | _ => Some TyIdent end));
    (txt "concat", concat_type);
    (txt "to_ident", one (fun _ => Some TyIdent)); (txt "to_path", one (fun _ => Some TyPath));
    (txt "to_type", one (fun _ => Some TyType)); (txt "to_expr", one (fun _ => Some TyExpr));
    (txt "to_str", one (fun _ => Some TyLitStr)); (txt "to_int", one (fun _ => Some TyLitInt));
    (txt "to_tokens", one (fun _ => Some TyTokens)); (txt "raw", one (fun _ => Some TyTokens)) ].
Definition result_type (name : str) (ss : list ty) : option ty :=
  match assoc_str name result_types with Some f => f ss | None => None end.

(** [raw] and [normalize] do not look at their arguments but at how these were written. *)
Definition reads_source (name : str) (raw : option (N * list tt)) : bool :=
  match raw with Some _ => str_eqb name (txt "raw") || str_eqb name (txt "normalize") | None => false end.

(** What the conversions of arguments cost: 4 to tokens, 5 to [raw], twice in [concat] but for
    a leading identifier. *)
Definition as_tokens (s : ty) : N := if ty_eqb s TyTokens then 0%N else 4%N.
Definition total (sk : list (ty * N)) : N := fold_right (fun p n => (2 * (as_tokens (fst p) + snd p) + n)%N) 0%N sk.
Definition twice (sk : list (ty * N)) : N := fold_right (fun p n => (2 * snd p + n)%N) 0%N sk.
Definition concat_cost (sk : list (ty * N)) : N :=
  match sk with
  | [] => 0%N
  | (s, k) :: r =>
      let ss := map fst sk in
      if forallb (ty_eqb TyIdent) ss || forallb (ty_eqb TyLitStr) ss || forallb (ty_eqb TyLitInt) ss then twice sk
      else if ty_eqb TyIdent s then (k + total r)%N
      else total sk
  end.
Definition own_cost (name : str) (s : ty) : N :=
  if str_eqb name (txt "normalize") || str_eqb name (txt "raw") then if ty_eqb s TyRaw then 0%N else 5%N
  else if str_eqb name (txt "normalize2") then match s with TyRaw | TyVariadic _ => 4%N | _ => 0%N end
  else if str_eqb name (txt "hash") then match s with TyIdent | TyLitStr => 0%N | _ => as_tokens s end
  else if existsb (str_eqb name) (map txt ["to_ident"; "to_path"; "to_type"; "to_expr"; "to_str"; "to_int"; "to_tokens"]%string) then as_tokens s
  else 0%N.
Definition call_cost (name : str) (sk : list (ty * N)) : N :=
  if str_eqb name (txt "concat") then concat_cost sk
  else match sk with [(s, k)] => (own_cost name s + k)%N | _ => 0%N end.

(** All of a list, if there are all. *)
Fixpoint all_some {A} (l : list (option A)) : option (list A) :=
  match l with
  | [] => Some []
  | Some x :: r => option_map (cons x) (all_some r)
  | None :: _ => None
  end.

(** The type of an expression and the cost of the conversions in it; nothing if a call in it
    does not fit its function. *)
Fixpoint synth (G : tenv) (e : expr) : option (ty * N) :=
  match e with
  | EValue _ v => Some (static_type G v, 0%N)
  | ECall _ name args raw =>
      if reads_source name raw then Some (if str_eqb name (txt "raw") then TyTokens else TyIdent, 0%N)
      else match all_some (map (synth G) args) with
           | Some sk => option_map (fun t => (t, call_cost name sk)) (result_type name (map fst sk))
           | None => None
           end
  end.

(** [hash] of a string: it can become a string or an identifier, whichever is wanted. *)
Definition hash_of_string (G : tenv) (e : expr) : bool :=
  match e with
  | ECall _ name [arg] _ =>
      str_eqb name (txt "hash") && match synth G arg with Some (TyLitStr, _) => true | _ => false end
  | _ => false
  end.
Definition reader (name : str) : bool :=
  existsb (str_eqb name) (map txt ["to_ident"; "to_path"; "to_type"; "to_expr"; "to_str"; "to_int"; "to_tokens"]%string).

(** [concat] of identifiers only, the first of which is not too expensive: a conversion of the
    others, at 8 each, must not be cheaper than counting the first one twice. *)
Definition head_affordable (G : tenv) (args : list expr) : bool :=
  match all_some (map (synth G) args) with
  | Some ((s, k) :: r) =>
      negb (forallb (ty_eqb TyIdent) (s :: map fst r)) ||
      match r with [] => true | _ => (k <=? 8 * N.of_nat (List.length r))%N end
  | _ => true
  end.

(** No call depends on what is wanted of it. *)
Fixpoint independent (G : tenv) (e : expr) : bool :=
  match e with
  | EValue _ _ => true
  | ECall _ name args raw =>
      reads_source name raw ||
      forallb (independent G) args &&
      (reader name || forallb (fun a => negb (hash_of_string G a)) args) &&
      (negb (str_eqb name (txt "concat")) || head_affordable G args)
  end.

Section Denote.
Context (O : oracles) (seed : N) (bs : list (str * value)).
Fixpoint denote (e : expr) : res value :=
  match e with
  | EValue _ v => Ok (lookup_value bs v)
  | ECall _ name args raw =>
      if reads_source name raw then call_meaning O seed name (option_map snd raw) []
      else let! vs := mapM denote args in call_meaning O seed name (option_map snd raw) vs
  end.
End Denote.

(** The error for a call that does not fit: the outermost is blamed. *)
Definition misfit (e : expr) : error :=
  match e with
  | ECall _ name _ _ => match assoc_str name result_types with Some _ => SignatureError name | None => UndefinedFunctionError name end
  | EValue _ _ => TypeError
  end.

(** ** Definitions, one after the other *)
(** The first one that does not fit or defines a name again. *)
Fixpoint first_misfit (G : tenv) (items : list spec_item) : option error :=
  match items with
  | [] => None
  | (a, e) :: r =>
      match synth G e with
      | None => Some (misfit e)
      | Some (t, _) => match assoc_str a G with
                       | Some _ => Some (RedefinedNameError a)
                       | None => first_misfit ((a, t) :: G) r
                       end
      end
  end.
Fixpoint independent_items (G : tenv) (items : list spec_item) : bool :=
  match items with
  | [] => true
  | (a, e) :: r =>
      independent G e && match synth G e with Some (t, _) => independent_items ((a, t) :: G) r | None => true end
  end.
Fixpoint denote_items (O : oracles) (seed : N) (bs : list (str * value)) (items : list spec_item) : res (list (str * value)) :=
  match items with
  | [] => Ok bs
  | (a, e) :: r => let! v := denote O seed bs e in denote_items O seed (bs ++ [(a, v)]) r
  end.
(** The types after definitions. *)
Fixpoint types_after (G : tenv) (items : list spec_item) : option tenv :=
  match items with
  | [] => Some G
  | (a, e) :: r => match synth G e with Some (t, _) => types_after ((a, t) :: G) r | None => None end
  end.
Definition kind (G : tenv) (e : expr) : option ty := option_map fst (synth G e).

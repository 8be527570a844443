(** Functions and environment: /repo/src/core/type_.rs (Func),
    /repo/src/core/environment/*.rs, /repo/src/funcs.rs. *)
From Verif Require Import Base Token Types Values Normalize.
From Coq Require Import String.

(** core/type_.rs 74-80: [struct Func].  [func_impl] receives the environment's seed
    (the only part of the environment an implementation reads). *)
Record func := {
  f_id : N;
  f_name : str;
  f_arg_types : list ty;
  f_out_type : ty;
  f_impl : N -> list value -> res value;
}.

Definition is_variadic_ty (t : ty) : bool := match t with TyVariadic _ => true | _ => false end.

(** core/type_.rs 163-167. *)
Definition is_variadic (f : func) : bool := existsb is_variadic_ty (f_arg_types f).
(** core/type_.rs 169-175. *)
Definition non_variadic_arg_types (f : func) : list ty :=
  filter (fun t => negb (is_variadic_ty t)) (f_arg_types f).
(** core/type_.rs 177-188. *)
Definition variadic_arg_type (f : func) : option ty :=
  match find is_variadic_ty (f_arg_types f) with
  | Some (TyVariadic t) => Some t
  | _ => None
  end.
(** core/type_.rs 190-192. *)
Definition num_args (f : func) : nat := List.length (f_arg_types f).

(** core/environment/core.rs 11-16. *)
Record environment := { e_seed : N; e_funcs : list (str * list func) }.

Fixpoint assoc_str {A} (k : str) (l : list (str * A)) : option A :=
  match l with
  | [] => None
  | (k', a) :: r => if str_eqb k k' then Some a else assoc_str k r
  end.

(** core/environment/core.rs 33-35, 37-39. *)
Definition get_func_variants (env : environment) (name : str) : option (list func) :=
  assoc_str name (e_funcs env).
Definition has_func (env : environment) (name : str) : bool :=
  match get_func_variants env name with Some _ => true | None => false end.

(** funcs.rs 41, [u64::to_string]: decimal digits. *)
Fixpoint decimal_fuel (fuel : nat) (n : N) (acc : str) : str :=
  match fuel with
  | 0 => acc
  | S fuel' =>
      let acc' := (48 + n mod 10)%N :: acc in
      if (n / 10 =? 0)%N then acc' else decimal_fuel fuel' (n / 10)%N acc'
  end.
Definition decimal (n : N) : str := decimal_fuel (S (N.size_nat n)) n [].

Section Funcs.
Context (O : oracles).

(** funcs.rs 50-82. *)
Definition fn_normalize (x : str) : str := normalize (is_alphanumeric O) (is_numeric O) x.

(** funcs.rs 37-42. *)
Definition fn_hash (seed : N) (input : str) : str := decimal (hash64 O seed input).

(** funcs.rs 85-87: [inputs.join("")]. *)
Definition fn_concat (inputs : list str) : str := List.concat inputs.

(** [Ident::new(text)] (init_funcs.rs 55, 98, 117 and alike). *)
Definition new_ident (x : str) : res value :=
  if ident_ok O x then Ok (VIdent x) else Panic PIdentNew.
(** [LitStr::new(text)] (init_funcs.rs 28-61, 327-340 and alike). *)
Definition new_lit_str (x : str) : value := VLitStr x [].

(** init_funcs.rs 17-25. *)
Definition arg_type_err : res value := Panic PArgType.

(** init_funcs.rs 28-61: [make_str_funcs!]. *)
Definition str_func_lit (g : str -> str) (_ : N) (vs : list value) : res value :=
  match vs with [VLitStr v _] => Ok (new_lit_str (g v)) | _ => arg_type_err end.
Definition str_func_ident (g : str -> str) (_ : N) (vs : list value) : res value :=
  match vs with [VIdent x] => new_ident (g x) | _ => arg_type_err end.

(** init_funcs.rs 93-100. *)
Definition impl_normalize (_ : N) (vs : list value) : res value :=
  match vs with [VRaw ts] => new_ident (fn_normalize (to_string O ts)) | _ => arg_type_err end.

(** init_funcs.rs 111-202: the seven variants of normalize2. *)
Definition impl_normalize2_ident (_ : N) (vs : list value) : res value :=
  match vs with [VIdent x] => new_ident (fn_normalize x) | _ => arg_type_err end.
Definition impl_normalize2_str (_ : N) (vs : list value) : res value :=
  match vs with [VLitStr v _] => new_ident (fn_normalize v) | _ => arg_type_err end.
Definition impl_normalize2_int (_ : N) (vs : list value) : res value :=
  match vs with [VLitInt d _] => new_ident (fn_normalize d) | _ => arg_type_err end.
Definition impl_normalize2_path (_ : N) (vs : list value) : res value :=
  match vs with [VPath ts] => new_ident (fn_normalize (to_string O ts)) | _ => arg_type_err end.
Definition impl_normalize2_type (_ : N) (vs : list value) : res value :=
  match vs with [VType ts] => new_ident (fn_normalize (to_string O ts)) | _ => arg_type_err end.
Definition impl_normalize2_expr (_ : N) (vs : list value) : res value :=
  match vs with [VExpr ts] => new_ident (fn_normalize (to_string O ts)) | _ => arg_type_err end.
Definition impl_normalize2_tokens (_ : N) (vs : list value) : res value :=
  match vs with [VTokens ts] => new_ident (fn_normalize (to_string O ts)) | _ => arg_type_err end.

(** init_funcs.rs 214-257: the three variants of hash. *)
Definition impl_hash_str (seed : N) (vs : list value) : res value :=
  match vs with [VLitStr v _] => Ok (new_lit_str (fn_hash seed v)) | _ => arg_type_err end.
Definition impl_hash_ident (seed : N) (vs : list value) : res value :=
  match vs with [VIdent x] => new_ident (txt "__" ++ fn_hash seed x) | _ => arg_type_err end.
Definition impl_hash_tokens (seed : N) (vs : list value) : res value :=
  match vs with
  | [VTokens ts] => new_ident (txt "__" ++ fn_hash seed (to_string O ts))
  | _ => arg_type_err
  end.

(** init_funcs.rs 269-376: [for value in values { let ValueKind::X(..) = .. else { panic }; push(..) }] *)
Fixpoint collect_args {A} (g : value -> option A) (vs : list value) : option (list A) :=
  match vs with
  | [] => Some []
  | v :: r => match g v, collect_args g r with
              | Some a, Some l => Some (a :: l)
              | _, _ => None
              end
  end.

(** init_funcs.rs 269-282: concat(ident...). *)
Definition impl_concat_idents (_ : N) (vs : list value) : res value :=
  match collect_args (fun v => match v with VIdent x => Some x | _ => None end) vs with
  | Some l => new_ident (fn_concat l)
  | None => arg_type_err
  end.

(** init_funcs.rs 289-320: concat(ident, tokens...); the first value's kind is not
    checked. *)
Definition impl_concat_ident_tokens (_ : N) (vs : list value) : res value :=
  match vs with
  | [] => arg_type_err
  | first :: rest =>
      match collect_args (fun v => match v with VTokens ts => Some (to_string O ts) | _ => None end)
              rest with
      | None => arg_type_err
      | Some l =>
          match parse_str_ident O (fn_concat (to_string O (to_tokens first) :: l)) with
          | Some x => Ok (VIdent x)
          | None => Err EvalError
          end
      end
  end.

(** init_funcs.rs 327-340: concat(str...). *)
Definition impl_concat_strs (_ : N) (vs : list value) : res value :=
  match collect_args (fun v => match v with VLitStr x _ => Some x | _ => None end) vs with
  | Some l => Ok (new_lit_str (fn_concat l))
  | None => arg_type_err
  end.

(** init_funcs.rs 347-359: concat(int...). *)
Definition impl_concat_ints (_ : N) (vs : list value) : res value :=
  match collect_args (fun v => match v with VLitInt d _ => Some d | _ => None end) vs with
  | Some l => match lit_int_new O (fn_concat l) with
              | Some (d, r) => Ok (VLitInt d r)
              | None => Panic PLitNew
              end
  | None => arg_type_err
  end.

(** init_funcs.rs 366-376: concat(tokens...). *)
Definition impl_concat_tokens (_ : N) (vs : list value) : res value :=
  match collect_args (fun v => match v with VTokens ts => Some ts | _ => None end) vs with
  | Some l => Ok (VTokens (List.concat l))
  | None => arg_type_err
  end.

(** init_funcs.rs 387-468, funcs.rs 90-117: the casting functions. *)
Definition impl_to (t : ty) (_ : N) (vs : list value) : res value :=
  match vs with [VTokens ts] => try_cast O (VTokens ts) t | _ => arg_type_err end.

(** init_funcs.rs 477-483: to_tokens. *)
Definition impl_to_tokens (_ : N) (vs : list value) : res value :=
  match vs with [VTokens ts] => Ok (VTokens ts) | _ => arg_type_err end.

(** init_funcs.rs 492-498: raw. *)
Definition impl_raw (_ : N) (vs : list value) : res value :=
  match vs with [VRaw ts] => Ok (VTokens ts) | _ => arg_type_err end.

(** init_funcs.rs 65-502: a table row before ids are assigned. *)
Definition row := (str * list (list ty * ty * (N -> list value -> res value)))%type.

Definition str_funcs (name : str) (g : str -> str) : row :=
  (name, [([TyLitStr], TyLitStr, str_func_lit g); ([TyIdent], TyIdent, str_func_ident g)]).

(** init_funcs.rs 65-502: [init_funcs], in the order of construction. *)
Definition table : list row :=
  [ str_funcs (txt "upper") (upper O);
    str_funcs (txt "lower") (lower O);
    str_funcs (txt "snake_case") (to_snake_case O);
    str_funcs (txt "camel_case") (to_camel_case O);
    str_funcs (txt "pascal_case") (to_pascal_case O);
    (txt "normalize", [([TyRaw], TyIdent, impl_normalize)]);
    (txt "normalize2",
      [ ([TyIdent], TyIdent, impl_normalize2_ident);
        ([TyLitStr], TyIdent, impl_normalize2_str);
        ([TyLitInt], TyIdent, impl_normalize2_int);
        ([TyPath], TyIdent, impl_normalize2_path);
        ([TyType], TyIdent, impl_normalize2_type);
        ([TyExpr], TyIdent, impl_normalize2_expr);
        ([TyTokens], TyIdent, impl_normalize2_tokens) ]);
    (txt "hash",
      [ ([TyLitStr], TyLitStr, impl_hash_str);
        ([TyIdent], TyIdent, impl_hash_ident);
        ([TyTokens], TyIdent, impl_hash_tokens) ]);
    (txt "concat",
      [ ([TyVariadic TyIdent], TyIdent, impl_concat_idents);
        ([TyIdent; TyVariadic TyTokens], TyIdent, impl_concat_ident_tokens);
        ([TyVariadic TyLitStr], TyLitStr, impl_concat_strs);
        ([TyVariadic TyLitInt], TyLitInt, impl_concat_ints);
        ([TyVariadic TyTokens], TyTokens, impl_concat_tokens) ]);
    (txt "to_ident", [([TyTokens], TyIdent, impl_to TyIdent)]);
    (txt "to_path", [([TyTokens], TyPath, impl_to TyPath)]);
    (txt "to_type", [([TyTokens], TyType, impl_to TyType)]);
    (txt "to_expr", [([TyTokens], TyExpr, impl_to TyExpr)]);
    (txt "to_str", [([TyTokens], TyLitStr, impl_to TyLitStr)]);
    (txt "to_int", [([TyTokens], TyLitInt, impl_to TyLitInt)]);
    (txt "to_tokens", [([TyTokens], TyTokens, impl_to_tokens)]);
    (txt "raw", [([TyRaw], TyTokens, impl_raw)]) ].

(** core/type_.rs 112-118: every [Func::new] takes the next unique id. *)
Fixpoint number_variants (name : str) (next_id : N)
  (l : list (list ty * ty * (N -> list value -> res value))) : list func :=
  match l with
  | [] => []
  | (args, out, impl) :: r =>
      {| f_id := next_id; f_name := name; f_arg_types := args; f_out_type := out; f_impl := impl |}
      :: number_variants name (N.succ next_id) r
  end.
Fixpoint number_rows (next_id : N) (l : list row) : list (str * list func) :=
  match l with
  | [] => []
  | (name, vs) :: r =>
      (name, number_variants name next_id vs)
      :: number_rows (next_id + N.of_nat (List.length vs))%N r
  end.

(** core/environment/core.rs 27-30: [new_initialized]; [first_id] is the value of the
    process-wide counter at that moment. *)
Definition new_initialized (seed first_id : N) : environment :=
  {| e_seed := seed; e_funcs := number_rows first_id table |}.
End Funcs.

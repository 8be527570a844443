(** The built-in functions as a table of what they do, without overloads: README, "Functions".
    Arguments are plain values; [raw] and [normalize] take the tokens between the parentheses. *)
From Coq Require Import String.
From Verif Require Import Base Token Types Values Env SpecCalls.
Open Scope list_scope.

Section Functions.
Context (O : oracles) (seed : N).

(** What tokens denote when read as a value of a type.  A quoted text may stand for an
    identifier, and an identifier for a text. *)
Definition read_tokens (t : ty) (ts : list tt) : option value :=
  match t with
  | TyIdent =>
      match parse_lit_str O ts with
      | Some (x, _) => option_map VIdent (parse_str_ident O x)
      | None => option_map VIdent (parse_ident O ts)
      end
  | TyPath => option_map VPath (parse_path O ts)
  | TyType => option_map VType (parse_type O ts)
  | TyExpr => option_map VExpr (parse_expr O ts)
  | TyLitStr =>
      match parse_ident O ts with
      | Some x => Some (VLitStr x [])
      | None => option_map (fun l => VLitStr (fst l) (snd l)) (parse_lit_str O ts)
      end
  | TyLitInt => option_map (fun l => VLitInt (fst l) (snd l)) (parse_lit_int O ts)
  | TyTokens => Some (VTokens ts)
  | TyRaw => Some (VRaw ts)
  | TyVariadic _ => None
  end.

Definition meaning_of_function : Type := option (list tt) -> list value -> res value.

Definition refused (name : str) : res value := Err (SignatureError name).
(** Functions of one argument. *)
Definition unary (name : str) (f : value -> res value) : meaning_of_function :=
  fun _ vs => match vs with [v] => f v | _ => refused name end.
(** Functions of the text of a name or a string; the result is of the same kind. *)
Definition on_text (name : str) (g : str -> str) : meaning_of_function :=
  unary name (fun v => match v with
                       | VLitStr x _ => Ok (VLitStr (g x) [])
                       | VIdent x => identifier O (g x)
                       | _ => refused name
                       end).
(** The text [normalize2] works on. *)
Definition spelling (v : value) : str :=
  match v with VIdent x | VLitStr x _ | VLitInt x _ => x | _ => text_of O v end.
(** Functions of the tokens of their argument, evaluated or not. *)
Definition on_source (name : str) (g : list tt -> res value) : meaning_of_function :=
  fun raw vs =>
    match raw, vs with
    | Some ts, _ => g ts
    | None, [v] => g (to_tokens v)
    | None, _ => refused name
    end.
Definition reading (name : str) (t : ty) : meaning_of_function :=
  unary name (fun v => match read_tokens t (to_tokens v) with Some w => Ok w | None => Err TypeError end).

Definition functions : list (str * meaning_of_function) :=
  [ (txt "upper", on_text (txt "upper") (upper O));
    (txt "lower", on_text (txt "lower") (lower O));
    (txt "snake_case", on_text (txt "snake_case") (to_snake_case O));
    (txt "camel_case", on_text (txt "camel_case") (to_camel_case O));
    (txt "pascal_case", on_text (txt "pascal_case") (to_pascal_case O));
    (txt "normalize", on_source (txt "normalize") (fun ts => identifier O (fn_normalize O (to_string O ts))));
    (txt "normalize2", unary (txt "normalize2") (fun v => identifier O (fn_normalize O (spelling v))));
    (txt "hash", unary (txt "hash") (hash_meaning O seed));
    (txt "concat", fun _ vs => concat_meaning O vs);
    (txt "to_ident", reading (txt "to_ident") TyIdent);
    (txt "to_path", reading (txt "to_path") TyPath);
    (txt "to_type", reading (txt "to_type") TyType);
    (txt "to_expr", reading (txt "to_expr") TyExpr);
    (txt "to_str", reading (txt "to_str") TyLitStr);
    (txt "to_int", reading (txt "to_int") TyLitInt);
    (txt "to_tokens", reading (txt "to_tokens") TyTokens);
    (txt "raw", on_source (txt "raw") (fun ts => Ok (VTokens ts))) ].

Definition call_meaning (name : str) (raw : option (list tt)) (vs : list value) : res value :=
  match assoc_str name functions with
  | Some f => f raw vs
  | None => Err (UndefinedFunctionError name)
  end.
End Functions.

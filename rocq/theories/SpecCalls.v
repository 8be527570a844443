(** What calls of built-in functions on plain values mean, without overloads. *)
From Coq Require Import String.
From Verif Require Import Base Token Types Values Ast Env.

(** A plain argument list. *)
Definition plain (leaves : list (N * value)) : list expr := map (fun l => EValue (fst l) (snd l)) leaves.

(** The value of a plain argument when the aliases [bs] are defined. *)
Definition lookup_value (bs : list (str * value)) (v : value) : value :=
  match v with
  | VIdent x => match assoc_str x bs with Some w => w | None => v end
  | _ => v
  end.

Definition idents_of (vs : list value) : option (list str) :=
  fold_right (fun v r => match v, r with VIdent x, Some l => Some (x :: l) | _, _ => None end) (Some []) vs.
Definition strings_of (vs : list value) : option (list str) :=
  fold_right (fun v r => match v, r with VLitStr x _, Some l => Some (x :: l) | _, _ => None end) (Some []) vs.
Definition ints_of (vs : list value) : option (list str) :=
  fold_right (fun v r => match v, r with VLitInt d _, Some l => Some (d :: l) | _, _ => None end) (Some []) vs.

Section Calls.
Context (O : oracles).
Definition text_of (v : value) : str := to_string O (to_tokens v).
Definition identifier (x : str) : res value := if ident_ok O x then Ok (VIdent x) else Panic PIdentNew.

(** README, table of functions: concat. *)
Definition concat_meaning (vs : list value) : res value :=
  match vs with
  | [] => Err (SignatureError (txt "concat"))
  | v :: rest =>
      match idents_of vs, strings_of vs, ints_of vs, v with
      | Some l, _, _, _ => identifier (List.concat l)
      | _, Some l, _, _ => Ok (VLitStr (List.concat l) [])
      | _, _, Some l, _ => match lit_int_new O (List.concat l) with
                           | Some (d, r) => Ok (VLitInt d r)
                           | None => Panic PLitNew
                           end
      | _, _, _, VIdent _ =>
          match parse_str_ident O (List.concat (map text_of vs)) with
          | Some x => Ok (VIdent x)
          | None => Err EvalError
          end
      | _, _, _, _ => Ok (VTokens (List.concat (map to_tokens vs)))
      end
  end.

(** README, table of functions: hash. *)
Definition hash_meaning (seed : N) (v : value) : res value :=
  match v with
  | VLitStr x _ => Ok (VLitStr (decimal (hash64 O seed x)) [])
  | VIdent x => identifier (txt "__" ++ decimal (hash64 O seed x))
  | _ => identifier (txt "__" ++ decimal (hash64 O seed (text_of v)))
  end.
End Calls.

(** Decimal numerals and the number they denote. *)
Definition numeral_value (x : str) : N := fold_left (fun v c => (v * 10 + (c - 48))%N) x 0%N.
Definition is_numeral (x : str) : Prop := x <> [] /\ Forall (fun c => (48 <= c <= 57)%N) x.

(** The name of the function casting to a type. *)
Definition cast_name (t : ty) : str :=
  match t with
  | TyIdent => txt "to_ident" | TyPath => txt "to_path" | TyType => txt "to_type" | TyExpr => txt "to_expr"
  | TyLitStr => txt "to_str" | TyLitInt => txt "to_int" | _ => txt "to_tokens"
  end.

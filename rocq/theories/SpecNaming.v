(** Vocabulary for what the choice of aliases does not change: giving a plain value a name,
    and which name it is given. *)
From Coq Require Import String.
From Verif Require Import Base Token Types Values Ast Env FormatString SpecPrograms SpecFormat SpecElab.
Open Scope list_scope.

(** The functions that read the tokens of their arguments as written. *)
Definition takes_raw (name : str) : Prop := name = txt "raw" \/ name = txt "normalize".

(** [e'] is [e] with some of the uses of the alias [a] replaced by the value [w].  What
    [raw] and [normalize] receive is the same; what other calls were written like is not
    compared. *)
Inductive inlined (a : str) (w : value) : expr -> expr -> Prop :=
| InlHere id id' : inlined a w (EValue id (VIdent a)) (EValue id' w)
| InlLeaf id id' v : inlined a w (EValue id v) (EValue id' v)
| InlCall id id' name args args' raw raw' :
    Forall2 (inlined a w) args args' ->
    (takes_raw name -> option_map snd raw = option_map snd raw') ->
    inlined a w (ECall id name args raw) (ECall id' name args' raw').
Definition inlined_items (a : str) (w : value) : list spec_item -> list spec_item -> Prop :=
  Forall2 (fun it it' => fst it = fst it' /\ inlined a w (snd it) (snd it')).

(** [e'] is another occurrence of [e]: the same but for ids, and for what calls that do not
    read their source were written like. *)
Inductive same_but_raw : expr -> expr -> Prop :=
| SbrVal id id' v : same_but_raw (EValue id v) (EValue id' v)
| SbrCall id id' name args args' raw raw' :
    Forall2 same_but_raw args args' ->
    (takes_raw name -> option_map snd raw = option_map snd raw') ->
    same_but_raw (ECall id name args raw) (ECall id' name args' raw').

(** [e'] is [e] with some of the uses of the alias [a] replaced by the expression [d]. *)
Inductive expanded (a : str) (d : expr) : expr -> expr -> Prop :=
| ExpHere id d' : same_but_raw d d' -> expanded a d (EValue id (VIdent a)) d'
| ExpLeaf id id' v : expanded a d (EValue id v) (EValue id' v)
| ExpCall id id' name args args' raw raw' :
    Forall2 (expanded a d) args args' ->
    (takes_raw name -> option_map snd raw = option_map snd raw') ->
    expanded a d (ECall id name args raw) (ECall id' name args' raw').
Definition expanded_items (a : str) (d : expr) : list spec_item -> list spec_item -> Prop :=
  Forall2 (fun it it' => fst it = fst it' /\ expanded a d (snd it) (snd it')).

(** A call that has one meaning whatever type is wanted of it: its arguments fit without
    conversions, and a wanted type only adds the conversion of its result. *)
Definition settled (env : environment) (G : tenv) (e : expr) : Prop :=
  exists f args,
    elab env G e None = inl (TECall f args (f_out_type f), 0%N) /\
    forall t, match coercion_cost (f_out_type f) t with
              | Some c => elab env G e (Some t) = inl (TECall f args t, c)
              | None => exists er, elab env G e (Some t) = inr er
              end.

(** Expressions whose type can be read off without knowing what they are wanted for. *)
Definition case_functions : list str :=
  [txt "upper"; txt "lower"; txt "snake_case"; txt "camel_case"; txt "pascal_case"].
Definition readers : list (str * ty) :=
  [ (txt "to_ident", TyIdent); (txt "to_path", TyPath); (txt "to_type", TyType); (txt "to_expr", TyExpr);
    (txt "to_str", TyLitStr); (txt "to_int", TyLitInt); (txt "to_tokens", TyTokens) ].
Inductive steady (G : tenv) : expr -> ty -> Prop :=
| StLeaf id v : steady G (EValue id v) (static_type G v)
| StCase id name arg raw t : In name case_functions -> t = TyIdent \/ t = TyLitStr ->
    steady G arg t -> steady G (ECall id name [arg] raw) t
| StNormalize id args raw : steady G (ECall id (txt "normalize") args (Some raw)) TyIdent
| StRaw id args raw : steady G (ECall id (txt "raw") args (Some raw)) TyTokens
| StNormalize2 id arg raw t :
    In t [TyIdent; TyLitStr; TyLitInt; TyPath; TyType; TyExpr; TyTokens] ->
    steady G arg t -> steady G (ECall id (txt "normalize2") [arg] raw) TyIdent
| StHash id arg raw : steady G arg TyIdent -> steady G (ECall id (txt "hash") [arg] raw) TyIdent
| StReader id name arg raw t : In (name, t) readers -> steady G arg TyTokens -> steady G (ECall id name [arg] raw) t
| StConcat id args raw t : args <> [] -> In t [TyIdent; TyLitStr; TyLitInt; TyTokens] ->
    Forall (fun arg => steady G arg t) args -> steady G (ECall id (txt "concat") args raw) t
| StAppend id arg args raw : args <> [] -> steady G arg TyIdent ->
    Forall (fun arg => steady G arg TyTokens) args -> steady G (ECall id (txt "concat") (arg :: args) raw) TyIdent.

(** [e'] is [e] with the alias [a] renamed to [b], a name [e] does not use. *)
Inductive renamed (a b : str) : expr -> expr -> Prop :=
| RenHere id id' : renamed a b (EValue id (VIdent a)) (EValue id' (VIdent b))
| RenLeaf id id' v : v <> VIdent a -> v <> VIdent b -> renamed a b (EValue id v) (EValue id' v)
| RenCall id id' name args args' raw raw' :
    Forall2 (renamed a b) args args' ->
    (takes_raw name -> option_map snd raw = option_map snd raw') ->
    renamed a b (ECall id name args raw) (ECall id' name args' raw').
Definition renamed_items (a b : str) : list spec_item -> list spec_item -> Prop :=
  Forall2 (fun it it' => fst it = fst it' /\ renamed a b (snd it) (snd it')).

(** Bindings with one alias called otherwise. *)
Definition rename_bindings (a b : str) (bs : list (str * value)) : list (str * value) :=
  map (fun p => (if str_eqb (fst p) a then b else fst p, snd p)) bs.

(** Code with the alias [a] called [b], a name it does not use: identifiers, and placeholders
    in the text of string literals. *)
Section Code.
Context (O : oracles) (a b : str).
Inductive renamed_piece : piece -> piece -> Prop :=
| RpHole t t' k : name_of (is_whitespace O) t = a -> name_of (is_whitespace O) t' = b -> renamed_piece (PHole t k) (PHole t' k)
| RpSame p : (forall t k, p = PHole t k -> name_of (is_whitespace O) t <> a /\ name_of (is_whitespace O) t <> b) -> renamed_piece p p.
Definition renamed_text (s s' : str) : Prop := exists ps ps' tail,
  wf percent ps tail /\ wf percent ps' tail /\ Forall2 renamed_piece ps ps' /\
  s = render percent ps tail /\ s' = render percent ps' tail.
Inductive renamed_token : tt -> tt -> Prop :=
| RtHere : renamed_token (TIdent a) (TIdent b)
| RtIdent x : x <> a -> x <> b -> renamed_token (TIdent x) (TIdent x)
| RtPunct c s : renamed_token (TPunct c s) (TPunct c s)
| RtLit l : parse_lit_str O [TLit l] = None -> renamed_token (TLit l) (TLit l)
| RtStr l l' v v' p p' :
    parse_lit_str O [TLit l] = Some (v, p) -> parse_lit_str O [TLit l'] = Some (v', p') ->
    renamed_text v v' -> renamed_token (TLit l) (TLit l')
| RtGroup d ts ts' : Forall2 renamed_token ts ts' -> renamed_token (TGroup d ts) (TGroup d ts').
Definition renamed_code : list tt -> list tt -> Prop := Forall2 renamed_token.
End Code.

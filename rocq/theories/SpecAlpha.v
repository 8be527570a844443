(** Vocabulary for uses with other names for their aliases. *)
From Coq Require Import String.
From Verif Require Import Base Token Types Values FormatString Ast Env Item Parse Macro SpecFormat SpecSubst SpecMacro SpecNaming SpecRename SpecHeaders SpecNested.
Open Scope list_scope.

(** Different identifiers get different names, and literals stay. *)
Record one_to_one (r : naming) : Prop := {
  one_to_one_idents : forall x y, r x = r y -> x = y;
  one_to_one_literals : forall l, on_literals r l = l;
}.
(** Values under other names. *)
Definition rename_keys {A} (r : str -> str) (bs : list (str * A)) : list (str * A) := map (fun b => (r (fst b), snd b)) bs.

(** An identifier that gets another name in a definition stands alone and is an alias defined
    before; the functions keep their names, and so do the tokens that are taken as they are. *)
Fixpoint scoped_expr (r : naming) (bound : list str) (e : expr) : Prop :=
  match e with
  | EValue _ (VIdent x) => In x bound \/ r x = x
  | EValue _ v => rename_value r v = v
  | ECall _ name args raw => r name = name /\ fold_right and True (map (scoped_expr r bound) args) /\
      (takes_raw name -> forall id ts, raw = Some (id, ts) -> rename r ts = ts)
  end.
Fixpoint aliases_before (r : naming) (bound : list str) (items : list spec_item) : Prop :=
  match items with
  | [] => True
  | it :: rest => scoped_expr r bound (snd it) /\ aliases_before r (fst it :: bound) rest
  end.
(** An identifier that gets another name in the code is an alias; the placeholders of the strings
    keep their names. *)
Definition scoped_code (O : oracles) (r : naming) (bound : list str) (ts : list tt) : Prop :=
  (forall x, In (TIdent x) (leaves ts) -> In x bound \/ r x = x) /\
  (forall l v p, In (TLit l) (leaves ts) -> parse_lit_str O [TLit l] = Some (v, p) ->
   exists ps tail, v = render 37%N ps tail /\ wf 37%N ps tail /\
   forall t k, In (PHole t k) ps -> r (name_of (is_whitespace O) t) = name_of (is_whitespace O) t).
(** ... in every round of a use. *)
Definition scoped_use (O : oracles) (r : naming) (ast : raw_ast (list stmt)) : Prop :=
  forall items, In (Some items) (rounds ast) -> aliases_before r [] items /\ scoped_code O r (map fst items) (code ast).

(** A use with other names. *)
Definition rename_source (r : naming) (s : source) : source :=
  match s with
  | Compose ts => Compose (rename r ts)
  | ComposeIdents ts => ComposeIdents (rename r ts)
  | ComposeItem attr item => ComposeItem (rename r attr) (rename r item)
  end.
(** What is assumed of syn and of the functions. *)
Record names_alike (O : oracles) (P : parsers) (r : naming) : Prop := {
  alike_one_to_one : one_to_one r;
  alike_printed : Forall (spared r) printed_words;
  alike_functions : same_functions r (known O);
  alike_headers : reads_alike r P;
  alike_block : forall ts, pre_block P (rename r ts) = option_map (fun '(b, k, u) => (rename_block r b, k, u)) (pre_block P ts);
}.

(** Names that are exchanged, pair by pair. *)
Definition exchange (p : str * str) (x : str) : str := if str_eqb x (fst p) then snd p else if str_eqb x (snd p) then fst p else x.
Definition exchanging (l : list (str * str)) : naming := {| on_idents := fun x => fold_right exchange x l; on_literals := fun k => k |}.

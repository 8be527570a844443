(** Vocabulary for headers in which the names of a use around them have been replaced. *)
From Coq Require Import String.
From Verif Require Import Base Token Types Values Ast Env Item Interpreter Parse Macro SpecPrograms SpecParse SpecElab SpecFormat SpecSubst SpecItem SpecDeprecation SpecMacro SpecRepro SpecNested SpecRename SpecHeaders.
Open Scope list_scope.

(** Every alias stands for an identifier, which takes its place. *)
Definition all_names (bs : venv) : Prop := forall b, In b bs -> exists y, snd b = VIdent y.
Definition naming_of (bs : venv) : naming :=
  {| on_idents := fun x => match assoc_str x bs with Some (VIdent y) => y | _ => x end; on_literals := fun l => l |}.

(** [w] is neither an alias nor what one stands for. *)
Definition free_of (bs : venv) (w : str) : Prop := forall b, In b bs -> fst b <> w /\ snd b <> VIdent w.

(** What is assumed of syn for these identifiers. *)
Record names_fit (O : oracles) (P : parsers) (bs : venv) : Prop := {
  fit_names : all_names bs;
  fit_words : Forall (free_of bs) printed_words;
  fit_functions : forall x, known O x = true -> free_of bs x;
  fit_read : reads_alike (naming_of bs) P;
  fit_block : forall ts, pre_block P (rename (naming_of bs) ts) =
    option_map (fun '(b, k, u) => (rename_block (naming_of bs) b, k, u)) (pre_block P ts);
}.

(** The strings are not changed. *)
Definition strings_kept (O : oracles) (bs : venv) (ts : list tt) : Prop :=
  forall l, In (TLit l) (leaves ts) -> literal_of O (fun x => assoc_str x bs) l = None \/ literal_of O (fun x => assoc_str x bs) l = Some l.

(** The names are mentioned only as values and in what [raw] and [normalize] are given, not in
    paths, types and other expressions; nor are they what the header defines. *)
Fixpoint only_values (O : oracles) (bs : venv) (e : expr) : Prop :=
  match e with
  | EValue _ (VIdent _) => True
  | EValue _ v => rename_value (naming_of bs) v = v
  | ECall _ name args raw =>
      naming_of bs name = name /\ fold_right and True (map (only_values O bs) args) /\
      forall id ts, raw = Some (id, ts) -> strings_kept O bs ts
  end.
Definition mentioned_in (O : oracles) (bs : venv) {B} (header : raw_ast B) : Prop :=
  (forall l, In l (loops_of header) -> rename_pattern (naming_of bs) (loop_pattern l) = loop_pattern l) /\
  (forall it, In it (own_items header) -> naming_of bs (fst it) = fst it) /\
  (forall e, In e (ast_exprs header) -> only_values O bs e).

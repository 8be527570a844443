(** Specification of loops with spans: which rounds an input stands for, and what is said, and
    where, of values that do not fit their patterns. *)
From Coq Require Import String.
From Verif Require Import Base Token Types Values Ast Item SpecProduct SpecTuple SpecMacro
  Failures SpanTokens SpanWalker SpanValues SpanEval SpanItem SpanParse SpanMacro SpecSpanEval.
Open Scope list_scope.

(** ** One pattern and one value *)
(** They fit: one alias and one value, or tuples of the same shape. *)
Inductive fits : loop_alias -> ssource_value -> list sitem -> Prop :=
| fits_value : forall a e, fits (LASimple a) (SLSValue e) [(a, e)]
| fits_tuple : forall a s e, kinds_in_level_order a = kinds_in_level_order e ->
    fits (LATuple a) (SLSTuple s e) (combine (values_in_level_order a) (values_in_level_order e)).
(** They do not: the message and its place, that of the value. *)
Inductive misfits (SO : soracles) : loop_alias -> ssource_value -> str -> span -> Prop :=
| tuple_for_alias : forall a s e, misfits SO (LASimple a) (SLSTuple s e) (txt "Mismatched alias and value types") s
| value_for_tuple : forall a e s, whole_place SO e s ->
    misfits SO (LATuple a) (SLSValue e) (txt "Mismatched alias and value types") s
| other_number : forall a s e, List.length (kinds_in_level_order a) <> List.length (kinds_in_level_order e) ->
    misfits SO (LATuple a) (SLSTuple s e) (txt "Mismatched number of elements in the tuple") s
| other_shape : forall a s e, List.length (kinds_in_level_order a) = List.length (kinds_in_level_order e) ->
    kinds_in_level_order a <> kinds_in_level_order e ->
    misfits SO (LATuple a) (SLSTuple s e) (txt "Shape of the value tuple doesn't match the shape of the alias tuple") s.

(** ** One round *)
(** One value per loop: the definitions of all loops; or the first misfit. *)
Inductive round_fits : list sloop_item -> list ssource_value -> list sitem -> Prop :=
| fits_none : round_fits [] [] []
| fits_more : forall l ls v vs items rest, fits (sl_pattern l) v items -> round_fits ls vs rest ->
    round_fits (l :: ls) (v :: vs) (items ++ rest).
Inductive round_misfits (SO : soracles) : list sloop_item -> list ssource_value -> str -> span -> Prop :=
| misfits_here : forall l ls v vs m s, misfits SO (sl_pattern l) v m s -> round_misfits SO (l :: ls) (v :: vs) m s
| misfits_later : forall l ls v vs items m s, fits (sl_pattern l) v items -> round_misfits SO ls vs m s ->
    round_misfits SO (l :: ls) (v :: vs) m s.

(** ** All rounds *)
Section Rounds.
Context {B : Type}.
Definition own_sitems (ast : sraw_ast B) : list sitem :=
  match sa_spec ast with Some s => ss_items s | None => [] end.
(** The rounds: one per combination of values, in order, each with the definitions of the loops
    in front of those of the list. *)
Definition has_rounds (ast : sraw_ast B) (rs : list (list sitem)) : Prop :=
  match sa_loops ast with
  | None => rs = [own_sitems ast]
  | Some loops =>
      Forall2 (fun c r => exists items, round_fits loops c items /\ r = items ++ own_sitems ast)
        (all_combinations (map sl_values loops)) rs
  end.
(** Or the first round that has none. *)
Definition has_misfit (SO : soracles) (ast : sraw_ast B) (m : str) (s : span) : Prop :=
  exists loops before c after, sa_loops ast = Some loops /\
    all_combinations (map sl_values loops) = before ++ c :: after /\
    Forall (fun b => exists items, round_fits loops b items) before /\ round_misfits SO loops c m s.
End Rounds.

(** A round as an input: its definitions and the block, without loops. *)
Definition sround_ast (block : list pstmt) (items : list sitem) : sraw_ast (list pstmt) :=
  {| sa_loops := None; sa_spec := Some {| ss_items := items; ss_comma := Some true |}; sa_block := block |}.
(** Results one after the other: all the code, or the first failure. *)
Fixpoint sin_sequence (l : list (sres (list stt))) : sres (list stt) :=
  match l with
  | [] => SOk []
  | r :: l' => let? a := r in let? b := sin_sequence l' in SOk (a ++ b)
  end.

(** Model of /repo/src/substitution/format_string.rs. *)
From Coq Require Import String.
From Verif Require Import Base Token Types Values.

(** The character of format_string.rs 36-75. *)
Definition percent : chr := 37%N.

(** format_string.rs 12-17: [segments.map(..).collect::<Vec<_>>().join(sep)] *)
Fixpoint join (sep : str) (l : list str) : str :=
  match l with
  | [] => []
  | [x] => x
  | x :: r => x ++ sep ++ join sep r
  end.

Section Format.
Context (O : oracles).

(** format_string.rs 9-25: [format_value]; [LitInt]'s [Display] is its source text. *)
Definition format_value (v : value) : str :=
  match v with
  | VIdent x => x
  | VPath ts => join (txt "::") (path_segments O ts)
  | VType ts | VExpr ts | VTokens ts | VRaw ts => to_string O ts
  | VLitStr x _ => x
  | VLitInt _ r => r
  end.

(** The HashMap of substitutions is the lookup function it is used as. *)
Context (lookup : str -> option value).

(** format_string.rs 29-34: the locals of the loop. *)
Record fstate := {
  formatted : str;
  placeholder : str;
  placeholder_text : str;
  in_placeholder : bool;
  prev_c : option chr;
}.
Definition fstart : fstate :=
  {| formatted := []; placeholder := []; placeholder_text := []; in_placeholder := false;
     prev_c := None |}.

Definition is_percent (c : chr) : bool := N.eqb c percent.

(** format_string.rs 36-75: one iteration, arm by arm. *)
Definition format_step (st : fstate) (c : chr) : fstate :=
  let push x :=
    {| formatted := formatted st ++ x; placeholder := []; placeholder_text := [];
       in_placeholder := false; prev_c := Some c |} in
  if is_percent c then
    if match prev_c st with Some p => is_percent p | None => false end then push [percent]
    else if in_placeholder st then
      match lookup (placeholder st) with
      | Some v => push (format_value v)
      | None => push (placeholder_text st ++ [percent])
      end
    else
      {| formatted := formatted st; placeholder := placeholder st;
         placeholder_text := placeholder_text st ++ [c]; in_placeholder := true;
         prev_c := Some c |}
  else if in_placeholder st then
    if is_whitespace O c then
      {| formatted := formatted st; placeholder := placeholder st;
         placeholder_text := placeholder_text st ++ [c]; in_placeholder := true;
         prev_c := Some c |}
    else
      {| formatted := formatted st; placeholder := placeholder st ++ [c];
         placeholder_text := placeholder_text st ++ [c]; in_placeholder := true;
         prev_c := Some c |}
  else
    {| formatted := formatted st ++ [c]; placeholder := placeholder st;
       placeholder_text := placeholder_text st; in_placeholder := false; prev_c := Some c |}.

(** format_string.rs 28-82: [format_string]. *)
Definition format_string (value : str) : str :=
  let st := fold_left format_step value fstart in
  if in_placeholder st then formatted st ++ placeholder_text st else formatted st.
End Format.

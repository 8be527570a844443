(** Model of /repo/src/funcs.rs: normalize (44-82). *)
From Verif Require Import Base.

Definition underscore : chr := 95%N.

Section Normalize.
Context (is_alphanumeric is_numeric : chr -> bool).

(** The state of the loop of funcs.rs 56-73. *)
Record nstate := { n_result : str; n_inserted : bool }.

(** funcs.rs 57-72: one iteration; [is_last] is [i == num_chars - 1]. *)
Definition normalize_step (st : nstate) (c : chr) (is_last : bool) : nstate :=
  let is_first := match n_result st with [] => true | _ => false end in
  let should_strip := is_first || is_last in
  if is_alphanumeric c || N.eqb c underscore then
    if is_first && is_numeric c && negb (n_inserted st) then
      (* push('_'); push(char) *)
      {| n_result := n_result st ++ [underscore] ++ [c]; n_inserted := false |}
    else if N.eqb c underscore && should_strip then st   (* continue *)
    else {| n_result := n_result st ++ [c]; n_inserted := false |}
  else if negb (n_inserted st) && negb should_strip then
    {| n_result := n_result st ++ [underscore]; n_inserted := true |}
  else st.

(** funcs.rs 56-73: the loop. *)
Fixpoint normalize_loop (st : nstate) (input : str) : nstate :=
  match input with
  | [] => st
  | c :: rest =>
      normalize_loop (normalize_step st c (match rest with [] => true | _ => false end)) rest
  end.

(** funcs.rs 50-82: [normalize]; [String::pop] is [removelast]. *)
Definition normalize (input : str) : str :=
  let st := normalize_loop {| n_result := []; n_inserted := false |} input in
  let result := if n_inserted st then removelast (n_result st) else n_result st in
  match result with [] => [underscore] | _ => result end.
End Normalize.

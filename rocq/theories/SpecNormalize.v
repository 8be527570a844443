(** Specification of normalize by cutting and collapsing, independent of the loop. *)
From Verif Require Import Base.

Section Spec.
Context (alnum numeric : chr -> bool) (us : chr).

Definition keep (c : chr) : bool := alnum c || N.eqb c us.

(** Every maximal run of characters that cannot be kept becomes one underscore. *)
Fixpoint collapse (in_run : bool) (s : str) : str :=
  match s with
  | [] => []
  | c :: r =>
      if keep c then c :: collapse false r
      else if in_run then collapse true r else us :: collapse true r
  end.

Fixpoint drop_while (p : chr -> bool) (s : str) : str :=
  match s with
  | [] => []
  | c :: r => if p c then drop_while p r else s
  end.
Definition drop_while_end (p : chr -> bool) (s : str) : str := rev (drop_while p (rev s)).

(** Drop the last character if it is not alphanumeric. *)
Definition drop_last_separator (s : str) : str :=
  match rev s with
  | c :: r => if alnum c then s else rev r
  | [] => []
  end.

Definition normal_form (s : str) : str :=
  match drop_while (fun c => negb (alnum c)) s with
  | [] => [us]
  | c :: r =>
      (if numeric c then [us] else [])
      ++ collapse false (drop_while_end (fun c => negb (keep c)) (drop_last_separator (c :: r)))
  end.
End Spec.

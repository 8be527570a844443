(** Specification of substitution with spans: as SpecSubst.v, on tokens that carry spans. *)
From Verif Require Import Base Token Types Values FormatString SpecSubst Failures SpanTokens SpanWalker.

Section Spec.
Context (alias_tokens : str -> option (list stt)) (new_literal : lit -> option lit).

(** Tokens that are not replaced keep their spans; what an alias stands for comes with its
    own; a formatted string keeps the span of the literal; groups keep the span of the whole
    for all their spans. *)
Fixpoint sreplaced (t : stt) : list stt :=
  match t with
  | SIdent x _ => match alias_tokens x with Some ts => ts | None => [t] end
  | SLit l s => match new_literal l with Some l' => [SLit l' s] | None => [t] end
  | SPunct _ _ _ => [t]
  | SGroup d ts s => [SGroup d (flat_map sreplaced ts) (single (ds_entire s))]
  end.
Definition sreplaced_stream (ts : list stt) : list stt := flat_map sreplaced ts.

(** The streams after the first, the first two, ... replacements, with the alias and the
    place of the last one. *)
Fixpoint sstages1 (t : stt) : list (option (str * span) * list stt) :=
  match t with
  | SIdent x s => match alias_tokens x with Some ts => [(Some (x, s), ts)] | None => [] end
  | SLit l s => match new_literal l with Some l' => [(None, [SLit l' s])] | None => [] end
  | SPunct _ _ _ => []
  | SGroup d ts s =>
      map (fun e => (fst e, [SGroup d (snd e) (single (ds_entire s))]))
        ((fix go (l : list stt) : list (option (str * span) * list stt) :=
            match l with
            | [] => []
            | t :: r =>
                map (fun e => (fst e, snd e ++ r)) (sstages1 t) ++
                map (fun e => (fst e, sreplaced t ++ snd e)) (go r)
            end) ts)
  end.
Fixpoint sstages (l : list stt) : list (option (str * span) * list stt) :=
  match l with
  | [] => []
  | t :: r =>
      map (fun e => (fst e, snd e ++ r)) (sstages1 t) ++
      map (fun e => (fst e, sreplaced t ++ snd e)) (sstages r)
  end.

(** The occurrences that are replaced, in order. *)
Fixpoint occurrences1 (t : stt) : list (option (str * span)) :=
  match t with
  | SIdent x s => match alias_tokens x with Some _ => [Some (x, s)] | None => [] end
  | SLit l _ => match new_literal l with Some _ => [None] | None => [] end
  | SPunct _ _ _ => []
  | SGroup _ ts _ => flat_map occurrences1 ts
  end.
Definition occurrences (ts : list stt) : list (option (str * span)) := flat_map occurrences1 ts.
End Spec.

(** The last alias of a list of occurrences. *)
Fixpoint last_place (last : option (str * span)) (l : list (option (str * span))) : option (str * span) :=
  match l with
  | [] => last
  | Some p :: r => last_place (Some p) r
  | None :: r => last_place last r
  end.

Section Subst.
Context (O : oracles) (lookup : str -> option value) (salias : str -> option (list stt)).
Definition ssubstituted (ts : list stt) : list stt := sreplaced_stream salias (literal_of O lookup) ts.
Definition ssubstitution_stages (ts : list stt) : list (option (str * span) * list stt) :=
  sstages salias (literal_of O lookup) ts.
End Subst.

(** The text of what an alias stands for. *)
Definition alias_text (O : oracles) (salias : str -> option (list stt)) (x : str) : str :=
  match salias x with Some ts => to_string O (map erase ts) | None => [] end.

(** The spanned values are the values: same aliases, same tokens. *)
Definition same_aliases (lookup : str -> option value) (salias : str -> option (list stt)) : Prop :=
  forall x, option_map (map erase) (salias x) = tokens_of lookup x.

(** An outcome without its spans. *)
Definition forget {A B} (f : A -> B) (r : sres A) : res B :=
  match r with SOk a => Ok (f a) | SErr e _ => Err (class e) | SPanic p => Panic p end.

(** Every group has one span only. *)
Fixpoint collapsed (t : stt) : stt :=
  match t with SGroup d ts s => SGroup d (map collapsed ts) (single (ds_entire s)) | _ => t end.

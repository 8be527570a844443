(** Model of /repo/src/substitution/stream_visitor.rs. *)
From Verif Require Import Base Token.

(** stream_visitor.rs 342-352: [StreamVisitorAction]. *)
Inductive action := Continue | Skip | Replace (ts : list tt).

(** stream_visitor.rs 207-209: [VisitorCtx], a stack of cursors and token vectors.  The
    back of the VecDeque (the innermost group) is the head of the list. *)
Definition cursor := (nat * list tt)%type.
Definition ctx := list cursor.

(** stream_visitor.rs 359-407: [StreamVisitor].  [S] is the visitor's own state. *)
Record visitor (S : Type) := {
  visit_ident : S -> ctx -> str -> res (action * S);
  visit_punct : S -> ctx -> chr -> bool -> res (action * S);
  visit_literal : S -> ctx -> lit -> res (action * S);
  visit_group : S -> ctx -> delim -> list tt -> res (action * S);
  enter_group : S -> ctx -> list tt -> res (action * S);
  exit_group : S -> ctx -> list tt -> res (action * S);
  after_replace : S -> ctx -> res S;
}.
Arguments visit_ident {S}. Arguments visit_punct {S}. Arguments visit_literal {S}.
Arguments visit_group {S}. Arguments enter_group {S}. Arguments exit_group {S}.
Arguments after_replace {S}.

(** [Vec::splice(i..=i, new)] *)
Definition splice {A} (i : nat) (new ts : list A) : list A := firstn i ts ++ new ++ skipn (S i) ts.

(** stream_visitor.rs 239-246: [replace_current_token]. *)
Definition replace_current_token (c : ctx) (new : list tt) : ctx :=
  match c with
  | (i, ts) :: rest =>
      let ts' := splice i new ts in
      (Nat.min (length ts') (i + (length new - 1)), ts') :: rest
  | [] => []
  end.

(** stream_visitor.rs 248-254: [remove_current_token]. *)
Definition remove_current_token (c : ctx) : ctx :=
  match c with
  | (i, ts) :: rest => (i, if Nat.ltb i (length ts) then splice i [] ts else ts) :: rest
  | [] => []
  end.

(** stream_visitor.rs 261-274: [fold_group]. *)
Definition fold_group (group parent : list tt) (i : nat) : res (list tt) :=
  match nth_error parent i with
  | Some (TGroup d _) => Ok (splice i [TGroup d group] parent)
  | Some _ => Panic PFoldGroup
  | None => Panic PIndex
  end.

(** stream_visitor.rs 281-288: [pop_fold]. *)
Definition pop_fold (c : ctx) : res ctx :=
  match c with
  | (_, ts) :: (i, p) :: rest => let! p' := fold_group ts p i in Ok ((i, p') :: rest)
  | _ :: [] | [] => Ok []
  end.

(** stream_visitor.rs 290-297: [pop_remove]; [Vec::remove] panics out of range. *)
Definition pop_remove (c : ctx) : res ctx :=
  match c with
  | _ :: (i, p) :: rest =>
      if Nat.ltb i (length p) then Ok ((i, splice i [] p) :: rest) else Panic PIndex
  | _ :: [] | [] => Ok []
  end.

(** stream_visitor.rs 299-303: [advance_current_group]. *)
Definition advance_current_group (c : ctx) : ctx :=
  match c with
  | (i, ts) :: rest => (Nat.min (length ts) (i + 1), ts) :: rest
  | [] => []
  end.

(** stream_visitor.rs 305-310, 312-314. *)
Definition replace_current_group (c : ctx) (new : list tt) : ctx :=
  match c with (i, _) :: rest => (i, new) :: rest | [] => [] end.
Definition push_group (c : ctx) (ts : list tt) : ctx := (0, ts) :: c.

(** stream_visitor.rs 220-222. *)
Definition current_group (c : ctx) : list tt := match c with (_, ts) :: _ => ts | [] => [] end.

(** stream_visitor.rs 317-337: [current_stream]. *)
Definition current_stream (c : ctx) : res (list tt) :=
  match c with
  | [] => Ok []
  | (_, ts) :: rest =>
      fold_left (fun acc f => let! a := acc in fold_group a (snd f) (fst f)) rest (Ok ts)
  end.

Section Walk.
Context {S : Type} (V : visitor S).

(** stream_visitor.rs 131-156, 168-197: what happens to a leaf token or to a whole group
    for an action other than [Continue]. *)
Definition skip_or_replace (s : S) (c : ctx) (a : action) : res (S * ctx) :=
  match a with
  | Continue => Ok (s, advance_current_group c)
  | Skip => Ok (s, remove_current_token c)
  | Replace [] =>
      let c' := replace_current_token c [] in
      let! s' := after_replace V s c' in Ok (s', c')
  | Replace new =>
      let c' := advance_current_group (replace_current_token c new) in
      let! s' := after_replace V s c' in Ok (s', c')
  end.

(** stream_visitor.rs 44-201: one iteration of the loop; [inr] is the walk's result. *)
Definition walk_step (s : S) (c : ctx) : res (S * ctx + S * list tt) :=
  match c with
  | [] => Panic PUnreachable
  | (i, ts) :: rest =>
      match nth_error ts i with
      | None =>
          let! (a, s1) := exit_group V s c ts in
          match rest with
          | [] =>
              match a with
              | Continue => Ok (inr (s1, ts))
              | Skip => Ok (inr (s1, []))
              | Replace new =>
                  let c' := replace_current_group c new in
                  let! s2 := after_replace V s1 c' in Ok (inr (s2, current_group c'))
              end
          | _ =>
              match a with
              | Continue => let! c' := pop_fold c in Ok (inl (s1, advance_current_group c'))
              | Skip => let! c' := pop_remove c in Ok (inl (s1, c'))
              | Replace new =>
                  let! c' := pop_fold (replace_current_group c new) in
                  let c'' := advance_current_group c' in
                  let! s2 := after_replace V s1 c'' in Ok (inl (s2, c''))
              end
          end
      | Some (TGroup d g) =>
          let! (a, s1) := visit_group V s c d g in
          match a with
          | Continue =>
              let c1 := push_group c g in
              let! (a2, s2) := enter_group V s1 c1 g in
              match a2 with
              | Continue => Ok (inl (s2, c1))
              | Skip => let! c2 := pop_remove c1 in Ok (inl (s2, c2))
              | Replace new =>
                  let c2 := replace_current_group c1 new in
                  let! s3 := after_replace V s2 c2 in Ok (inl (s3, c2))
              end
          | _ => let! r := skip_or_replace s1 c a in Ok (inl r)
          end
      | Some (TIdent x) =>
          let! (a, s1) := visit_ident V s c x in
          let! r := skip_or_replace s1 c a in Ok (inl r)
      | Some (TPunct p j) =>
          let! (a, s1) := visit_punct V s c p j in
          let! r := skip_or_replace s1 c a in Ok (inl r)
      | Some (TLit l) =>
          let! (a, s1) := visit_literal V s c l in
          let! r := skip_or_replace s1 c a in Ok (inl r)
      end
  end.

Fixpoint walk_from (fuel : nat) (s : S) (c : ctx) : res (S * list tt) :=
  match fuel with
  | 0 => Panic PFuel
  | Datatypes.S fuel' =>
      let! r := walk_step s c in
      match r with
      | inl (s', c') => walk_from fuel' s' c'
      | inr out => Ok out
      end
  end.

(** stream_visitor.rs 36-42: [walk]. *)
Definition walk (fuel : nat) (s : S) (stream : list tt) : res (S * list tt) :=
  walk_from fuel s [(0, stream)].
End Walk.

(** One step per leaf, two per group (entering and leaving), used as fuel. *)
Fixpoint tt_steps (t : tt) : nat :=
  match t with
  | TGroup _ ts => 2 + fold_right (fun t n => tt_steps t + n) 0 ts
  | _ => 1
  end.
Definition stream_steps (ts : list tt) : nat := fold_right (fun t n => tt_steps t + n) 0 ts.

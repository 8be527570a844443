(** Renaming identifiers commutes with the token substitution. *)
From Verif Require Import Base BaseFacts Token Types Values StreamWalker SubstituteIdents SpecRename.
Open Scope list_scope.

Definition rmap {A B} (f : A -> B) (x : res A) : res B :=
  match x with Ok a => Ok (f a) | Err e => Err e | Panic p => Panic p end.
Lemma rbind {A B C D} (f : A -> C) (h : B -> D) x x' (k : A -> res B) (k' : C -> res D) :
  x' = rmap f x -> (forall a, k' (f a) = rmap h (k a)) -> bind x' k' = rmap h (bind x k).
Proof. intros -> H. destruct x; cbn [rmap bind]; [apply H|reflexivity|reflexivity]. Qed.
Lemma mapM_rename {A B C D} (f : A -> C) (h : B -> D) (g : A -> res B) (g' : C -> res D) l :
  Forall (fun a => g' (f a) = rmap h (g a)) l -> mapM g' (map f l) = rmap (map h) (mapM g l).
Proof.
  induction 1 as [|a l Ha _ IH]; [reflexivity|]. cbn [map mapM]. apply (rbind h); [exact Ha|]. intros b.
  apply (rbind (map h)); [exact IH|reflexivity].
Qed.

Section Walk.
Context (r : naming).
Notation rename := (rename r).
Notation rename1 := (rename1 r).

Lemma rename_app a b : rename (a ++ b) = rename a ++ rename b.
Proof. apply map_app. Qed.
Lemma rename_length ts : length (rename ts) = length ts.
Proof. apply map_length. Qed.
Lemma rename_firstn n ts : firstn n (rename ts) = rename (firstn n ts).
Proof. apply firstn_map. Qed.
Lemma rename_skipn n ts : skipn n (rename ts) = rename (skipn n ts).
Proof. apply skipn_map. Qed.
Lemma steps_rename1 : forall t, tt_steps (rename1 t) = tt_steps t.
Proof.
  induction t as [x|c j|l|d ts IH] using tt_ind'; try reflexivity. cbn [SpecRename.rename1 tt_steps]. f_equal.
  induction IH as [|t ts Ht _ IH]; [reflexivity|]. cbn [map fold_right]. rewrite Ht, IH. reflexivity.
Qed.
Lemma steps_rename ts : stream_steps (rename ts) = stream_steps ts.
Proof. induction ts as [|t ts IH]; [reflexivity|]. cbn [SpecRename.rename map stream_steps fold_right]. rewrite steps_rename1. f_equal. exact IH. Qed.

(** ** The stack of cursors *)
Definition rename_cursor (c : cursor) : cursor := (fst c, rename (snd c)).
Definition rename_ctx : ctx -> ctx := map rename_cursor.
Lemma splice_rename i new ts : splice i (rename new) (rename ts) = rename (splice i new ts).
Proof. unfold splice. rewrite rename_firstn, rename_skipn, !rename_app. reflexivity. Qed.
Lemma splice_nil_rename i ts : splice i [] (rename ts) = rename (splice i [] ts).
Proof. apply (splice_rename i []). Qed.
Lemma nth_rename ts i : nth_error (rename ts) i = option_map rename1 (nth_error ts i).
Proof. unfold SpecRename.rename. revert i. induction ts; intros []; cbn; auto. Qed.
Lemma replace_rename c new : replace_current_token (rename_ctx c) (rename new) = rename_ctx (replace_current_token c new).
Proof.
  destruct c as [|[i ts] c]; [reflexivity|]. cbn [rename_ctx map rename_cursor fst snd replace_current_token].
  rewrite splice_rename, !rename_length. reflexivity.
Qed.
Lemma remove_rename c : remove_current_token (rename_ctx c) = rename_ctx (remove_current_token c).
Proof.
  destruct c as [|[i ts] c]; [reflexivity|]. cbn [rename_ctx map rename_cursor fst snd remove_current_token].
  rewrite rename_length, splice_nil_rename. destruct (Nat.ltb i (length ts)); reflexivity.
Qed.
Lemma advance_rename c : advance_current_group (rename_ctx c) = rename_ctx (advance_current_group c).
Proof.
  destruct c as [|[i ts] c]; [reflexivity|]. cbn [rename_ctx map rename_cursor fst snd advance_current_group].
  rewrite rename_length. reflexivity.
Qed.
Lemma fold_group_rename g p i : fold_group (rename g) (rename p) i = rmap rename (fold_group g p i).
Proof.
  unfold fold_group. rewrite nth_rename. destruct (nth_error p i) as [[x|c j|l|d ts]|]; try reflexivity.
  cbn [option_map SpecRename.rename1 rmap]. rewrite <- splice_rename. reflexivity.
Qed.
Lemma pop_fold_rename c : pop_fold (rename_ctx c) = rmap rename_ctx (pop_fold c).
Proof.
  destruct c as [|[i ts] [|[j p] c]]; [reflexivity..|]. cbn [rename_ctx map rename_cursor fst snd pop_fold].
  apply (rbind rename); [apply fold_group_rename|reflexivity].
Qed.
Lemma stream_rename c : current_stream (rename_ctx c) = rmap rename (current_stream c).
Proof.
  destruct c as [|[i ts] c]; [reflexivity|]. cbn [rename_ctx map rename_cursor fst snd current_stream]. fold (rename_ctx c).
  assert (G : forall c (x : res (list tt)), fold_left (fun acc f => bind acc (fun a => fold_group a (snd f) (fst f))) (rename_ctx c) (rmap rename x) =
    rmap rename (fold_left (fun acc f => bind acc (fun a => fold_group a (snd f) (fst f))) c x)); [|exact (G c (Ok ts))].
  clear. induction c as [|[i ts] c IH]; intros x; [reflexivity|]. cbn [rename_ctx map rename_cursor fst snd fold_left]. fold (rename_ctx c).
  rewrite <- IH. f_equal. apply (rbind rename); [reflexivity|]. intros a. apply fold_group_rename.
Qed.

(** ** The substitution *)
Section Subst.
Context (O : oracles) (lookup : str -> option value).
Context (Hs : forall v p, on_literals r (LStr v p) = LStr v p) (Hv : forall l, parse_lit_str O [TLit (on_literals r l)] = parse_lit_str O [TLit l]).
Context (Hl : forall x, lookup (r x) = lookup x) (Hx : forall x v, lookup x = Some v -> r x = x /\ rename (to_tokens v) = to_tokens v).
Context {N : Type} (h : N -> N) (parse : list tt -> option N) (Hp : forall ts, parse (rename ts) = option_map h (parse ts)).

Notation V := (subst_visitor O lookup parse).
Definition rename_step (x : sstate * ctx + sstate * list tt) : sstate * ctx + sstate * list tt :=
  match x with inl (s, c) => inl (s, rename_ctx c) | inr (s, ts) => inr (s, rename ts) end.
Definition rename_action (a : action) : action := match a with Replace ts => Replace (rename ts) | _ => a end.
Lemma after_rename s c : subst_after parse s (rename_ctx c) = subst_after parse s c.
Proof.
  unfold subst_after. rewrite stream_rename. destruct (current_stream c) as [ts|e|p]; [|reflexivity..]. cbn [rmap bind].
  rewrite Hp. destruct (parse ts); reflexivity.
Qed.
Lemma skip_or_replace_rename s c a :
  skip_or_replace V s (rename_ctx c) (rename_action a) = rmap (fun x => (fst x, rename_ctx (snd x))) (skip_or_replace V s c a).
Proof.
  destruct a as [| |[|t new]]; cbn [rename_action skip_or_replace].
  - rewrite advance_rename. reflexivity.
  - rewrite remove_rename. reflexivity.
  - cbn [SpecRename.rename map]. change ([] : list tt) with (rename []). rewrite replace_rename.
    apply (rbind (fun s => s)); [|reflexivity]. cbn [after_replace subst_visitor]. rewrite after_rename. destruct (subst_after parse s _); reflexivity.
  - change (match rename (t :: new) with [] => let c' := replace_current_token (rename_ctx c) [] in let! s' := after_replace V s c' in Ok (s', c')
      | _ => let c' := advance_current_group (replace_current_token (rename_ctx c) (rename (t :: new))) in let! s' := after_replace V s c' in Ok (s', c') end =
      rmap (fun x => (fst x, rename_ctx (snd x))) (skip_or_replace V s c (Replace (t :: new)))).
    cbn [SpecRename.rename map]. change (rename1 t :: map rename1 new) with (rename (t :: new)). rewrite replace_rename, advance_rename.
    cbn [skip_or_replace]. apply (rbind (fun s => s)); [|reflexivity]. cbn [after_replace subst_visitor]. rewrite after_rename. destruct (subst_after parse s _); reflexivity.
Qed.
Lemma step_rename s c : walk_step V s (rename_ctx c) = rmap rename_step (walk_step V s c).
Proof.
  destruct c as [|[i ts] c]; [reflexivity|]. unfold walk_step. cbn [rename_ctx map rename_cursor fst snd]. fold (rename_ctx c).
  rewrite nth_rename. destruct (nth_error ts i) as [[x|p j|l|d g]|]; cbn [option_map SpecRename.rename1].
  - cbn [visit_ident subst_visitor]. unfold subst_ident. rewrite Hl. destruct (lookup x) as [v|] eqn:E.
    + destruct (Hx _ _ E) as [Ex Ev]. rewrite Ex. cbn [bind]. rewrite <- Ev at 1.
      apply (rbind (fun x => (fst x, rename_ctx (snd x)))); [apply (skip_or_replace_rename _ ((i, ts) :: c) (Replace (to_tokens v)))|].
      intros [? ?]; reflexivity.
    + cbn [bind]. apply (rbind (fun x => (fst x, rename_ctx (snd x)))); [apply (skip_or_replace_rename _ ((i, ts) :: c) Continue)|].
      intros [? ?]; reflexivity.
  - cbn [visit_punct subst_visitor bind]. apply (rbind (fun x => (fst x, rename_ctx (snd x)))); [apply (skip_or_replace_rename _ ((i, ts) :: c) Continue)|].
    intros [? ?]; reflexivity.
  - cbn [visit_literal subst_visitor]. unfold subst_literal. rewrite Hv. destruct (parse_lit_str O [TLit l]) as [[v ?]|]; cbn [bind].
    + rewrite <- (Hs (FormatString.format_string O lookup v) []) at 1. apply (rbind (fun x => (fst x, rename_ctx (snd x)))); [apply (skip_or_replace_rename _ ((i, ts) :: c) (Replace [TLit (LStr (FormatString.format_string O lookup v) [])]))|].
      intros [? ?]; reflexivity.
    + apply (rbind (fun x => (fst x, rename_ctx (snd x)))); [apply (skip_or_replace_rename _ ((i, ts) :: c) Continue)|].
      intros [? ?]; reflexivity.
  - reflexivity.
  - cbn [exit_group subst_visitor bind]. destruct c as [|[j p] c]; [reflexivity|]. cbn [rename_ctx map].
    apply (rbind rename_ctx); [apply (pop_fold_rename ((i, ts) :: (j, p) :: c))|]. intros c'. cbn [rmap rename_step]. rewrite advance_rename. reflexivity.
Qed.
Lemma walk_from_rename fuel : forall s c, walk_from V fuel s (rename_ctx c) = rmap (fun x => (fst x, rename (snd x))) (walk_from V fuel s c).
Proof.
  induction fuel as [|fuel IH]; intros s c; [reflexivity|]. cbn [walk_from]. apply (rbind rename_step); [apply step_rename|].
  intros [[s' c']|[s' ts]]; cbn [rename_step]; [apply IH|reflexivity].
Qed.
Lemma substitute_rename ts : substitute_idents O lookup parse (rename ts) = rmap h (substitute_idents O lookup parse ts).
Proof.
  unfold substitute_idents, walk. rewrite steps_rename. change [(0, rename ts)] with (rename_ctx [(0, ts)]).
  apply (rbind (fun x => (fst x, rename (snd x)))); [apply walk_from_rename|]. intros [s ts']. cbn [fst snd]. rewrite Hp.
  destruct (parse ts'); reflexivity.
Qed.
End Subst.
End Walk.
